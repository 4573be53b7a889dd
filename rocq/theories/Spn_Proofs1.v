(** Sums, signed permutations and the loops over permutations. *)
From Coq Require Import ZArith QArith Qcanon List Arith Bool Permutation Sorted Factorial Lia Ring.
From Verif Require Import Alg_Model Alg_Spec Alg_Proofs1 Alg_Proofs2 Spn_Model Spn_Spec.
Import ListNotations.
Local Open Scope nat_scope.

Section Sum.
  Context {K : qalg}.
  Local Open Scope q_scope.
  Add Ring Kring : (qring K).

  Lemma sum_app {X} (f : X -> K) l m : sum f (l ++ m) = sum f l + sum f m.
  Proof. unfold sum. induction l; cbn; [ring|]. rewrite IHl. ring. Qed.
  Lemma sum_cons {X} (f : X -> K) x l : sum f (x :: l) = f x + sum f l. Proof. reflexivity. Qed.
  Lemma sum_map {X Y} (f : Y -> K) (g : X -> Y) l : sum f (map g l) = sum (fun x => f (g x)) l.
  Proof. unfold sum. induction l; cbn; congruence. Qed.
  Lemma sum_ext {X} (f g : X -> K) l : (forall x, In x l -> f x = g x) -> sum f l = sum g l.
  Proof. unfold sum. induction l; intros H; cbn; auto. rewrite IHl, (H a) by (intros; try apply H; cbn; auto). reflexivity. Qed.
  Lemma sum_perm {X} (f : X -> K) l m : Permutation l m -> sum f l = sum f m.
  Proof. unfold sum. induction 1; cbn; try congruence. ring. Qed.
  Lemma sum_flat_map {X Y} (f : Y -> K) (g : X -> list Y) l : sum f (flat_map g l) = sum (fun x => sum f (g x)) l.
  Proof. induction l; cbn [flat_map]; auto. rewrite sum_app, sum_cons, IHl. reflexivity. Qed.
  Lemma sum_concat {Y} (f : Y -> K) l : sum f (concat l) = sum (fun x => sum f x) l.
  Proof. induction l; cbn [concat]; auto. rewrite sum_app, sum_cons, IHl. reflexivity. Qed.
  Lemma sum_add {X} (f g : X -> K) l : sum (fun x => f x + g x) l = sum f l + sum g l.
  Proof. unfold sum. induction l; cbn; [ring|]. rewrite IHl. ring. Qed.
  Lemma sum_mul_l {X} (c : K) (f : X -> K) l : sum (fun x => c * f x) l = c * sum f l.
  Proof. unfold sum. induction l; cbn; [ring|]. rewrite IHl. ring. Qed.
  Lemma sum_mul_r {X} (c : K) (f : X -> K) l : sum (fun x => f x * c) l = sum f l * c.
  Proof. unfold sum. induction l; cbn; [ring|]. rewrite IHl. ring. Qed.
  Lemma sum_zero {X} (f : X -> K) l : (forall x, In x l -> f x = 0) -> sum f l = 0.
  Proof. intros H. rewrite (sum_ext f (fun _ => 0)) by auto. unfold sum. induction l; cbn; auto. rewrite IHl by (intros; apply H; cbn; auto). ring. Qed.
  Lemma sum_swap {X Y} (f : X -> Y -> K) l m : sum (fun x => sum (f x) m) l = sum (fun y => sum (fun x => f x y) l) m.
  Proof.
    induction l as [|x l IH].
    - rewrite (sum_zero _ m); [reflexivity|]. intros; reflexivity.
    - rewrite sum_cons, IH, <- sum_add. apply sum_ext. reflexivity.
  Qed.
  Lemma prod_cons {X} (f : X -> K) x l : prod f (x :: l) = f x * prod f l. Proof. reflexivity. Qed.
  Lemma prod_ext {X} (f g : X -> K) l : (forall x, In x l -> f x = g x) -> prod f l = prod g l.
  Proof. unfold prod. induction l; intros H; cbn; auto. rewrite IHl, (H a) by (intros; try apply H; cbn; auto). reflexivity. Qed.
  Lemma prod_map {X Y} (f : Y -> K) (g : X -> Y) l : prod f (map g l) = prod (fun x => f (g x)) l.
  Proof. unfold prod. induction l; cbn; congruence. Qed.

  Lemma sgn_xorb b c : sgn (xorb b c) = sgn b * sgn c :> K.
  Proof. destruct b, c; cbn; ring. Qed.
  Lemma sgn_negb b : sgn (negb b) = - sgn b :> K.
  Proof. destruct b; cbn; ring. Qed.
  Lemma sgn_sq b : sgn b * sgn b = 1 :> K.
  Proof. destruct b; cbn; ring. Qed.

  Lemma rat_0 : rat 0%Qc = 0 :> K.
  Proof.
    assert (H : rat 0%Qc = rat 0%Qc + rat 0%Qc :> K) by (rewrite <- rat_add; f_equal).
    transitivity (rat 0%Qc + rat 0%Qc + - rat 0%Qc : K); [ring|rewrite <- H; ring].
  Qed.
  Lemma rat_opp x : rat (- x)%Qc = - rat x :> K.
  Proof.
    assert (H : rat x + rat (- x)%Qc = 0 :> K) by (rewrite <- rat_add, Qcplus_opp_r; apply rat_0).
    transitivity (rat x + rat (- x)%Qc + - rat x : K); [ring|rewrite H; ring].
  Qed.
  Lemma rat_sgn b : rat (sgnQ b) = sgn b :> K.
  Proof. destruct b; cbn; [rewrite rat_opp|]; rewrite rat_1; reflexivity. Qed.

  (** A number as an element of the ring. *)
  Fixpoint natK (n : nat) : K := match n with O => 0 | S n' => 1 + natK n' end.
  Lemma rat_nat n : rat (Q2Qc (inject_Z (Z.of_nat n))) = natK n.
  Proof.
    induction n as [|n IH]; [apply rat_0|].
    transitivity (rat (1 + Q2Qc (inject_Z (Z.of_nat n)))%Qc : K).
    - f_equal. apply Qc_is_canon. cbn [this Qcplus Q2Qc]. rewrite !Qred_correct. rewrite Nat2Z.inj_succ. unfold Z.succ.
      rewrite inject_Z_plus. change (inject_Z 1) with 1%Q. ring.
    - rewrite rat_add, rat_1, IH. reflexivity.
  Qed.
  Lemma natK_add n m : natK (n + m) = natK n + natK m.
  Proof. induction n; cbn; [ring|]. rewrite IHn. ring. Qed.
  Lemma natK_mul n m : natK (n * m) = natK n * natK m.
  Proof. induction n; cbn; [ring|]. rewrite natK_add, IHn. ring. Qed.
  Lemma sum_const {X} (c : K) (l : list X) : sum (fun _ => c) l = natK (length l) * c.
  Proof. induction l as [|x l IH]; [cbn; ring|]. rewrite sum_cons, IH. cbn [length natK]. ring. Qed.
End Sum.

(** ** Signed permutations *)
Section SP.
  Context {X : Type}.

  Lemma insertions_iff (x : X) l s m : In (s, m) (insertions x l) <->
    exists l1 l2, l = l1 ++ l2 /\ m = l1 ++ x :: l2 /\ s = Nat.odd (length l1).
  Proof.
    revert s m. induction l as [|y l IH]; intros s m; cbn [insertions].
    - split.
      + intros [E|[]]. injection E as <- <-. exists [], []. auto.
      + intros (l1 & l2 & E & -> & ->). symmetry in E. apply app_eq_nil in E. destruct E as (-> & ->). left. reflexivity.
    - split.
      + intros [E|H].
        * injection E as <- <-. exists [], (y :: l). auto.
        * apply in_map_iff in H. destruct H as ((s' & m') & E & H). cbn in E. injection E as <- <-.
          apply IH in H. destruct H as (l1 & l2 & -> & -> & ->). exists (y :: l1), l2.
          split; auto. split; auto. cbn [length]. rewrite Nat.odd_succ, <- Nat.negb_odd. reflexivity.
      + intros (l1 & l2 & E & -> & ->). destruct l1 as [|z l1].
        * cbn in E. subst. left. reflexivity.
        * cbn in E. injection E as <- ->. right. apply in_map_iff. exists (Nat.odd (length l1), l1 ++ x :: l2). split.
          -- cbn [fst snd length]. rewrite Nat.odd_succ, <- Nat.negb_odd. reflexivity.
          -- apply IH. exists l1, l2. auto.
  Qed.

  Lemma exchanges_insert (x : X) l1 : forall l2, exchanges (length l1) (x :: l1 ++ l2) (l1 ++ x :: l2).
  Proof.
    induction l1 as [|y l1 IH]; intros l2; [constructor|]. cbn [length app].
    apply (ex_swap _ [] x [] y (l1 ++ l2)). cbn.
    pose proof (exchanges_ctx _ _ _ [y] [] (IH l2)) as E. cbn [app] in E. rewrite !app_nil_r in E. exact E.
  Qed.

  Lemma signed_perms_exchanges (l : list X) : forall s q, In (s, q) (signed_perms l) -> exists k, exchanges k l q /\ s = Nat.odd k.
  Proof.
    induction l as [|x l IH]; intros s q; cbn [signed_perms].
    - intros [E|[]]. injection E as <- <-. exists 0. split; [constructor|reflexivity].
    - intros H. apply in_flat_map in H. destruct H as ((s1 & m) & H1 & H2). cbn [fst snd] in H2.
      apply in_map_iff in H2. destruct H2 as ((s2 & m2) & E & H2). cbn [fst snd] in E. injection E as <- <-.
      apply insertions_iff in H2. destruct H2 as (l1 & l2 & -> & -> & ->).
      destruct (IH _ _ H1) as (k & Ek & ->). exists (k + length l1). split.
      + eapply exchanges_trans; [|apply exchanges_insert].
        pose proof (exchanges_ctx _ _ _ [x] [] Ek) as E. cbn [app] in E. rewrite !app_nil_r in E. exact E.
      + rewrite Nat.odd_add. reflexivity.
  Qed.

  Lemma signed_perms_complete (l : list X) : forall q, Permutation l q -> In q (map snd (signed_perms l)).
  Proof.
    induction l as [|x l IH]; intros q P.
    - apply Permutation_nil in P. subst. left. reflexivity.
    - assert (Hx : In x q) by (eapply Permutation_in; [exact P|left; auto]).
      apply in_split in Hx. destruct Hx as (q1 & q2 & ->). apply Permutation_cons_app_inv in P.
      apply IH in P. apply in_map_iff in P. destruct P as ((s & m) & E & H). cbn in E. subst m.
      apply in_map_iff. exists (xorb s (Nat.odd (length q1)), q1 ++ x :: q2). split; auto.
      cbn [signed_perms]. apply in_flat_map. exists (s, q1 ++ q2). split; auto. cbn [fst snd].
      apply in_map_iff. exists (Nat.odd (length q1), q1 ++ x :: q2). split; auto.
      apply insertions_iff. exists q1, q2. auto.
  Qed.

  Lemma insertions_length (x : X) l : length (insertions x l) = S (length l).
  Proof. induction l; cbn; auto. rewrite map_length. auto. Qed.
  Lemma signed_perms_len (l : list X) : forall s q, In (s, q) (signed_perms l) -> length q = length l.
  Proof. intros s q H. apply signed_perms_exchanges in H. destruct H as (k & E & _). apply exchanges_perm in E. apply Permutation_length in E. auto. Qed.
  Lemma signed_perms_length (l : list X) : length (signed_perms l) = fact (length l).
  Proof.
    induction l as [|x l IH]; auto. cbn [signed_perms length fact].
    assert (G : forall ps : list (bool * list X), (forall s q, In (s, q) ps -> length q = length l) ->
      length (flat_map (fun sm : bool * list X => map (fun sm' : bool * list X => (xorb (fst sm) (fst sm'), snd sm')) (insertions x (snd sm))) ps)
      = S (length l) * length ps).
    { induction ps as [|(s & q) ps IHp]; intros Hp; cbn [flat_map length]; [lia|].
      rewrite app_length, map_length, insertions_length, IHp by (intros; eapply Hp; right; eauto).
      cbn [snd]. rewrite (Hp s q) by (left; auto). lia. }
    rewrite G by (apply signed_perms_len). rewrite IH. lia.
  Qed.

  Lemma signed_perms_NoDup (l : list X) : NoDup l -> NoDup (map snd (signed_perms l)).
  Proof.
    intros N. induction N as [|x l Hx N IH]; [repeat constructor; auto|].
    cbn [signed_perms].
    assert (G : forall ps : list (bool * list X), (forall s q, In (s, q) ps -> ~ In x q) -> NoDup (map snd ps) ->
      NoDup (map snd (flat_map (fun sm : bool * list X => map (fun sm' : bool * list X => (xorb (fst sm) (fst sm'), snd sm')) (insertions x (snd sm))) ps))).
    { induction ps as [|(s & q) ps IHp]; intros Hp Np; cbn [flat_map map]; [constructor|].
      rewrite map_app. cbn in Np. inversion Np as [|? ? N1 N2]; subst.
      assert (Hxq : ~ In x q) by (eapply Hp; left; eauto).
      assert (D : NoDup (map snd (map (fun sm' : bool * list X => (xorb s (fst sm'), snd sm')) (insertions x q)))).
      { rewrite map_map. cbn [snd]. clear - Hxq. induction q as [|y q IHq]; cbn [insertions map]; [repeat constructor; auto|].
        rewrite map_map. cbn [snd]. constructor.
        - intros H. apply in_map_iff in H. destruct H as (? & E & _). injection E as -> _. apply Hxq. left. auto.
        - rewrite <- (map_map snd (cons y)). apply FinFun.Injective_map_NoDup; [intros u v E; injection E; auto|].
          apply IHq. intros H. apply Hxq. right. auto. }
      cbn [fst snd].
      assert (A2 : forall m, In m (map snd (map (fun sm' : bool * list X => (xorb s (fst sm'), snd sm')) (insertions x q))) ->
                   exists q1 q2, q = q1 ++ q2 /\ m = q1 ++ x :: q2).
      { intros m Hm. rewrite map_map in Hm. cbn in Hm. apply in_map_iff in Hm. destruct Hm as ((s' & m') & E & H). cbn in E. subst m'.
        apply insertions_iff in H. destruct H as (q1 & q2 & H1 & H2 & _). eauto. }
      specialize (IHp (fun s0 q0 H0 => Hp s0 q0 (or_intror H0)) N2).
      revert D A2 IHp. generalize (map snd (map (fun sm' : bool * list X => (xorb s (fst sm'), snd sm')) (insertions x q))). intros L D A2 IHp.
      induction D as [|m L Hm D IHD]; cbn [app]; auto. constructor; [|apply IHD; intros; apply A2; right; auto].
      intros H. apply in_app_iff in H. destruct H as [H|H]; [auto|].
      destruct (A2 m (or_introl eq_refl)) as (q1 & q2 & -> & ->).
      apply in_map_iff in H. destruct H as ((s3 & m3) & E3 & H3). cbn in E3. subst m3.
      apply in_flat_map in H3. destruct H3 as ((s4 & m4) & H4 & H5). cbn [fst snd] in H5.
      apply in_map_iff in H5. destruct H5 as ((s6 & m6) & E6 & H6). cbn [fst snd] in E6. injection E6 as _ E7. rewrite E7 in H6.
      apply insertions_iff in H6. destruct H6 as (r1 & r2 & -> & E & _).
      assert (Nx : ~ In x (r1 ++ r2)) by (eapply Hp; right; eauto).
      assert (q1 = r1 /\ q2 = r2) as (-> & ->).
      { clear - E Hxq Nx. revert r1 E Nx. induction q1 as [|y q1 IHq]; intros [|z r1] E Nx; cbn in *.
        - injection E as ->. auto.
        - exfalso. injection E as E1 E2. apply Nx. auto.
        - exfalso. injection E as E1 E2. apply Hxq. auto.
        - injection E as -> E. destruct (IHq ltac:(tauto) r1 E ltac:(tauto)) as (-> & ->). auto. }
      apply N1. apply in_map_iff. exists (s4, r1 ++ r2). auto. }
    apply G; auto. intros s q H Hxq. apply signed_perms_exchanges in H. destruct H as (k & E & _).
    apply exchanges_perm in E. apply Hx. eapply Permutation_in; [apply Permutation_sym; exact E|auto].
  Qed.
End SP.

Lemma insertions_map {X Y} (f : X -> Y) x l :
  insertions (f x) (map f l) = map (fun sm : bool * list X => (fst sm, map f (snd sm))) (insertions x l).
Proof.
  induction l as [|y l IH]; cbn [insertions map]; auto. f_equal. rewrite IH, !map_map. apply map_ext. reflexivity.
Qed.
Lemma signed_perms_map {X Y} (f : X -> Y) l :
  signed_perms (map f l) = map (fun sm : bool * list X => (fst sm, map f (snd sm))) (signed_perms l).
Proof.
  induction l as [|x l IH]; cbn [signed_perms map]; auto. rewrite IH.
  generalize (signed_perms l). intros ps. induction ps as [|(s & q) ps IHp]; cbn [flat_map map]; auto.
  rewrite map_app, IHp. f_equal. cbn [fst snd]. rewrite insertions_map, !map_map. apply map_ext. reflexivity.
Qed.

(** The signed sum over all permutations, in any enumeration of them. *)
Definition all_perms_of {X} (l : list X) (Q : list (list X)) : Prop :=
  NoDup Q /\ forall q, In q Q <-> Permutation l q.

Section Signed.
  Context {K : qalg} {X : Type}.
  Local Open Scope q_scope.
  Add Ring Kring2 : (qring K).
  Variable lt : X -> X -> bool.

  Lemma signed_sum_any l Q (F : list X -> K) : total_on lt l -> NoDup l -> all_perms_of l Q ->
    sum (fun sq : bool * list X => sgn (fst sq) * F (snd sq)) (signed_perms l)
    = sgn (Nat.odd (inversions lt l)) * sum (fun q => sgn (Nat.odd (inversions lt q)) * F q) Q.
  Proof.
    intros T N (NQ & HQ). rewrite <- sum_mul_l.
    rewrite (sum_perm _ Q (map snd (signed_perms l))).
    - rewrite sum_map. apply sum_ext. intros (s & q) H. cbn [fst snd].
      destruct (signed_perms_exchanges l s q H) as (k & E & ->).
      destruct T as (irr & tr & tri). rewrite (exchanges_sign lt irr tr k l q E N tri), sgn_xorb.
      pose proof (sgn_sq (K:=K) (Nat.odd (inversions lt l))) as Sq.
      transitivity ((sgn (Nat.odd (inversions lt l)) * sgn (Nat.odd (inversions lt l))) * (sgn (Nat.odd k) * F q) : K); [rewrite Sq; ring|ring].
    - apply NoDup_Permutation; auto; [apply signed_perms_NoDup; auto|].
      intros q. rewrite HQ. split; [apply signed_perms_complete|].
      intros H. apply in_map_iff in H. destruct H as ((s & q') & <- & H). cbn [snd].
      destruct (signed_perms_exchanges l s q' H) as (k & E & _). eapply exchanges_perm; eauto.
  Qed.

  Lemma unsigned_sum_any l Q (F : list X -> K) : NoDup l -> all_perms_of l Q ->
    sum (fun sq : bool * list X => F (snd sq)) (signed_perms l) = sum F Q.
  Proof.
    intros N (NQ & HQ).
    rewrite (sum_perm _ Q (map snd (signed_perms l))); [rewrite sum_map; reflexivity|].
    apply NoDup_Permutation; auto; [apply signed_perms_NoDup; auto|].
    intros q. rewrite HQ. split; [apply signed_perms_complete|].
    intros H. apply in_map_iff in H. destruct H as ((s & q') & <- & H). cbn [snd].
    destruct (signed_perms_exchanges l s q' H) as (k & E & _). eapply exchanges_perm; eauto.
  Qed.
End Signed.

(** ** The loops *)
Lemma permutation_loop_all {A} (lt : A -> A -> bool) (l : list A) : total_on lt l -> in_sorted_order lt l -> NoDup l ->
  exists Q, permutation_loop lt l = Some Q /\ all_perms_of l Q.
Proof.
  intros T S N. destruct (antisym_all lt l T S N (fact (length l)) (le_n _)) as (calls & E & _ & N1 & H1 & _).
  exists (map fst calls). split; [|split; auto]. unfold permutation_loop.
  unfold antisymmetric_permutation in E. destruct (Nat.leb_spec (length l) 1) as [L|L].
  - injection E as <-. destruct l as [|x [|y l]]; [reflexivity..|cbn in L; lia].
  - rewrite E. reflexivity.
Qed.

Lemma seq_sorted n : in_sorted_order Nat.ltb (seq 0 n).
Proof.
  unfold in_sorted_order. generalize 0. induction n as [|n IH]; intros k; cbn [seq]; constructor; auto.
  apply Forall_forall. intros x H. apply in_seq in H. apply Nat.ltb_ge. lia.
Qed.
Lemma ltb_total l : total_on Nat.ltb l.
Proof.
  repeat split.
  - apply Nat.ltb_irrefl.
  - intros x y z. rewrite !Nat.ltb_lt. lia.
  - intros x y _ _. rewrite !Nat.ltb_lt. lia.
Qed.
Lemma iota_loop n : exists Q, permutation_loop Nat.ltb (seq 0 n) = Some Q /\ all_perms_of (seq 0 n) Q.
Proof. apply permutation_loop_all; [apply ltb_total|apply seq_sorted|apply seq_NoDup]. Qed.

Section TO.
  Variable lt : index -> index -> bool.
  Hypothesis TO : total_order lt.
  Let irr := proj1 TO.
  Let tr := proj1 (proj2 TO).
  Let tri := proj2 (proj2 TO).

  Lemma TO_on l : total_on lt l.
  Proof. split; [exact irr|]. split; [exact tr|]. intros; apply tri. Qed.
  Lemma TO_sw : strict_weak lt.
  Proof.
    split; [exact irr|]. split; [exact tr|]. intros x y z H1 H2.
    destruct (lt x z) eqn:E; auto. destruct (tri x y) as [->|[H|H]]; try congruence.
    rewrite (tr _ _ _ H E) in H2. discriminate.
  Qed.

  Lemma sort_parity_ok l : sort_parity lt l = Some (Nat.odd (inversions lt l)).
  Proof. unfold sort_parity. destruct (bubble_ok lt TO_sw l) as (r & E & _). rewrite E. reflexivity. Qed.
  Lemma tensor_phase_ok b k : tensor_phase lt b k = Some (xorb (Nat.odd (inversions lt b)) (Nat.odd (inversions lt k))).
  Proof. unfold tensor_phase. rewrite !sort_parity_ok. reflexivity. Qed.

  Lemma lt_asym x y : lt x y = true -> lt y x = false.
  Proof. intros H. destruct (lt y x) eqn:E; auto. rewrite <- (irr x). symmetry. eapply tr; eauto. Qed.

  Lemma set_insert_In x l y : In y (set_insert lt x l) <-> y = x \/ In y l.
  Proof.
    induction l as [|z l IH]; cbn [set_insert]; [cbn; intuition|].
    destruct (lt x z) eqn:E1; [cbn; intuition|]. destruct (lt z x) eqn:E2.
    - cbn. rewrite IH. intuition.
    - destruct (tri x z) as [->|[H|H]]; try congruence. cbn. intuition.
  Qed.
  Lemma set_insert_sorted x l : in_sorted_order lt l -> NoDup l -> in_sorted_order lt (set_insert lt x l) /\ NoDup (set_insert lt x l).
  Proof.
    unfold in_sorted_order. induction l as [|z l IH]; intros S N; cbn [set_insert].
    - split; repeat constructor; auto.
    - inversion S as [|? ? S1 S2]; subst. inversion N as [|? ? N1 N2]; subst. rewrite Forall_forall in S2.
      destruct (lt x z) eqn:E1.
      + split.
        * constructor; auto. apply Forall_forall. intros y [<-|H]; [apply lt_asym; auto|].
          destruct (lt y x) eqn:E; auto. rewrite <- (S2 y H). symmetry. eapply tr; eauto.
        * constructor; auto. intros [->|H]; [rewrite irr in E1; discriminate|]. rewrite S2 in E1 by auto. discriminate.
      + destruct (lt z x) eqn:E2.
        * destruct (IH S1 N2) as (I1 & I2). split.
          -- constructor; auto. apply Forall_forall. intros y H. apply set_insert_In in H. destruct H as [->|H]; [apply lt_asym; auto|auto].
          -- constructor; auto. intros H. apply set_insert_In in H. destruct H as [->|H]; [rewrite irr in E2; discriminate|auto].
        * split; auto.
  Qed.
  Lemma set_of_fold l : forall s, in_sorted_order lt s -> NoDup s ->
    let r := fold_left (fun s x => set_insert lt x s) l s in
    in_sorted_order lt r /\ NoDup r /\ forall y, In y r <-> In y l \/ In y s.
  Proof.
    induction l as [|x l IH]; intros s S N; cbn [fold_left].
    - cbn. intuition.
    - destruct (set_insert_sorted x s S N) as (S1 & N1). destruct (IH _ S1 N1) as (H1 & H2 & H3).
      split; auto. split; auto. intros y. rewrite H3, set_insert_In. cbn. intuition.
  Qed.
  Lemma set_of_ok l : in_sorted_order lt (set_of lt l) /\ NoDup (set_of lt l) /\ forall y, In y (set_of lt l) <-> In y l.
  Proof.
    destruct (set_of_fold l [] ltac:(constructor) ltac:(constructor)) as (H1 & H2 & H3).
    split; auto. split; auto. intros y. unfold set_of. rewrite H3. cbn. intuition.
  Qed.
  Lemma set_of_perm l : NoDup l -> Permutation l (set_of lt l).
  Proof. intros N. destruct (set_of_ok l) as (_ & N1 & H). apply NoDup_Permutation; auto. intros y. rewrite H. tauto. Qed.
  Lemma sorted_inversions l : in_sorted_order lt l -> inversions lt l = 0.
  Proof.
    intros S. induction l as [|a m IHm]; auto. cbn. inversion S as [|? ? S1 S2]; subst.
    rewrite (IHm S1). clear - S2. induction S2 as [|b m Hb S2 IHS]; auto. cbn. rewrite Hb. auto.
  Qed.
End TO.

Lemma mapM_some {A B} (f : A -> option B) (g : A -> B) l : (forall x, In x l -> f x = Some (g x)) -> mapM f l = Some (map g l).
Proof.
  induction l as [|x l IH]; intros H; cbn; auto. rewrite (H x) by (left; auto). rewrite IH by (intros; apply H; right; auto). reflexivity.
Qed.
Lemma concat_mapM_some {A B} (f : A -> option (list B)) (g : A -> list B) l :
  (forall x, In x l -> f x = Some (g x)) -> concat_mapM f l = Some (flat_map g l).
Proof. intros H. unfold concat_mapM. rewrite (mapM_some f g) by auto. cbn. rewrite flat_map_concat_map. reflexivity. Qed.
