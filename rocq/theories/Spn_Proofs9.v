(** Closed-shell spin tracing: the number of consistent spin assignments. *)
From Coq Require Import ZArith NArith QArith Qcanon List Arith Bool Permutation Sorted Relations Lia Ring.
From Verif Require Import Alg_Model Alg_Spec Alg_Proofs1 Alg_Proofs2 Alg_Proofs3 Spn_Model Spn_Spec Spn_Proofs1 Spn_Proofs2 Spn_Proofs3 Spn_Proofs4 Spn_Proofs5 Spn_Proofs6 Spn_Proofs7 Spn_Proofs8.
Import ListNotations.
Local Open Scope nat_scope.

Section Count.
  Context {K : qalg}.
  Local Open Scope q_scope.
  Add Ring Kring17 : (qring K).

  Lemma forallb_ext' {A} (f g : A -> bool) l : (forall x, In x l -> f x = g x) -> forallb f l = forallb g l.
  Proof. induction l as [|x l IH]; intros H; cbn; auto. rewrite (H x (or_introl eq_refl)), IH; auto. intros; apply H; right; auto. Qed.

  Lemma spin_sum_app g1 g2 (F : (nat -> bool) -> K) s : spin_sum (g1 ++ g2) F s = spin_sum g1 (spin_sum g2 F) s.
  Proof. revert s. induction g1 as [|g g1 IH]; intros s; cbn; auto. rewrite !IH. reflexivity. Qed.

  Definition ind (p : bool) : K := if p then 1 else 0.
  Lemma spin_sum_const gs c s : spin_sum gs (fun _ => c) s = natK (2 ^ length gs) * c :> K.
  Proof.
    revert s. induction gs as [|g gs IH]; intros s; cbn [spin_sum length].
    - change (2 ^ 0)%nat with 1%nat. unfold natK. cbn. ring.
    - rewrite !IH. change (2 ^ S (length gs))%nat with (2 * 2 ^ length gs)%nat. rewrite natK_mul. unfold natK at 3. cbn. ring.
  Qed.

  (** Each vertex that is not a representative has the spin of its representative: one way. *)
  Lemma spin_sum_forced xs (f : nat -> nat) : NoDup xs -> (forall x, In x xs -> ~ In (f x) xs) ->
    forall s, spin_sum (map (fun x => [x]) xs) (fun s' => ind (forallb (fun x => Bool.eqb (s' x) (s' (f x))) xs)) s = 1.
  Proof.
    assert (G : forall xs done, NoDup (done ++ xs) -> (forall x, In x (done ++ xs) -> ~ In (f x) (done ++ xs)) -> forall s,
      spin_sum (map (fun x => [x]) xs) (fun s' => ind (forallb (fun x => Bool.eqb (s' x) (s' (f x))) (done ++ xs))) s
      = ind (forallb (fun x => Bool.eqb (s x) (s (f x))) done)).
    { clear xs. induction xs as [|x xs IH]; intros done N Hf s; cbn [map spin_sum]; [rewrite app_nil_r; reflexivity|].
      assert (E : done ++ x :: xs = (done ++ [x]) ++ xs) by (rewrite <- app_assoc; reflexivity).
      assert (Hx : ~ In x done) by (apply NoDup_remove_2 in N; rewrite in_app_iff in N; tauto).
      assert (One : forall v, spin_sum (map (fun x => [x]) xs) (fun s' => ind (forallb (fun x => Bool.eqb (s' x) (s' (f x))) (done ++ x :: xs))) (set_group [x] v s)
                   = ind (forallb (fun x => Bool.eqb (s x) (s (f x))) done && Bool.eqb v (s (f x)))).
      { intros v. rewrite E in *. rewrite IH by auto. rewrite forallb_app. cbn [forallb]. rewrite andb_true_r. f_equal. f_equal.
        - apply forallb_ext'. intros y Hy. unfold set_group. cbn [existsb].
          destruct (Nat.eqb_spec y x) as [->|]; [contradiction|]. destruct (Nat.eqb_spec (f y) x) as [Ey|]; auto.
          exfalso. apply (Hf y); [rewrite !in_app_iff; auto|]. rewrite Ey, !in_app_iff. cbn. auto.
        - unfold set_group. cbn [existsb]. rewrite Nat.eqb_refl. cbn [orb]. destruct (Nat.eqb_spec (f x) x) as [Ey|]; auto.
          exfalso. apply (Hf x); rewrite ?Ey, !in_app_iff; cbn; auto. }
      rewrite !One. unfold ind. destruct (forallb _ done), (s (f x)); cbn; ring. }
    intros N Hf s. exact (G xs [] N Hf s).
  Qed.

  (** The number of assignments that agree with the representatives. *)
  Lemma spin_sum_reps X R (f : nat -> nat) P : NoDup X -> NoDup R -> incl R X -> (forall x, In x X -> In (f x) R) -> (forall x, In x R -> f x = x) ->
    (forall s : nat -> bool, P s = true <-> forall x, In x X -> s x = s (f x)) -> (resp P) ->
    forall s, spin_sum (map (fun x => [x]) X) (fun s' => ind (P s')) s = natK (2 ^ length R).
  Proof.
    intros NX NR IR Hf Hr HP RP s.
    set (oth := filter (fun x => negb (existsb (Nat.eqb x) R)) X).
    assert (Ho : forall x, In x oth <-> In x X /\ ~ In x R) by (intros x; unfold oth; rewrite filter_In, negb_true_iff, existsb_notIn; tauto).
    assert (No : NoDup oth) by (apply NoDup_filter; auto).
    assert (Pm : Permutation X (R ++ oth)).
    { apply NoDup_Permutation; auto.
      - apply NoDup_app_intro; auto. intros x H1 H2. apply Ho in H2. tauto.
      - intros x. rewrite in_app_iff, Ho. split; [|intros [H|H]; [apply IR; auto|tauto]]. intros H. destruct (in_dec Nat.eq_dec x R); auto. }
    rewrite (spin_sum_perm _ (map (fun x => [x]) R ++ map (fun x => [x]) oth)).
    2:{ rewrite <- map_app. apply Permutation_map. auto. }
    2:{ rewrite singles_concat. auto. }
    2:{ intros s1 s2 E. rewrite (RP s1 s2); auto. }
    rewrite spin_sum_app.
    rewrite (spin_sum_ext _ _ (fun _ => 1)).
    - rewrite spin_sum_const, map_length. ring.
    - intros s'. rewrite <- (spin_sum_forced oth f No) with (s := s').
      + apply spin_sum_ext. intros s2. f_equal. apply eq_iff_eq_true. rewrite HP, forallb_forall. split.
        * intros H x Hx. apply Ho in Hx. rewrite (H x) by tauto. apply eqb_reflx.
        * intros H x Hx. destruct (in_dec Nat.eq_dec x R) as [Hx'|Hx']; [rewrite Hr; auto|]. apply eqb_prop. apply H. apply Ho. auto.
      + intros x Hx H. apply Ho in H. apply Ho in Hx. apply H, Hf. tauto.
  Qed.

  (** Columns [(p_i, q_i)] of vertices; every vertex occurs. *)
  Lemma finite_choice (X : list nat) (P : nat -> nat -> Prop) : (forall x, In x X -> exists y, P x y) -> exists f, forall x, In x X -> P x (f x).
  Proof.
    induction X as [|x X IH]; intros H; [exists (fun x => x); intros x []|].
    destruct IH as (f & Hf); [intros; apply H; right; auto|]. destruct (H x (or_introl eq_refl)) as (y & Hy).
    exists (fun z => if Nat.eqb z x then y else f z). intros z Hz. destruct (Nat.eqb_spec z x) as [->|]; auto. destruct Hz; [congruence|auto].
  Qed.

  Definition consistent (p q : list nat) (s : nat -> bool) : bool := forallb (fun xy : nat * nat => Bool.eqb (s (fst xy)) (s (snd xy))) (combine p q).

  Lemma consistent_nth p q s : length p = length q -> (consistent p q s = true <-> forall i x y, nth_error p i = Some x -> nth_error q i = Some y -> s x = s y).
  Proof.
    unfold consistent. revert q. induction p as [|x p IH]; intros [|y q] L; cbn in L; try discriminate.
    - cbn. split; auto. intros _ [|i] x y H; discriminate.
    - cbn [combine forallb fst snd]. rewrite andb_true_iff, IH by lia. split.
      + intros (H1 & H2) [|i] u v Hu Hv; cbn in *; [injection Hu as <-; injection Hv as <-; apply eqb_prop; auto|eauto].
      + intros H. split; [rewrite (H 0%nat x y eq_refl eq_refl); apply eqb_reflx|]. intros i u v Hu Hv. apply (H (S i)); auto.
  Qed.

  Lemma count_consistent (code : nat -> nat) X p q c s0 : NoDup X -> length p = length q -> (forall x, In x X <-> In x p \/ In x q) ->
    (forall x y, In x X -> In y X -> code x = code y -> x = y) ->
    count_cycles (map code p) (map code q) = Some c ->
    spin_sum (map (fun x => [x]) X) (fun s => ind (consistent p q s)) s0 = natK (2 ^ c).
  Proof.
    intros NX L HX Hc Ec.
    destruct (count_cycles_columns (map code p) (map code q)) as (c' & Ec' & (reps & Lr & Nr & Ir & Hcov & Huniq)); [rewrite !map_length; auto|].
    rewrite Ec in Ec'. injection Ec' as <-. rewrite map_length in *.
    set (E := share_value (map code p) (map code q)) in *. set (CX := seq 0 (length p)) in *.
    (* the columns of a vertex *)
    set (inc := fun x i => nth_error p i = Some x \/ nth_error q i = Some x).
    assert (Hcol : forall x, In x X -> exists i, In i CX /\ inc x i).
    { intros x Hx. apply HX in Hx. destruct Hx as [Hx|Hx]; apply In_nth_error in Hx; destruct Hx as (i & Hi); exists i;
        (assert (Hn : (i < length p)%nat) by (first [apply nth_error_Some; rewrite Hi; discriminate | rewrite L; apply nth_error_Some; rewrite Hi; discriminate]));
        (split; [apply in_seq; cbn; lia|unfold inc; auto]). }
    assert (Hshare : forall x i j, inc x i -> inc x j -> E i j).
    { intros x i j Hi Hj. exists (code x). unfold inc in *. split; [destruct Hi as [Hi|Hi]; [left|right]; apply map_nth_error; auto|destruct Hj as [Hj|Hj]; [left|right]; apply map_nth_error; auto]. }
    assert (HincX : forall x i, inc x i -> In x X) by (intros x i [H|H]; apply HX; apply nth_error_In in H; auto).
    assert (Hlt : forall x i, inc x i -> In i CX).
    { intros x i H. apply in_seq. split; [lia|]. cbn. destruct H as [H|H]; [|rewrite L]; apply nth_error_Some; rewrite H; discriminate. }
    (* names of representatives *)
    set (nm := fun r => nth r p 0%nat).
    assert (Hnm : forall r, In r CX -> nth_error p r = Some (nm r)) by (intros r Hr; apply in_seq in Hr; apply nth_error_nth'; cbn in Hr; lia).
    set (R := map nm reps).
    assert (HR : forall r, In r reps -> inc (nm r) r) by (intros r Hr; left; apply Hnm, Ir; auto).
    assert (NR : NoDup R).
    { unfold R. clear - Nr HR Huniq Hshare Ir. assert (Hinj : forall r1 r2, In r1 reps -> In r2 reps -> nm r1 = nm r2 -> r1 = r2).
      { intros r1 r2 H1 H2 En. apply Huniq; auto. apply rst_step. split; [apply Ir; auto|]. split; [apply Ir; auto|]. apply (Hshare (nm r1)); [apply HR; auto|rewrite En; apply HR; auto]. }
      clear - Nr Hinj. induction Nr as [|r reps Hr Nr IH]; cbn; constructor.
      - intros H. apply in_map_iff in H. destruct H as (r' & En & Hr'). apply Hr. rewrite (Hinj r r'); auto; [left|right]; auto.
      - apply IH. intros; apply Hinj; auto; right; auto. }
    assert (IR : incl R X) by (intros x Hx; apply in_map_iff in Hx; destruct Hx as (r & <- & Hr); apply (HincX _ r); auto).
    (* the representative of a vertex *)
    destruct (finite_choice X (fun x y => exists r i, In r reps /\ y = nm r /\ inc x i /\ linked E CX i r)) as (f & Hf).
    { intros x Hx. destruct (Hcol x Hx) as (i & Hi & Hxi). destruct (Hcov i Hi) as (r & Hr & Hl). exists (nm r), r, i. auto. }
    assert (Hsame : forall x y i j r1 r2, In r1 reps -> In r2 reps -> inc x i -> linked E CX i r1 -> inc y j -> linked E CX j r2 ->
              forall k, inc x k -> inc y k -> r1 = r2).
    { intros x y i j r1 r2 H1 H2 Hx Lx Hy Ly k Kx Ky. apply Huniq; auto.
      eapply rst_trans; [apply rst_sym; exact Lx|]. eapply rst_trans; [apply rst_step; split; [|split; [|apply (Hshare x i k); auto]]; [eapply Hlt; eauto..]|].
      eapply rst_trans; [apply rst_step; split; [|split; [|apply (Hshare y k j); auto]]; [eapply Hlt; eauto..]|]. exact Ly. }
    rewrite (spin_sum_reps X R f (consistent p q)); auto.
    - unfold R. rewrite map_length, Lr. reflexivity.
    - intros x Hx. destruct (Hf x Hx) as (r & i & Hr & -> & _). apply in_map. auto.
    - intros x Hx. pose proof (IR x Hx) as HxX. apply in_map_iff in Hx. destruct Hx as (r & En & Hr).
      destruct (Hf x HxX) as (r' & i & Hr' & -> & Hi & Hl). rewrite <- En. f_equal.
      apply (Hsame x x i r r' r) with (k := r); auto; [rewrite <- En; auto|apply rst_refl|rewrite <- En; auto..].
    - intros s. rewrite consistent_nth by auto. split.
      + intros H x Hx. destruct (Hf x Hx) as (r & i & Hr & -> & Hi & Hl).
        assert (Hcs : forall k u v, inc u k -> inc v k -> s u = s v).
        { intros k u v Hu Hv. assert (Hk : In k CX) by (eapply Hlt; eauto). apply in_seq in Hk. cbn in Hk.
          destruct (nth_error p k) as [a|] eqn:Ea; [|apply nth_error_None in Ea; lia]. destruct (nth_error q k) as [b|] eqn:Eb; [|apply nth_error_None in Eb; lia].
          pose proof (H k a b Ea Eb). unfold inc in *. rewrite Ea, Eb in *. destruct Hu as [Hu|Hu], Hv as [Hv|Hv]; injection Hu as <-; injection Hv as <-; congruence. }
        assert (Hl' : forall i j, linked E CX i j -> In i CX -> In j CX -> forall u v, inc u i -> inc v j -> s u = s v).
        { clear - Hcs Hc HX HincX Hlt. intros i j Hl. unfold linked in Hl. 
          assert (G : (In i CX <-> In j CX) /\ (In i CX -> In j CX -> forall u v, inc u i -> inc v j -> s u = s v)).
          { induction Hl as [i j (Hi & Hj & Hs)|i|i j Hl (I1 & I2)|i j k H1 (I1 & I2) H2 (J1 & J2)].
            - split; [tauto|]. intros _ _ u v Hu Hv. destruct Hs as (w & W1 & W2).
              assert (D : forall k, (nth_error (map code p) k = Some w \/ nth_error (map code q) k = Some w) -> exists z, inc z k /\ code z = w).
              { intros k [W|W]; rewrite nth_error_map in W; [destruct (nth_error p k) as [z|] eqn:Ez|destruct (nth_error q k) as [z|] eqn:Ez]; cbn in W; try discriminate; injection W as W; exists z; split; auto; [left|right]; auto. }
              destruct (D i W1) as (z1 & Z1 & C1). destruct (D j W2) as (z2 & Z2 & C2).
              assert (z1 = z2) by (apply Hc; [eapply HincX; eauto..|congruence]). subst z2.
              rewrite (Hcs i u z1), (Hcs j v z1); auto.
            - split; [tauto|]. intros _ _ u v Hu Hv. apply (Hcs i); auto.
            - split; [tauto|]. intros Hj Hi u v Hu Hv. symmetry. apply I2; auto.
            - split; [tauto|]. intros Hi Hk u v Hu Hv. assert (Hj : In j CX) by tauto.
              assert (Hw : exists w, inc w j). { apply in_seq in Hj. destruct (nth_error p j) as [w|] eqn:Ew; [exists w; left; auto|]. apply nth_error_None in Ew. cbn in Hj. lia. }
              destruct Hw as (w & Hw). rewrite (I2 Hi Hj u w), (J2 Hj Hk w v); auto. }
          apply G. }
        apply (Hl' i r); auto. eapply Hlt; eauto.
      + intros H i x y Hx Hy. assert (Ix : inc x i) by (left; auto). assert (Iy : inc y i) by (right; auto).
        rewrite (H x), (H y) by (eapply HincX; eauto).
        destruct (Hf x (HincX _ _ Ix)) as (r1 & i1 & R1 & -> & J1 & L1). destruct (Hf y (HincX _ _ Iy)) as (r2 & i2 & R2 & -> & J2 & L2).
        f_equal. f_equal. apply (Hsame x y i1 i2 r1 r2) with (k := i); auto.
    - intros s1 s2 Es. unfold consistent. apply forallb_ext'. intros xy _. rewrite !Es. reflexivity.
  Qed.

  (** Groups of indices are replaced by single indices. *)
  Lemma assign_in gs : NoDup (concat gs) -> forall f s j g x, nth_error gs j = Some g -> In x g -> assign f gs s x = negb (f j).
  Proof.
    induction gs as [|h gs IH]; intros N f s [|j] g x Hj Hx; cbn in Hj; try discriminate; cbn in N; destruct (NoDup_parts _ _ N) as (N1 & N2 & D); cbn [assign].
    - injection Hj as ->. rewrite assign_out by auto. unfold set_group. rewrite (proj2 (existsb_In _ _) Hx). reflexivity.
    - rewrite (IH N2 _ _ j g x Hj Hx). reflexivity.
  Qed.
  Lemma spin_sum_heads gs hs (h : nat -> nat) (F : (nat -> bool) -> K) s0 : NoDup (concat gs) -> NoDup hs -> length gs = length hs ->
    (forall j g x, nth_error gs j = Some g -> In x g -> nth_error hs j = Some (h x)) ->
    (forall x, ~ In x (concat gs) -> h x = x /\ ~ In x hs) -> resp F ->
    spin_sum gs F s0 = spin_sum (map (fun x => [x]) hs) (fun s => F (fun x => s (h x))) s0.
  Proof.
    intros N Nh L H1 H2 R. rewrite spin_sum_cases by auto. rewrite spin_sum_cases by (intros s1 s2 E; apply R; auto).
    rewrite map_length, <- L. apply sum_ext. intros c _. apply R. intros x.
    destruct (in_dec Nat.eq_dec x (concat gs)) as [Hx|Hx].
    - apply in_concat in Hx. destruct Hx as (g & Hg & Hx). apply In_nth_error in Hg. destruct Hg as (j & Hj).
      rewrite (assign_in gs N _ _ j g x Hj Hx). rewrite (assign_in (map (fun x => [x]) hs)) with (j := j) (g := [h x]); auto.
      + rewrite singles_concat. auto.
      + apply (map_nth_error (fun x => [x])). apply (H1 j g); auto.
      + left. auto.
    - destruct (H2 x Hx) as (E & Hn). rewrite E, !assign_out; auto. rewrite singles_concat. auto.
  Qed.
End Count.
