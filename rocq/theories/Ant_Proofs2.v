(** * Antisymmetry of the signed sum over distinct arrangements *)
From Coq Require Import List Arith Lia Bool ZArith Permutation Sorted.
From Verif Require Import Alg_Model Alg_Spec Alg_Proofs2 Alg_Props Ant_Model Ant_Spec Ant_Proofs.
Import ListNotations.

(** Exchange of the labels [a] and [a+1]. *)
Definition sl (a k : nat) : nat := if Nat.eqb k a then S a else if Nat.eqb k (S a) then a else k.

Ltac slcase := unfold sl in *; repeat match goal with |- context [Nat.eqb ?x ?y] => destruct (Nat.eqb_spec x y)
  | H : context [Nat.eqb ?x ?y] |- _ => destruct (Nat.eqb_spec x y) end.

Lemma sl_inv a k : sl a (sl a k) = k.
Proof. slcase; lia. Qed.

Lemma sl_inj a x y : sl a x = sl a y -> x = y.
Proof. intros H. rewrite <- (sl_inv a x), H. apply sl_inv. Qed.

Lemma map_sl_inv a q : map (sl a) (map (sl a) q) = q.
Proof. rewrite map_map. rewrite <- (map_id q) at 2. apply map_ext. apply sl_inv. Qed.

Lemma map_sl_id a q : ~ In a q -> ~ In (S a) q -> map (sl a) q = q.
Proof.
  induction q as [|x q IH]; cbn; intros H1 H2; [reflexivity|]. rewrite IH by tauto. f_equal. slcase; try reflexivity; subst; tauto.
Qed.

Lemma perm_sl a n q : S a < n -> Permutation (seq 0 n) q -> Permutation (seq 0 n) (map (sl a) q).
Proof.
  intros Ha P. apply NoDup_Permutation.
  - apply seq_NoDup.
  - apply FinFun.Injective_map_NoDup; [intros x y; apply sl_inj|]. eapply Permutation_NoDup; [exact P|apply seq_NoDup].
  - intros x. rewrite in_map_iff, in_seq. split.
    + intros Hx. exists (sl a x). split; [apply sl_inv|]. eapply Permutation_in; [exact P|]. apply in_seq. slcase; lia.
    + intros (y & <- & Hy). apply (Permutation_in _ (Permutation_sym P)) in Hy. apply in_seq in Hy. slcase; lia.
Qed.

Lemma split_by_map (f : nat -> nat) ranks : forall q, split_by ranks (map f q) = map (map f) (split_by ranks q).
Proof. induction ranks as [|r rs IH]; intros q; cbn; [reflexivity|]. rewrite firstn_map, skipn_map, IH. reflexivity. Qed.

(** [a] and [a+1] are in one group. *)
Definition both (a : nat) (b : list nat) : bool := existsb (Nat.eqb a) b && existsb (Nat.eqb (S a)) b.
Definition together (ranks : list nat) (a : nat) (q : list nat) : bool := existsb (both a) (split_by ranks q).

Lemma existsb_eqb x l : existsb (Nat.eqb x) l = true <-> In x l.
Proof.
  rewrite existsb_exists. split; [intros (y & H & E); apply Nat.eqb_eq in E; subst; exact H|].
  intros H. exists x. split; [exact H|apply Nat.eqb_refl].
Qed.

Lemma both_spec a b : both a b = true <-> In a b /\ In (S a) b.
Proof. unfold both. rewrite andb_true_iff, !existsb_eqb. reflexivity. Qed.

Lemma both_sl a b : both a (map (sl a) b) = both a b.
Proof.
  apply eq_true_iff_eq. rewrite !both_spec, !in_map_iff.
  assert (E1 : sl a (S a) = a) by (slcase; lia). assert (E2 : sl a a = S a) by (slcase; lia).
  split.
  - intros ((x & Hx & X) & (y & Hy & Y)).
    assert (x = S a) by (apply (sl_inj a); congruence). assert (y = a) by (apply (sl_inj a); congruence). subst; auto.
  - intros (H1 & H2). split; [exists (S a)|exists a]; auto.
Qed.

Lemma together_sl ranks a q : together ranks a (map (sl a) q) = together ranks a q.
Proof.
  unfold together. rewrite split_by_map. induction (split_by ranks q) as [|b bs IH]; [reflexivity|].
  cbn [map existsb]. rewrite both_sl, IH. reflexivity.
Qed.

Lemma SS_sl a b : StronglySorted lt b -> both a b = false -> StronglySorted lt (map (sl a) b).
Proof.
  intros S B. assert (N : ~ (In a b /\ In (Datatypes.S a) b)) by (rewrite <- both_spec, B; discriminate). clear B.
  induction S as [|x b S IH F]; cbn [map]; constructor.
  - apply IH. intros [H1 H2]. apply N. split; right; assumption.
  - rewrite Forall_forall in F |- *. intros y Hy. apply in_map_iff in Hy as (z & <- & Hz). specialize (F z Hz).
    assert (~ (x = a /\ z = Datatypes.S a)) by (intros [-> ->]; apply N; split; [left; reflexivity|right; exact Hz]).
    slcase; lia.
Qed.

Lemma arrangement_sl ranks n a q : S a < n -> distinct_arrangement ranks n q -> together ranks a q = false ->
  distinct_arrangement ranks n (map (sl a) q).
Proof.
  intros Ha [P F] T. split; [apply perm_sl; assumption|].
  rewrite split_by_map. unfold together in T. clear P. induction F as [|b bs Sb F IH]; cbn [map existsb] in *; constructor.
  - apply orb_false_elim in T as [T _]. apply SS_sl; assumption.
  - apply orb_false_elim in T as [_ T]. auto.
Qed.

Lemma NoDup_mid_notin {A} (u : list A) x v : NoDup (u ++ x :: v) -> ~ In x u /\ ~ In x v.
Proof. intros H. apply NoDup_remove_2 in H. rewrite in_app_iff in H. tauto. Qed.

Lemma exch_sl a q : NoDup q -> In a q -> In (S a) q -> exchanges 1 q (map (sl a) q).
Proof.
  intros ND H1 H2.
  assert (E1 : sl a (S a) = a) by (slcase; lia). assert (E2 : sl a a = S a) by (slcase; lia).
  apply in_split in H1 as (u & w & ->). rewrite in_app_iff in H2.
  pose proof (NoDup_mid_notin _ _ _ ND) as [Nu Nw].
  destruct H2 as [H2|[H2|H2]]; [|lia|].
  - apply in_split in H2 as (u1 & u2 & ->).
    rewrite <- app_assoc in ND. cbn in ND. pose proof (NoDup_mid_notin _ _ _ ND) as [M1 M2].
    rewrite in_app_iff in Nu, M2. cbn in Nu, M2.
    replace ((u1 ++ S a :: u2) ++ a :: w) with (u1 ++ S a :: u2 ++ a :: w) by (rewrite <- app_assoc; reflexivity).
    rewrite map_app. cbn [map]. rewrite map_app. cbn [map]. rewrite E1, E2, !map_sl_id by tauto. repeat constructor.
  - apply in_split in H2 as (w1 & w2 & ->).
    replace (u ++ a :: w1 ++ S a :: w2) with ((u ++ a :: w1) ++ S a :: w2) in ND by (rewrite <- app_assoc; reflexivity).
    pose proof (NoDup_mid_notin _ _ _ ND) as [M1 M2]. rewrite in_app_iff in Nw, M1. cbn in Nw, M1.
    rewrite map_app. cbn [map]. rewrite map_app. cbn [map]. rewrite E1, E2, !map_sl_id by tauto. repeat constructor.
Qed.

Lemma sign_sl a n q : S a < n -> Permutation (seq 0 n) q -> parity_sign (map (sl a) q) = (- parity_sign q)%Z.
Proof.
  intros Ha P.
  assert (ND : NoDup q) by (eapply Permutation_NoDup; [exact P|apply seq_NoDup]).
  assert (H1 : In a q) by (eapply Permutation_in; [exact P|apply in_seq; lia]).
  assert (H2 : In (S a) q) by (eapply Permutation_in; [exact P|apply in_seq; lia]).
  pose proof (C05_sign nat Nat.ltb _ _ _ (nat_ltb_total q) ND (exch_sl a q ND H1 H2)) as E. cbn [Nat.odd Nat.even negb] in E.
  unfold parity_sign. rewrite <- !Nat.negb_odd, E. destruct (Nat.odd (inversions Nat.ltb q)); reflexivity.
Qed.

(** Positions inside one group. *)
Definition in_group (groups : list (nat * nat)) (p : nat) : Prop :=
  exists g1 g2, In (g1, g2) groups /\ g1 <= p /\ S p < g2.

Lemma sorted_adjacent b a : StronglySorted lt b -> In a b -> In (S a) b ->
  exists u v, b = u ++ a :: S a :: v.
Proof.
  intros S H1 H2. induction S as [|x b S IH F]; [destruct H1|].
  rewrite Forall_forall in F. destruct H1 as [->|H1].
  - destruct H2 as [H2|H2]; [lia|]. destruct b as [|y b]; [destruct H2|].
    assert (a < y) by (apply F; left; reflexivity). inversion S as [|? ? S' F']; subst. rewrite Forall_forall in F'.
    destruct H2 as [->|H2]; [exists [], b; reflexivity|]. specialize (F' _ H2). lia.
  - destruct H2 as [->|H2]; [specialize (F _ H1); lia|].
    destruct (IH H1 H2) as (u & v & ->). exists (x :: u), v. reflexivity.
Qed.

Lemma together_adjacent ranks a : forall start q, Forall (StronglySorted lt) (split_by ranks q) ->
  together ranks a q = true ->
  exists u v, q = u ++ a :: S a :: v /\ in_group (groups_of start ranks) (start + length u).
Proof.
  induction ranks as [|r rs IH]; intros start q F T; [discriminate|].
  cbn [split_by groups_of] in *. unfold together in T. cbn [split_by existsb] in T.
  inversion F as [|? ? F1 F2]; subst. apply orb_true_iff in T as [T|T].
  - apply both_spec in T as [H1 H2]. destruct (sorted_adjacent _ _ F1 H1 H2) as (u & v & E).
    exists u, (v ++ skipn r q). split.
    + rewrite <- (firstn_skipn r q) at 1. rewrite E, <- app_assoc. reflexivity.
    + exists start, (start + r). split; [left; reflexivity|].
      assert (L : length (firstn r q) <= r) by (rewrite firstn_length; lia).
      rewrite E, app_length in L. cbn in L. lia.
  - destruct (IH (start + r) _ F2 T) as (u & v & E & g1 & g2 & Hg & G1 & G2).
    destruct (Nat.le_gt_cases r (length q)) as [Lr|Lr].
    + exists (firstn r q ++ u), v. split.
      * rewrite <- (firstn_skipn r q) at 1. rewrite E, app_assoc. reflexivity.
      * exists g1, g2. split; [right; exact Hg|]. rewrite app_length, firstn_length. lia.
    + rewrite skipn_all2 in E by lia. destruct u; discriminate.
Qed.

(** ** Sums *)
Section Sums.
  Variables (G : Type) (z : G) (add : G -> G -> G) (neg : G -> G).
  Hypothesis addA : forall x y w, add x (add y w) = add (add x y) w.
  Hypothesis addC : forall x y, add x y = add y x.
  Hypothesis add0 : forall x, add z x = x.
  Hypothesis addN : forall x, add x (neg x) = z.

  Definition gsum (l : list G) : G := fold_right add z l.
  Definition sgn (s : Z) (x : G) : G := if Z.eqb s 1 then x else neg x.

  Lemma g_cancel x y : add x y = z -> y = neg x.
  Proof.
    intros H. rewrite <- (add0 y), <- (addN x), (addC x (neg x)), <- addA, H, (addC _ z), add0. reflexivity.
  Qed.
  Lemma neg_neg x : neg (neg x) = x.
  Proof. symmetry. apply g_cancel. rewrite addC. apply addN. Qed.
  Lemma neg_add x y : neg (add x y) = add (neg x) (neg y).
  Proof.
    symmetry. apply g_cancel. rewrite (addC x y), <- addA, (addA x), addN, add0. apply addN.
  Qed.
  Lemma neg_z : neg z = z.
  Proof. symmetry. apply g_cancel. apply add0. Qed.
  Lemma gsum_neg l : gsum (map neg l) = neg (gsum l).
  Proof. unfold gsum. induction l as [|x l IH]; cbn; [symmetry; apply neg_z|]. rewrite IH, neg_add. reflexivity. Qed.
  Lemma gsum_perm l l' : Permutation l l' -> gsum l = gsum l'.
  Proof.
    unfold gsum. induction 1; cbn; [reflexivity|congruence| |congruence]. rewrite !addA, (addC x y). reflexivity.
  Qed.
  Lemma gsum_app l l' : gsum (l ++ l') = add (gsum l) (gsum l').
  Proof. unfold gsum. induction l as [|x l IH]; cbn; [symmetry; apply add0|]. rewrite IH, addA. reflexivity. Qed.
  Lemma sgn_neg_arg s x : sgn s (neg x) = neg (sgn s x).
  Proof. unfold sgn. destruct (Z.eqb s 1); reflexivity. Qed.
  Lemma sgn_parity q x : sgn (- parity_sign q) x = neg (sgn (parity_sign q) x).
  Proof. unfold sgn, parity_sign. destruct (Nat.even _); cbn; [reflexivity|symmetry; apply neg_neg]. Qed.
  Lemma sgn_mul q q' x : sgn (parity_sign q * parity_sign q') x = sgn (parity_sign q) (sgn (parity_sign q') x).
  Proof. unfold sgn, parity_sign. destruct (Nat.even _), (Nat.even _); cbn; try reflexivity. symmetry; apply neg_neg. Qed.
  Lemma sgn_gsum s l : sgn s (gsum l) = gsum (map (sgn s) l).
  Proof. unfold sgn. destruct (Z.eqb s 1); [rewrite map_id; reflexivity|]. symmetry. apply gsum_neg. Qed.

  Variables (I : Type) (d : I).
  Definition arr (b : list I) (q : list nat) : list I := map (fun k => nth k b d) q.

  Lemma nth_exchanged a (b b' : list I) k : exchanged a b b' -> nth k b' d = nth (sl a k) b d.
  Proof.
    intros (u & x & y & v & <- & -> & ->). destruct (Nat.lt_ge_cases k (length u)) as [H|H].
    - assert (sl (length u) k = k) as -> by (slcase; lia). rewrite !app_nth1 by lia. reflexivity.
    - rewrite (app_nth2 u) by lia. unfold sl.
      destruct (Nat.eqb_spec k (length u)) as [->|N].
      + rewrite Nat.sub_diag. rewrite app_nth2 by lia. replace (S (length u) - length u) with 1 by lia. reflexivity.
      + destruct (Nat.eqb_spec k (S (length u))) as [->|N'].
        * replace (S (length u) - length u) with 1 by lia. rewrite app_nth2 by lia. rewrite Nat.sub_diag. reflexivity.
        * rewrite app_nth2 by lia. destruct (k - length u) as [|[|m]] eqn:E; [lia|lia|reflexivity].
  Qed.

  Lemma arr_exchanged a b b' q : exchanged a b b' -> arr b' q = arr b (map (sl a) q).
  Proof. intros H. unfold arr. rewrite map_map. apply map_ext. intros k. apply nth_exchanged. exact H. Qed.

  (** The signed sum changes sign when two neighbouring indices are exchanged. *)
  Lemma signed_sum_antisymmetric ranks n L (f : list I -> G) b b' a :
    NoDup L -> (forall q, In q L <-> distinct_arrangement ranks n q) ->
    length b = n -> exchanged a b b' ->
    (forall l l' p, length l = n -> exchanged p l l' -> in_group (groups_of 0 ranks) p -> f l' = neg (f l)) ->
    gsum (map (fun q => sgn (parity_sign q) (f (arr b' q))) L) =
    neg (gsum (map (fun q => sgn (parity_sign q) (f (arr b q))) L)).
  Proof.
    intros ND C Lb Ex Hf.
    assert (Ha : S a < n).
    { destruct Ex as (u & x & y & v & <- & -> & _). rewrite app_length in Lb. cbn in Lb. lia. }
    set (phi := fun q => if together ranks a q then q else map (sl a) q).
    assert (phi_in : forall q, In q L -> In (phi q) L).
    { intros q Hq. unfold phi. destruct (together ranks a q) eqn:T; [exact Hq|].
      apply C. apply arrangement_sl; [exact Ha|apply C; exact Hq|exact T]. }
    assert (phi_inv : forall q, phi (phi q) = q).
    { intros q. unfold phi at 2. destruct (together ranks a q) eqn:T.
      - unfold phi. rewrite T. reflexivity.
      - unfold phi. rewrite together_sl, T. apply map_sl_inv. }
    assert (PL : Permutation (map phi L) L).
    { apply NoDup_Permutation; [|exact ND|].
      - apply FinFun.Injective_map_NoDup; [|exact ND]. intros x y E. rewrite <- (phi_inv x), E. apply phi_inv.
      - intros q. rewrite in_map_iff. split; [intros (x & <- & Hx); auto|]. intros Hq. exists (phi q). auto. }
    rewrite <- gsum_neg, map_map.
    transitivity (gsum (map (fun q => neg (sgn (parity_sign q) (f (arr b q)))) (map phi L)));
      [|apply gsum_perm, Permutation_map; exact PL].
    rewrite map_map. f_equal. apply map_ext_in. intros q Hq. rewrite (arr_exchanged a b b') by exact Ex.
    apply C in Hq. destruct Hq as [P F].
    unfold phi. destruct (together ranks a q) eqn:T.
    - rewrite <- sgn_neg_arg. f_equal.
      destruct (together_adjacent ranks a 0 q F T) as (u & v & -> & Hg). cbn [Nat.add] in Hg.
      assert (NDq : NoDup (u ++ a :: S a :: v)) by (eapply Permutation_NoDup; [exact P|apply seq_NoDup]).
      apply (Hf _ _ (length u)).
      + unfold arr. rewrite map_length. apply Permutation_length in P. rewrite seq_length in P. auto.
      + exists (arr b u), (nth a b d), (nth (S a) b d), (arr b v). split; [unfold arr; apply map_length|].
        split; [unfold arr; rewrite map_app; reflexivity|].
        pose proof (NoDup_mid_notin _ _ _ NDq) as [N1 N2].
        replace (u ++ a :: S a :: v) with ((u ++ [a]) ++ S a :: v) in NDq by (rewrite <- app_assoc; reflexivity).
        pose proof (NoDup_mid_notin _ _ _ NDq) as [N3 N4]. rewrite in_app_iff in N3. cbn in N2.
        rewrite map_app. cbn [map]. rewrite !map_sl_id by tauto.
        assert (sl a (S a) = a) as -> by (slcase; lia). assert (sl a a = S a) as -> by (slcase; lia).
        unfold arr. rewrite map_app. reflexivity.
      + exact Hg.
    - rewrite (sign_sl a n) by assumption. rewrite sgn_parity, neg_neg. reflexivity.
  Qed.
End Sums.
