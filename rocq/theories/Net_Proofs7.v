(** Networks with the same canonical graph become equal. *)
From Coq Require Import ZArith List Arith Bool Permutation Sorted Lia.
From Verif Require Import Alg_Model Alg_Spec Alg_Proofs1 Tsr_Model Tsr_Spec Tsr_Proofs2 Tsr_Proofs4 Net_Model Net_Spec Net_Spec2 Net_Proofs2 Net_Proofs3 Net_Proofs4 Net_Proofs5 Net_Proofs6.
Import ListNotations.
Open Scope nat_scope.

(** ** Aligning sorted lists *)

Lemma sorted_same : forall l m, StronglySorted lt l -> StronglySorted lt m -> (forall x, In x l <-> In x m) -> l = m.
Proof.
  intros l m H. revert m. induction H as [|x l S IH F]; intros m H' E.
  - destruct m as [|y m]; auto. destruct (proj2 (E y)); left; auto.
  - destruct H' as [|y m S' F'].
    { destruct (proj1 (E x)); left; auto. }
    rewrite Forall_forall in F, F'.
    assert (x = y).
    { destruct (proj1 (E x) (or_introl eq_refl)) as [A|A]; auto. destruct (proj2 (E y) (or_introl eq_refl)) as [B|B]; auto.
      apply F' in A. apply F in B. lia. }
    subst. f_equal. apply IH; auto. intros z. split; intros Z.
    + destruct (proj1 (E z) (or_intror Z)) as [A|A]; auto. subst. apply F in Z. lia.
    + destruct (proj2 (E z) (or_intror Z)) as [A|A]; auto. subst. apply F' in Z. lia.
Qed.
Lemma forall2_keys {A B} (k1 : A -> nat) (k2 : B -> nat) : forall l1 l2, map k1 l1 = map k2 l2 ->
  Forall2 (fun x y => In x l1 /\ In y l2 /\ k1 x = k2 y) l1 l2.
Proof.
  assert (G : forall l1 l2 L1 L2, incl l1 L1 -> incl l2 L2 -> map k1 l1 = map k2 l2 -> Forall2 (fun x y => In x L1 /\ In y L2 /\ k1 x = k2 y) l1 l2).
  { induction l1 as [|x l1 IH]; intros [|y l2] L1 L2 I1 I2; cbn; try discriminate; constructor.
    - injection H. intros _ E. split; [apply I1; left; auto|]. split; [apply I2; left; auto|auto].
    - apply IH; [intros z Z; apply I1; right; auto|intros z Z; apply I2; right; auto|]. injection H; auto. }
  intros l1 l2. apply G; apply incl_refl.
Qed.
Lemma align {A B} (k1 : A -> nat) (k2 : B -> nat) l1 l2 : StronglySorted lt (map k1 l1) -> StronglySorted lt (map k2 l2) ->
  (forall x, In x l1 -> exists y, In y l2 /\ k1 x = k2 y) -> (forall y, In y l2 -> exists x, In x l1 /\ k1 x = k2 y) ->
  Forall2 (fun x y => In x l1 /\ In y l2 /\ k1 x = k2 y) l1 l2.
Proof.
  intros S1 S2 A1 A2. apply forall2_keys. apply sorted_same; auto. intros z. rewrite !in_map_iff. split.
  - intros (x & <- & X). destruct (A1 x X) as (y & Y & E). eauto.
  - intros (y & <- & Y). destruct (A2 y Y) as (x & X & E). eauto.
Qed.
Lemma forall2_map {A B C} (f : A -> C) (g : B -> C) l m : Forall2 (fun x y => f x = g y) l m -> map f l = map g m.
Proof. induction 1; cbn; congruence. Qed.
Lemma forall2_imp {A B} (P Q : A -> B -> Prop) l m : (forall x y, P x y -> Q x y) -> Forall2 P l m -> Forall2 Q l m.
Proof. intros H. induction 1; constructor; auto. Qed.
Lemma sorted_filter {A} (k : A -> nat) f l : StronglySorted lt (map k l) -> StronglySorted lt (map k (filter f l)).
Proof.
  induction l as [|x l IH]; cbn; auto. intros H. inversion H; subst. destruct (f x); cbn; auto. constructor; auto.
  rewrite Forall_forall in *. intros z Z. apply H3. apply in_map_iff in Z. destruct Z as (y & <- & Y). apply filter_In in Y. apply in_map. tauto.
Qed.

(** Sorting by distinct keys. *)
Lemma insert_keys {A} (k : A -> nat) x l : ~ In (k x) (map k l) -> StronglySorted lt (map k l) ->
  StronglySorted lt (map k (insert_sorted (fun a b => k a <? k b) x l)).
Proof.
  induction l as [|y l IH]; intros N H; [cbn; repeat constructor|]. cbn [map In] in N, H. inversion H; subst. cbn [insert_sorted]. destruct (k y <? k x) eqn:E.
  - apply Nat.ltb_lt in E. cbn [map]. constructor; [apply IH; auto|]. rewrite Forall_forall in *. intros z Z.
    apply in_map_iff in Z. destruct Z as (w & <- & W). apply (Permutation_in _ (Permutation_sym (insert_perm _ _ _))) in W.
    destruct W as [<-|W]; auto. apply H3. apply in_map; auto.
  - apply Nat.ltb_ge in E. cbn [map]. constructor; auto. assert (k x < k y) by (assert (k y <> k x) by auto; lia).
    constructor; auto. rewrite Forall_forall in *. intros z Z. apply H3 in Z. lia.
Qed.
Lemma stable_keys {A} (k : A -> nat) l : NoDup (map k l) -> StronglySorted lt (map k (stable_sort (fun a b => k a <? k b) l)).
Proof.
  induction l as [|x l IH]; cbn [map]; intros H; [constructor|]. inversion H; subst.
  change (stable_sort (fun a b => k a <? k b) (x :: l)) with (insert_sorted (fun a b => k a <? k b) x (stable_sort (fun a b => k a <? k b) l)).
  apply insert_keys; auto. intros X. apply H2. apply (Permutation_in _ (Permutation_map k (Permutation_sym (stable_perm _ _))) X).
Qed.
Lemma key_strict_weak {A} (k : A -> nat) : strict_weak (fun a b => k a <? k b).
Proof.
  split; [|split]; intros x; [apply Nat.ltb_irrefl| |]; intros y z; rewrite ?Nat.ltb_lt, ?Nat.ltb_ge; lia.
Qed.
Lemma nodup_keys_sorted {A} (k : A -> nat) l : NoDup (map k l) -> StronglySorted (fun x y => (k y <? k x) = false) l -> StronglySorted lt (map k l).
Proof.
  intros N H. induction H as [|x l S IH F]; cbn in *; constructor; inversion N; subst; auto. rewrite Forall_forall in *.
  intros z Z. apply in_map_iff in Z. destruct Z as (y & <- & Y). pose proof (F y Y) as G. apply Nat.ltb_ge in G.
  assert (k x <> k y) by (intros E; apply H1; rewrite E; apply in_map; auto). lia.
Qed.
Lemma bubble_keys {A} (k : A -> nat) l r n : NoDup (map k l) -> bubble_sort (fun a b => k a <? k b) l = Some (r, n) ->
  Permutation l r /\ StronglySorted lt (map k r).
Proof.
  intros N H. destruct (bubble_ok (fun a b => k a <? k b) (key_strict_weak k) l) as (r' & E & P & Sd & _). rewrite E in H. injection H as <- _.
  split; auto. apply nodup_keys_sorted; auto. apply (Permutation_NoDup (Permutation_map k P)). auto.
Qed.
Lemma ordinals_keys (k : nat -> nat) n perm s : NoDup (map k (seq 0 n)) -> sort_ordinals (map k (seq 0 n)) = Some (perm, s) ->
  Permutation (seq 0 n) perm /\ StronglySorted lt (map k perm).
Proof.
  intros N H. unfold sort_ordinals in H. rewrite map_length, seq_length in H.
  destruct (bubble_sort _ (seq 0 n)) as [(r, c)|] eqn:B; [|discriminate]. cbn in H. injection H as <- _.
  assert (E : forall x, In x (seq 0 n) -> nth x (map k (seq 0 n)) 0 = k x).
  { intros x X. apply in_seq in X. rewrite (nth_indep _ 0 (k 0)) by (rewrite map_length, seq_length; lia). rewrite map_nth, seq_nth by lia. auto. }
  assert (M : forall l, incl l (seq 0 n) -> map (fun x => nth x (map k (seq 0 n)) 0) l = map k l).
  { intros l I. apply map_ext_in. intros x X. apply E. apply I. auto. }
  apply (bubble_keys (fun x => nth x (map k (seq 0 n)) 0)) in B.
  - destruct B as (P & Sd). split; auto. rewrite M in Sd; auto. intros x X. apply (Permutation_in _ (Permutation_sym P)). auto.
  - rewrite M; auto. apply incl_refl.
Qed.

Section Match.
  Variable S : space -> Prop.
  Hypothesis R : one_registry S.
  Notation plain := (plain S).
  Variable named : list index.
  Hypothesis Pn : Forall plain named.

  (** ** The new names *)
  Lemma factory_same f : forall cs i j, ix_space i = ix_space j -> ix_protos i = ix_protos j ->
    factory_make f named cs i = factory_make f named cs j.
  Proof.
    induction f as [|f IH]; intros cs i j A B; cbn; auto. rewrite A, B. destruct (named_in _ _); auto.
  Qed.
  Lemma rho_cons i r m x : plain i -> plain x -> Forall plain (map fst m) -> rho ((i, r) :: m) x = if index_eq_dec i x then r else rho m x.
  Proof.
    intros Pi Px F. unfold rho, map_find. cbn. destruct (index_eq_dec i x) as [<-|Ne].
    - rewrite (proj2 (same_key S R i i Pi Pi) eq_refl). auto.
    - destruct (negb (ix_ltb i x) && negb (ix_ltb x i)) eqn:E; auto. apply (same_key S R) in E; auto. contradiction.
  Qed.
  Lemma make_same is1 : forall is2 cs m1 m2, Forall plain is1 -> Forall plain is2 -> NoDup is1 -> NoDup is2 ->
    Forall2 (fun i j => ix_space i = ix_space j) is1 is2 ->
    make_replacements named cs is1 = Some m1 -> make_replacements named cs is2 = Some m2 ->
    map (rho m1) is1 = map (rho m2) is2.
  Proof.
    induction is1 as [|i is1 IH]; intros is2 cs m1 m2 F1 F2 N1 N2 Sp H1 H2; inversion Sp as [|x y l1 l' Sxy Sp']; subst; auto.
    inversion F1 as [|? ? Pi Fi]; subst. inversion F2 as [|? ? Py Fy]; subst. inversion N1 as [|? ? Ni Ni']; subst. inversion N2 as [|? ? Ny Ny']; subst.
    cbn [make_replacements] in H1, H2.
    rewrite (factory_same _ cs y i) in H2; [|symmetry; auto|].
    2: { destruct Pi as (_ & _ & -> & _), Py as (_ & _ & -> & _). auto. }
    destruct (factory_make _ named cs i) as [(r, cs')|] eqn:Fm; [|discriminate].
    destruct (make_replacements named cs' is1) as [n1|] eqn:M1; [|discriminate].
    destruct (make_replacements named cs' l') as [n2|] eqn:M2; [|discriminate].
    cbn [option_map] in H1, H2.
    pose proof (IH l' cs' n1 n2 Fi Fy Ni' Ny' Sp' M1 M2) as E.
    pose proof (make_spec S R named is1 cs' n1 Pn Fi Ni' M1) as (K1 & _ & _ & _ & O1).
    pose proof (make_spec S R named l' cs' n2 Pn Fy Ny' M2) as (K2 & _ & _ & _ & O2).
    destruct (factory_spec S R named _ cs i r cs' Pn Pi Fm) as (Pr & _).
    assert (G : forall x xs n m, plain x -> Forall plain xs -> ~ In x xs -> Forall plain (map fst n) -> (forall z, plain z -> ~ In z xs -> rho n z = z) ->
        Some (if ix_eqb x r then n else (x, r) :: n) = Some m -> map (rho m) (x :: xs) = r :: map (rho n) xs).
    { intros x xs n m Px Fx Nx Kn On [= <-]. cbn. destruct (ix_eqb x r) eqn:Q.
      - apply (plain_eqb S) in Q; auto. subst. rewrite On; auto.
      - rewrite rho_cons; auto. destruct (index_eq_dec x x); [|congruence]. f_equal. apply map_ext_in. intros z Z.
        rewrite rho_cons; auto; [|rewrite Forall_forall in Fx; auto]. destruct (index_eq_dec x z); [subst; contradiction|auto]. }
    rewrite (G i is1 n1 m1), (G y l' n2 m2); auto. congruence.
  Qed.
End Match.
