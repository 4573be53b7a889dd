(** * Proofs about two-electron integrals and about cache locality in exported code *)
From Coq Require Import List Arith Lia Bool Permutation Sorted.
From Verif Require Import Reo_Model Reo_Spec Reo_Proofs.
Import ListNotations.

Section Integrals.
  Variable asize : nat -> nat.

  Lemma cosmetic_cases : forall V (eri : idx -> idx -> idx -> idx -> V) p11 p12 p21 p22 q11 q12 q21 q22,
    eightfold eri -> cosmetic p11 p12 p21 p22 = (q11, q12, (q21, q22)) ->
    eri q11 q12 q21 q22 = eri p11 p12 p21 p22.
  Proof.
    intros V eri p11 p12 p21 p22 q11 q12 q21 q22 E8. unfold cosmetic.
    destruct (_ && _); destruct (same_space p21 p22 && _); destruct (_ && _); intros E; injection E as <- <- <- <-;
      rewrite ?(proj2 (proj2 (E8 p11 p12 p21 p22))), ?(proj2 (proj2 (E8 p12 p11 p21 p22))),
        ?(proj2 (proj2 (E8 p11 p12 p22 p21))), ?(proj2 (proj2 (E8 p12 p11 p22 p21)));
      rewrite ?(proj1 (E8 p11 p12 p21 p22)), ?(proj1 (E8 p11 p12 p22 p21));
      rewrite ?(proj1 (proj2 (E8 p11 p12 p21 p22))); reflexivity.
  Qed.

  Variable lay : layout.
  Lemma rewrite_integral_value : forall V (eri : idx -> idx -> idx -> idx -> V) b0 b1 k0 k1,
    eightfold eri ->
    integral_value eri (rewrite_integral asize lay b0 b1 k0 k1) = g_value eri b0 b1 k0 k1.
  Proof.
    intros V eri b0 b1 k0 k1 E8. unfold rewrite_integral, g_value.
    destruct (order_pair asize lay b0 k0) as [c0 l0] eqn:E0.
    destruct (order_pair asize lay b1 k1) as [c1 l1] eqn:E1.
    assert (A : eri c0 l0 c1 l1 = eri b0 k0 b1 k1).
    { unfold order_pair in E0, E1. destruct (needs_swap _ _ (sp b0) _); destruct (needs_swap _ _ (sp b1) _);
        injection E0 as <- <-; injection E1 as <- <-;
        rewrite ?(proj1 (E8 b0 k0 b1 k1)), ?(proj1 (E8 b0 k0 k1 b1)), ?(proj1 (proj2 (E8 b0 k0 b1 k1))); reflexivity. }
    destruct (if swap_cols asize lay c0 c1 l0 l1 then _ else _) as [[[d0 d1] m0] m1] eqn:E2.
    assert (B : eri d0 m0 d1 m1 = eri c0 l0 c1 l1).
    { destruct (swap_cols _ _ _ _ _ _); injection E2 as <- <- <- <-; [|reflexivity]. apply (proj2 (proj2 (E8 c0 l0 c1 l1))). }
    destruct (_ || _).
    - destruct (cosmetic d0 m0 d1 m1) as [[q11 q12] [q21 q22]] eqn:Ec. cbn [integral_value].
      rewrite (cosmetic_cases V eri _ _ _ _ _ _ _ _ E8 Ec), B. exact A.
    - destruct (cosmetic d0 m0 d1 m1) as [[q11 q12] [q21 q22]] eqn:Ec. cbn [integral_value].
      rewrite (cosmetic_cases V eri _ _ _ _ _ _ _ _ E8 Ec), B. exact A.
  Qed.
End Integrals.

Section Unique.
  Variable asize : nat -> nat.
  Hypothesis inj : forall s s', asize s = asize s' -> s = s'.
  Notation sz i := (asize (i_space i)).

  Lemma needs_swap_cm : forall i j, needs_swap asize ColumnMajor (sp i) (sp j) = (sz i <? sz j).
  Proof.
    intros i j. unfold needs_swap, is_ordered, is_less, oeqb, sp, osize.
    destruct (Nat.eqb_spec (i_space i) (i_space j)) as [->|N]; cbn [negb andb].
    - now rewrite Nat.ltb_irrefl.
    - destruct (Nat.ltb_spec (sz j) (sz i)); destruct (Nat.eqb_spec (sz i) (sz j)); destruct (Nat.ltb_spec (sz i) (sz j));
        cbn; try lia; try reflexivity.
  Qed.
  Lemma is_ordered_cm : forall i j, is_ordered asize ColumnMajor (sp i) (sp j) = (sz j <=? sz i).
  Proof.
    intros i j. unfold is_ordered, is_less, sp, osize.
    destruct (Nat.ltb_spec (sz j) (sz i)); destruct (Nat.eqb_spec (sz i) (sz j)); destruct (Nat.leb_spec (sz j) (sz i));
        cbn; try lia; try reflexivity.
  Qed.
  Lemma same_space_sz : forall i j, same_space i j = Nat.eqb (sz i) (sz j).
  Proof.
    intros i j. unfold same_space.
    destruct (Nat.eqb_spec (i_space i) (i_space j)) as [->|N]; [now rewrite Nat.eqb_refl|].
    destruct (Nat.eqb_spec (sz i) (sz j)); [exfalso; auto|reflexivity].
  Qed.
  Lemma idx_eq : forall i j, sz i = sz j -> i_ord i = i_ord j -> i = j.
  Proof. intros [s o] [s' o']; cbn; intros A B. apply inj in A. congruence. Qed.

  (** The same result as sorting: each pair, then the two pairs. *)
  Definition norm (b k : idx) : idx * idx :=
    if sz b <? sz k then (k, b)
    else if Nat.eqb (sz b) (sz k) && (i_ord k <? i_ord b) then (k, b) else (b, k).
  Definition before (q p : idx * idx) : bool :=
    let (q1, q2) := q in let (p1, p2) := p in
    (sz p1 <? sz q1) || (Nat.eqb (sz p1) (sz q1) &&
      ((sz p2 <? sz q2) || (Nat.eqb (sz p2) (sz q2) &&
        ((i_ord q1 <? i_ord p1) || (Nat.eqb (i_ord q1) (i_ord p1) && (i_ord q2 <? i_ord p2)))))).
  Definition ord2 (p q : idx * idx) : (idx * idx) * (idx * idx) := if before q p then (q, p) else (p, q).
  Definition build (pq : (idx * idx) * (idx * idx)) : integral :=
    let '((x0, y0), (x1, y1)) := pq in
    if is_exceptional_J asize ColumnMajor x0 x1 y0 y1 || needs_swap asize ColumnMajor (sp x1) (sp y0)
    then JInt x0 y0 x1 y1 else KInt x0 x1 y0 y1.

  Ltac tests :=
    repeat (match goal with
      | |- context [?a <? ?b] => destruct (Nat.ltb_spec a b)
      | |- context [Nat.eqb ?a ?b] => destruct (Nat.eqb_spec a b)
      end; try (exfalso; lia); cbn [andb orb negb fst snd]).

  Lemma norm_sym : forall b k, norm b k = norm k b.
  Proof.
    intros b k. unfold norm. tests; try reflexivity; f_equal; apply idx_eq; lia.
  Qed.
  Lemma ord2_sym : forall p q, ord2 p q = ord2 q p.
  Proof.
    intros [p1 p2] [q1 q2]. unfold ord2, before. tests; try reflexivity; repeat f_equal; apply idx_eq; lia.
  Qed.

  Lemma build_same : forall x0 y0 x1 y1 u0 v0 u1 v1,
    sz x0 = sz u0 -> sz y0 = sz v0 -> sz x1 = sz u1 -> sz y1 = sz v1 ->
    (is_exceptional_J asize ColumnMajor x0 x1 y0 y1 || needs_swap asize ColumnMajor (sp x1) (sp y0)) =
    (is_exceptional_J asize ColumnMajor u0 u1 v0 v1 || needs_swap asize ColumnMajor (sp u1) (sp v0)).
  Proof.
    intros x0 y0 x1 y1 u0 v0 u1 v1 A B C D. unfold is_exceptional_J.
    rewrite !same_space_sz, !is_ordered_cm, !needs_swap_cm. now rewrite A, B, C, D.
  Qed.

  (** The exchanges of itf.cpp before the cosmetic ones, and all of them, as sorting. *)
  Lemma prepared : forall b0 b1 k0 k1,
    rewrite_integral asize ColumnMajor b0 b1 k0 k1 = build (ord2 (norm b0 k0) (norm b1 k1)).
  Proof.
    intros b0 b1 k0 k1. unfold rewrite_integral.
    destruct (order_pair asize ColumnMajor b0 k0) as [c0 l0] eqn:E0.
    destruct (order_pair asize ColumnMajor b1 k1) as [c1 l1] eqn:E1.
    assert (N0 : norm b0 k0 = norm c0 l0 /\ sz l0 <= sz c0).
    { unfold order_pair in E0. rewrite needs_swap_cm in E0. destruct (Nat.ltb_spec (sz b0) (sz k0)); injection E0 as <- <-.
      - split; [apply norm_sym|lia]. - split; [reflexivity|lia]. }
    assert (N1 : norm b1 k1 = norm c1 l1 /\ sz l1 <= sz c1).
    { unfold order_pair in E1. rewrite needs_swap_cm in E1. destruct (Nat.ltb_spec (sz b1) (sz k1)); injection E1 as <- <-.
      - split; [apply norm_sym|lia]. - split; [reflexivity|lia]. }
    destruct N0 as [-> G0], N1 as [-> G1]. clear E0 E1 b0 b1 k0 k1.
    destruct (if swap_cols asize ColumnMajor c0 c1 l0 l1 then _ else _) as [[[d0 d1] m0] m1] eqn:E2.
    assert (O : ord2 (norm c0 l0) (norm c1 l1) = ord2 (norm d0 m0) (norm d1 m1) /\ sz m0 <= sz d0 /\ sz m1 <= sz d1 /\
                (sz d1 < sz d0 \/ sz d0 = sz d1 /\ sz m1 <= sz m0)).
    { unfold swap_cols in E2. rewrite !same_space_sz, !needs_swap_cm in E2.
      destruct (Nat.eqb_spec (sz c0) (sz c1)); cbn [negb] in E2.
      - destruct (Nat.eqb_spec (sz l0) (sz l1)); cbn [negb] in E2.
        + injection E2 as <- <- <- <-. split; [reflexivity|lia].
        + destruct (Nat.ltb_spec (sz l0) (sz l1)); injection E2 as <- <- <- <-; (split; [try reflexivity; apply ord2_sym|lia]).
      - destruct (Nat.ltb_spec (sz c0) (sz c1)); injection E2 as <- <- <- <-; (split; [try reflexivity; apply ord2_sym|lia]). }
    destruct O as (-> & L0 & L1 & LL). clear E2 G0 G1 c0 c1 l0 l1.
    cbv beta iota.
    (* the cosmetic exchanges *)
    unfold cosmetic. rewrite (same_space_sz d0 m0), (same_space_sz d1 m1). unfold iless, ieqb.
    unfold norm.
    assert (X0 : exists e0 n0, (if Nat.eqb (sz d0) (sz m0) && (i_ord m0 <? i_ord d0) then (m0, d0) else (d0, m0)) = (e0, n0) /\
       (if sz d0 <? sz m0 then (m0, d0) else if Nat.eqb (sz d0) (sz m0) && (i_ord m0 <? i_ord d0) then (m0, d0) else (d0, m0)) = (e0, n0) /\
       sz e0 = sz d0 /\ sz n0 = sz m0).
    { destruct (Nat.ltb_spec (sz d0) (sz m0)); [lia|].
      destruct (Nat.eqb_spec (sz d0) (sz m0)); cbn [andb]; [destruct (i_ord m0 <? i_ord d0)|]; do 2 eexists; split; try reflexivity; split; try reflexivity; lia. }
    assert (X1 : exists e1 n1, (if Nat.eqb (sz d1) (sz m1) && (i_ord m1 <? i_ord d1) then (m1, d1) else (d1, m1)) = (e1, n1) /\
       (if sz d1 <? sz m1 then (m1, d1) else if Nat.eqb (sz d1) (sz m1) && (i_ord m1 <? i_ord d1) then (m1, d1) else (d1, m1)) = (e1, n1) /\
       sz e1 = sz d1 /\ sz n1 = sz m1).
    { destruct (Nat.ltb_spec (sz d1) (sz m1)); [lia|].
      destruct (Nat.eqb_spec (sz d1) (sz m1)); cbn [andb]; [destruct (i_ord m1 <? i_ord d1)|]; do 2 eexists; split; try reflexivity; split; try reflexivity; lia. }
    destruct X0 as (e0 & n0 & -> & -> & S0 & S0'), X1 as (e1 & n1 & -> & -> & S1 & S1').
    rewrite (build_same d0 m0 d1 m1 e0 n0 e1 n1) by congruence.
    rewrite <- S0, <- S0', <- S1, <- S1' in LL.
    rewrite !same_space_sz. unfold ord2, before.
    assert (Sw : (Nat.eqb (sz e0) (sz e1) && Nat.eqb (sz n0) (sz n1) &&
        ((i_ord e1 <? i_ord e0) || (Nat.eqb (sz e0) (sz e1) && Nat.eqb (i_ord e0) (i_ord e1)) && (i_ord n1 <? i_ord n0))) =
      ((sz e0 <? sz e1) || (Nat.eqb (sz e0) (sz e1) &&
      ((sz n0 <? sz n1) || (Nat.eqb (sz n0) (sz n1) &&
        ((i_ord e1 <? i_ord e0) || (Nat.eqb (i_ord e1) (i_ord e0) && (i_ord n1 <? i_ord n0)))))))).
    { tests; reflexivity. }
    rewrite Sw. clear Sw.
    match goal with |- context [if ?c then (e1, n1, (e0, n0)) else _] => destruct c eqn:Ec end.
    - unfold build. rewrite (build_same e1 n1 e0 n0 e0 n0 e1 n1).
      + destruct (_ || _); reflexivity.
      + revert Ec. tests; intros; try discriminate; lia.
      + revert Ec. tests; intros; try discriminate; lia.
      + revert Ec. tests; intros; try discriminate; lia.
      + revert Ec. tests; intros; try discriminate; lia.
    - unfold build. destruct (_ || _); reflexivity.
  Qed.

  Lemma integral_unique : forall x y, equivalent x y ->
    let '(b0, b1, (k0, k1)) := x in let '(c0, c1, (l0, l1)) := y in
    rewrite_integral asize ColumnMajor b0 b1 k0 k1 = rewrite_integral asize ColumnMajor c0 c1 l0 l1.
  Proof.
    induction 1 as [[[b0 b1] [k0 k1]]|b0 b1 k0 k1 [[c0 c1] [l0 l1]] _ IH|b0 b1 k0 k1 [[c0 c1] [l0 l1]] _ IH|b0 b1 k0 k1 [[c0 c1] [l0 l1]] _ IH];
      [reflexivity|rewrite <- IH..]; rewrite !prepared.
    - now rewrite (norm_sym b0 k0).
    - now rewrite (norm_sym b1 k1).
    - now rewrite ord2_sym.
  Qed.
End Unique.
