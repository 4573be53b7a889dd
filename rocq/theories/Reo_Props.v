(** * Properties of the order of tensor indices in exported code (C114-C116) *)
From Coq Require Import List Arith Lia Bool Permutation Sorted.
From Verif Require Import Reo_Model Reo_Spec Reo_Proofs Reo_Proofs2 Reo_Proofs3.
Import ListNotations.

(** A rewritten tensor keeps its name and consists of auxiliary indices only: the indices of the
    two groups, in an order that stands for the same element of every array with the declared
    symmetries, before or after the auxiliary indices, of which those of one space stay in order. *)
Theorem C114_rewritten : forall asize lay isort psort on t t',
  sorting isort -> sorting psort -> rewrite_tensor asize lay isort psort on t = Some t' ->
  t_label t' = t_label t /\ t_bra t' = [] /\ t_ket t' = [] /\
  t_symm t' = Nonsymm /\ t_bksymm t' = BKNonsymm /\ t_colsymm t' = ColNonsymm /\
  exists f s x, (t_aux t' = x ++ f ++ s \/ t_aux t' = f ++ s ++ x) /\
    Permutation (t_bra t ++ t_ket t) (f ++ s) /\ keeps_space_order (t_aux t) x /\
    (length f = length (t_bra t) \/ t_bksymm t = BKSymm /\ length f = length (t_ket t)) /\
    forall V (T : list idx -> list idx -> list idx -> V), respects T (t_symm t) (t_bksymm t) (t_colsymm t) ->
      T f s (t_aux t) = element T t.
Proof.
  intros asize lay isort psort on t t' Hi Hp R.
  destruct (storage_form asize lay isort psort Hi Hp on t) as (b & k & x & Pb & Pk & Fx & Vt & f & s & FS & O).
  unfold storage_order in O. rewrite R in O.
  assert (F : t_label t' = t_label t /\ t_bra t' = [] /\ t_ket t' = [] /\
    t_symm t' = Nonsymm /\ t_bksymm t' = BKNonsymm /\ t_colsymm t' = ColNonsymm).
  { unfold rewrite_tensor in R. destruct on; [|discriminate]. cbn [negb] in R. destruct (_ && _); [discriminate|].
    destruct (sorted_braket _ _ _ _ t). injection R as <-. repeat split. }
  destruct F as (F1 & F2 & F3 & F4 & F5 & F6). unfold all_indices in O. rewrite F2, F3 in O. cbn [app] in O.
  repeat (split; [assumption|]). exists f, s, x. split; [exact O|]. split.
  { destruct FS as [[-> ->]|(-> & -> & _)]; [now apply Permutation_app|]. rewrite Permutation_app_comm. now apply Permutation_app. }
  split.
  { destruct Fx as [-> | ->]; [apply stable_keeps|]. split; reflexivity. }
  split.
  { destruct FS as [[-> ->]|(-> & -> & B)]; [left; symmetry; now apply Permutation_length|].
    right. split; [exact B|]. symmetry; now apply Permutation_length. }
  intros V T RT. unfold element. destruct FS as [[-> ->]|(-> & -> & B)]; [now apply Vt|].
  destruct RT as (RS & RC & RB). rewrite (RB B). apply Vt. split; [|split]; assumption.
Qed.

(** Two occurrences of one array that are printed with the same index list, after reordering, are
    the same element of it, whatever its values. Missing: auxiliary indices that share a space
    with another index or whose spaces are in another order (refuted below). *)
Theorem C114_same_element_partial : forall asize lay isort psort on V (T : list idx -> list idx -> list idx -> V) t u,
  sorting isort -> sorting psort ->
  respects T (t_symm t) (t_bksymm t) (t_colsymm t) -> same_array t u ->
  storage_order asize lay isort psort on t = storage_order asize lay isort psort on u ->
  element T t = element T u.
Proof. intros. eapply storage_inj; eassumption. Qed.

(** A symmetric tensor with bra-ket symmetry and without auxiliary indices ends up with one of its
    largest index spaces in the position that moves fastest through memory. *)
Theorem C115_fastest_largest_partial : forall asize lay isort psort t,
  lay <> Unspecified -> sorting isort ->
  t_symm t = Symm -> t_bksymm t = BKSymm -> t_aux t = [] -> t_bra t ++ t_ket t <> [] ->
  exists i, fastest lay (storage_order asize lay isort psort true t) = Some i /\
    forall j, In j (t_bra t ++ t_ket t) -> asize (i_space j) <= asize (i_space i).
Proof. intros. apply locality; assumption. Qed.

(** A two-electron integral [g] exported for ITF becomes a J or a K whose printed indices stand for
    the same integral, for all values with the eight symmetries of real integrals. *)
Theorem C116_integral_value : forall asize isort psort V (eri : idx -> idx -> idx -> idx -> V) glab jlab klab on t b0 b1 k0 k1,
  sorting isort -> sorting psort -> eightfold eri ->
  t_label t = glab -> t_bra t = [b0; b1] -> t_ket t = [k0; k1] -> t_aux t = [] ->
  (t_symm t = Symm -> forall b0 b1 k0 k1, eri b1 k0 b0 k1 = eri b0 k0 b1 k1) ->
  exists p q u v, let r := itf_rewrite asize ColumnMajor isort psort glab jlab klab on t in
    all_indices r = [p; q; u; v] /\
    ((t_label r = jlab /\ eri p q u v = g_value eri b0 b1 k0 k1) \/
     (t_label r = klab /\ eri p u q v = g_value eri b0 b1 k0 k1)).
Proof. intros. apply itf_value; assumption. Qed.

(** All index orders that the eight symmetries identify give the same exported integral. Missing:
    different spaces of the same size (refuted below). *)
Theorem C116_unique_partial : forall asize isort psort glab jlab klab on t u b0 b1 k0 k1 c0 c1 l0 l1,
  (forall s s', asize s = asize s' -> s = s') ->
  t_label t = glab -> t_label u = glab -> t_aux t = [] -> t_aux u = [] ->
  t_symm t = t_symm u -> t_bksymm t = t_bksymm u -> t_colsymm t = t_colsymm u ->
  t_bra t = [b0; b1] -> t_ket t = [k0; k1] -> t_bra u = [c0; c1] -> t_ket u = [l0; l1] ->
  equivalent (b0, b1, (k0, k1)) (c0, c1, (l0, l1)) ->
  itf_rewrite asize ColumnMajor isort psort glab jlab klab on t =
  itf_rewrite asize ColumnMajor isort psort glab jlab klab on u.
Proof.
  intros asize isort psort glab jlab klab on t u b0 b1 k0 k1 c0 c1 l0 l1 inj L1 L2 A1 A2 S B C Bt Kt Bu Ku E.
  pose proof (integral_unique asize inj _ _ E) as U. cbv beta iota in U.
  unfold itf_rewrite, is_integral, all_indices, to_integral.
  rewrite L1, L2, Bt, Kt, Bu, Ku, A1, A2, U, S, B, C, Nat.eqb_refl. reflexivity.
Qed.

Module ReoExamples.
  (** A sorting function. *)
  Fixpoint ins {A} (lt : A -> A -> bool) (x : A) (l : list A) : list A :=
    match l with [] => [x] | y :: l' => if lt y x then y :: ins lt x l' else x :: y :: l' end.
  Definition isrt {A} (lt : A -> A -> bool) (l : list A) : list A := fold_right (ins lt) [] l.

  Lemma ins_perm : forall A lt (x : A) l, Permutation (x :: l) (ins lt x l).
  Proof. induction l as [|y l IH]; cbn; [reflexivity|]. destruct (lt y x); [|reflexivity]. rewrite perm_swap. now constructor. Qed.
  Lemma isrt_sorting : forall A, sorting (@isrt A).
  Proof.
    intros A lt l (Ir & Tr & Ng). split.
    - induction l; cbn; [reflexivity|]. rewrite <- ins_perm. now constructor.
    - induction l as [|x l IH]; [constructor|]. change (isrt lt (x :: l)) with (ins lt x (isrt lt l)). revert IH. generalize (isrt lt l) as m. clear l. induction m as [|y m IHm]; intros S; cbn.
      + constructor; constructor.
      + inversion S as [|? ? S1 F]; subst. destruct (lt y x) eqn:E.
        * constructor; [auto|]. apply (Permutation_Forall (ins_perm A lt x m)). constructor; [|exact F].
          destruct (lt x y) eqn:E2; [|reflexivity]. pose proof (Tr _ _ _ E E2) as C. rewrite Ir in C. discriminate.
        * constructor; [exact S|]. constructor; [exact E|]. eapply Forall_impl; [|exact F].
          intros z Hz. cbn in *. eapply Ng; eassumption.
  Qed.

  (** Spaces: 0 occupied (10), 1 virtual (20), 2 auxiliary (15), 3 another of size 20. *)
  Definition sz (s : nat) : nat := match s with 0 => 10 | 1 => 20 | 2 => 15 | 3 => 20 | _ => s + 100 end.
  Definition occ n := mkIdx 0 n. Definition vir n := mkIdx 1 n. Definition ax n := mkIdx 2 n. Definition oth n := mkIdx 3 n.
  Notation rw lay := (rewrite_tensor sz lay isrt isrt true).
  Notation so lay := (storage_order sz lay isrt isrt true).

  (** A symmetric tensor is sorted, bra and ket are exchanged, and the result has the fastest index
      of the largest space. *)
  Example reorder_example :
    rw ColumnMajor (mkTensor 7 [occ 1; occ 2] [occ 3; vir 1] [] Symm BKSymm ColNonsymm) =
    Some (mkTensor 7 [] [] [vir 1; occ 3; occ 1; occ 2] Nonsymm BKNonsymm ColNonsymm).
  Proof. reflexivity. Qed.
  Example columns_example :
    rw ColumnMajor (mkTensor 7 [occ 1; vir 2] [occ 3; vir 1] [ax 1] Nonsymm BKNonsymm ColSymm) =
    Some (mkTensor 7 [] [] [vir 2; occ 1; vir 1; occ 3; ax 1] Nonsymm BKNonsymm ColNonsymm).
  Proof. reflexivity. Qed.

  (** The hypotheses of C114_same_element_partial hold of two different tensors that are printed alike. *)
  Example same_element_example :
    let t := mkTensor 7 [occ 1; vir 2] [occ 3; vir 1] [ax 1] Nonsymm BKNonsymm ColSymm in
    let u := mkTensor 7 [vir 2; occ 1] [vir 1; occ 3] [ax 1] Nonsymm BKNonsymm ColSymm in
    same_array t u /\ so ColumnMajor t = so ColumnMajor u /\ t <> u /\
    respects (fun b k x => fold_right Nat.add 0 (map (fun p => i_ord (fst p) * i_ord (snd p)) (combine b k)) + length x)
      Nonsymm BKNonsymm ColSymm.
  Proof.
    cbv zeta. split; [|split; [reflexivity|split; [discriminate|]]].
    - repeat split; try reflexivity; try discriminate; cbn in *; intuition; subst; discriminate.
    - split; [discriminate|]. split; [|discriminate]. intros _ ps ps' x P. f_equal.
      assert (Z : forall qs : list (idx * idx), combine (map fst qs) (map snd qs) = qs).
      { induction qs as [|[a b] qs IH]; cbn; [reflexivity|]. now rewrite IH. }
      rewrite !Z. induction P; cbn; lia.
  Qed.

  (** Integrals: (1 2 | 3 4) values invariant under the eight exchanges. *)
  Definition eri (p q r s : idx) : nat := (i_ord p + i_ord q) * (i_ord r + i_ord s) + i_ord p * i_ord q + i_ord r * i_ord s.
  Example eri_eightfold : eightfold eri.
  Proof. intros p q r s. unfold eri. repeat split; nia. Qed.
  Example integral_example :
    itf_rewrite sz ColumnMajor isrt isrt 5 6 7 true (mkTensor 5 [occ 1; vir 2] [vir 1; occ 2] [] Nonsymm BKNonsymm ColSymm) =
      mkTensor 7 [vir 1; vir 2] [occ 1; occ 2] [] Nonsymm BKNonsymm ColSymm /\
    itf_rewrite sz ColumnMajor isrt isrt 5 6 7 true (mkTensor 5 [vir 1; occ 1] [vir 2; occ 2] [] Nonsymm BKNonsymm ColSymm) =
      mkTensor 6 [vir 1; vir 2] [occ 1; occ 2] [] Nonsymm BKNonsymm ColSymm.
  Proof. split; reflexivity. Qed.
  Example equivalent_example : equivalent (occ 1, vir 2, (vir 1, occ 2)) (vir 1, vir 2, (occ 1, occ 2)).
  Proof. apply eq_first. apply eq_refl_. Qed.
  Example injective_sizes : exists f : nat -> nat, (forall s s', f s = f s' -> s = s') /\ f 0 < f 1.
  Proof. exists (fun s => 10 * s + 10). split; [intros; lia|lia]. Qed.
  Example locality_example :
    let t := mkTensor 7 [occ 1; occ 2] [occ 3; vir 1] [] Symm BKSymm ColNonsymm in
    fastest ColumnMajor (so ColumnMajor t) = Some (vir 1) /\ fastest RowMajor (so RowMajor t) = Some (vir 1) /\
    fastest RowMajor (all_indices (mkTensor 7 [occ 3; vir 1] [occ 1; occ 2] [] Symm BKSymm ColNonsymm)) = Some (occ 2).
  Proof. repeat split. Qed.

  (** Without the condition on auxiliary indices different elements are printed alike: auxiliary
      indices are sorted by space although nothing says that the array is symmetric in them. *)
  Theorem C114_aux_conflated_refuted : exists (T : list idx -> list idx -> list idx -> nat) t u,
    respects T (t_symm t) (t_bksymm t) (t_colsymm t) /\
    t_label t = t_label u /\ t_symm t = t_symm u /\ t_bksymm t = t_bksymm u /\ t_colsymm t = t_colsymm u /\
    length (t_bra t) = length (t_bra u) /\ length (t_ket t) = length (t_ket u) /\ length (t_aux t) = length (t_aux u) /\
    so ColumnMajor t = so ColumnMajor u /\ element T t <> element T u.
  Proof.
    exists (fun _ _ x => match x with i :: _ => i_space i | [] => 0 end),
      (mkTensor 7 [occ 1; vir 1] [occ 2; vir 2] [ax 1; oth 1] Nonsymm BKNonsymm ColSymm),
      (mkTensor 7 [occ 1; vir 1] [occ 2; vir 2] [oth 1; ax 1] Nonsymm BKNonsymm ColSymm).
    split; [repeat split; discriminate|]. repeat (split; [reflexivity|]). cbn. discriminate.
  Qed.

  (** Rewriting a rewritten tensor changes it again, and then different elements are printed alike. *)
  Theorem C114_twice_refuted : exists t t' t'' u (T : list idx -> list idx -> list idx -> nat),
    rw ColumnMajor t = Some t' /\ rw ColumnMajor t' = Some t'' /\ all_indices t'' <> all_indices t' /\
    respects T (t_symm t) (t_bksymm t) (t_colsymm t) /\ same_array t u /\
    all_indices t'' = so ColumnMajor u /\ element T t <> element T u.
  Proof.
    exists (mkTensor 7 [occ 1; vir 2] [occ 3; vir 1] [] Nonsymm BKNonsymm ColSymm),
      (mkTensor 7 [] [] [vir 2; occ 1; vir 1; occ 3] Nonsymm BKNonsymm ColNonsymm),
      (mkTensor 7 [] [] [vir 2; vir 1; occ 1; occ 3] Nonsymm BKNonsymm ColNonsymm),
      (mkTensor 7 [vir 2; vir 1] [occ 1; occ 3] [] Nonsymm BKNonsymm ColSymm),
      (fun b k _ => list_sum (map i_space b)).
    split; [reflexivity|]. split; [reflexivity|]. split; [discriminate|]. split; [|split; [|split; [reflexivity|cbn; discriminate]]].
    - split; [discriminate|]. split; [|discriminate]. intros _ ps ps' x P.
      assert (Q : Permutation (map i_space (map fst ps)) (map i_space (map fst ps'))) by now do 2 apply Permutation_map.
      unfold list_sum. revert Q. generalize (map i_space (map fst ps)), (map i_space (map fst ps')). induction 1; cbn; lia.
    - repeat split; try reflexivity; try discriminate; cbn in *; contradiction.
  Qed.

  (** A column-symmetric tensor: the fastest position is left to the smaller space although another
      allowed order of the columns has the larger one there. *)
  Theorem C115_columns_refuted : exists t u i j,
    t_colsymm t = ColSymm /\
    Permutation (combine (t_bra t) (t_ket t)) (combine (t_bra u) (t_ket u)) /\
    length (t_bra u) = length (t_ket u) /\ t_aux t = [] /\
    fastest RowMajor (so RowMajor t) = Some i /\ fastest RowMajor (all_indices u) = Some j /\
    sz (i_space i) < sz (i_space j).
  Proof.
    exists (mkTensor 7 [occ 1; vir 1] [vir 2; occ 2] [] Nonsymm BKNonsymm ColSymm),
      (mkTensor 7 [vir 1; occ 1] [occ 2; vir 2] [] Nonsymm BKNonsymm ColSymm), (occ 2), (vir 2).
    repeat split; try reflexivity; [apply perm_swap|cbn; lia].
  Qed.

  (** With auxiliary indices: rewriting moves a larger space out of the fastest position. *)
  Theorem C115_aux_refuted : exists t t' i j,
    rw RowMajor t = Some t' /\
    fastest RowMajor (all_indices t') = Some i /\ fastest RowMajor (all_indices t) = Some j /\
    sz (i_space i) < sz (i_space j).
  Proof.
    exists (mkTensor 7 [vir 1] [occ 2] [ax 1] Nonsymm BKNonsymm ColSymm),
      (mkTensor 7 [] [] [ax 1; vir 1; occ 2] Nonsymm BKNonsymm ColNonsymm), (occ 2), (ax 1).
    repeat split; try reflexivity. cbn. lia.
  Qed.

  (** Different spaces of the same size: equal integrals are exported in different ways. *)
  Theorem C116_unique_refuted : exists b0 b1 k0 k1 c0 c1 l0 l1,
    equivalent (b0, b1, (k0, k1)) (c0, c1, (l0, l1)) /\
    itf_rewrite sz ColumnMajor isrt isrt 5 6 7 true (mkTensor 5 [b0; b1] [k0; k1] [] Nonsymm BKNonsymm ColSymm) <>
    itf_rewrite sz ColumnMajor isrt isrt 5 6 7 true (mkTensor 5 [c0; c1] [l0; l1] [] Nonsymm BKNonsymm ColSymm).
  Proof.
    exists (vir 1), (oth 1), (oth 2), (vir 2), (oth 2), (oth 1), (vir 1), (vir 2). split.
    - apply eq_first. apply eq_refl_.
    - discriminate.
  Qed.
End ReoExamples.
