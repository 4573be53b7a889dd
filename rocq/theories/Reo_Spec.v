(** * Specification for the order of tensor indices in exported code

    Nothing here refers to the sorting steps and decisions of the model. *)
From Coq Require Import List Arith Lia Bool Permutation Sorted.
From Verif Require Import Reo_Model.
Import ListNotations.

(** A sorting function: returns a rearrangement in which no element is less than an earlier one,
    whenever [lt] is the strict part of an order by a numeric key (or by two of them). *)
Definition weak_order {A} (lt : A -> A -> bool) : Prop :=
  (forall x, lt x x = false) /\
  (forall x y z, lt x y = true -> lt y z = true -> lt x z = true) /\
  (forall x y z, lt x y = false -> lt y z = false -> lt x z = false).
Definition sorting {A} (sort : (A -> A -> bool) -> list A -> list A) : Prop :=
  forall lt l, weak_order lt ->
    Permutation l (sort lt l) /\ StronglySorted (fun x y => lt y x = false) (sort lt l).

(** Elements of the array a tensor stands for. *)
Section Values.
  Context {V : Type} (T : list idx -> list idx -> list idx -> V).

  (** [T] has the symmetries that the tensor object declares. *)
  Definition respects (s : symmetry) (bk : braket_symmetry) (c : column_symmetry) : Prop :=
    (s = Symm -> forall b b' k k' x, Permutation b b' -> Permutation k k' -> T b' k' x = T b k x) /\
    (c = ColSymm -> forall ps ps' x, Permutation ps ps' ->
        T (map fst ps') (map snd ps') x = T (map fst ps) (map snd ps) x) /\
    (bk = BKSymm -> forall b k x, T k b x = T b k x).

  Definition element (t : tensor) : V := T (t_bra t) (t_ket t) (t_aux t).
End Values.

(** The order of the auxiliary indices: rearranged, and two that belong to one space stay in order. *)
Definition keeps_space_order (l l' : list idx) : Prop :=
  Permutation l l' /\
  forall s, filter (fun i => Nat.eqb (i_space i) s) l' = filter (fun i => Nat.eqb (i_space i) s) l.

Definition spaces (l : list idx) : list nat := map i_space l.

(** Two occurrences of the same array: same name, symmetries and numbers of indices, and the same
    spaces on the auxiliary indices, none of which is a space of another index. *)
Definition same_array (t u : tensor) : Prop :=
  t_label t = t_label u /\ t_symm t = t_symm u /\ t_bksymm t = t_bksymm u /\ t_colsymm t = t_colsymm u /\
  length (t_bra t) = length (t_bra u) /\ length (t_ket t) = length (t_ket u) /\
  (t_bksymm t = BKSymm -> length (t_bra t) = length (t_ket t)) /\
  spaces (t_aux t) = spaces (t_aux u) /\
  forall s, In s (spaces (t_aux t)) ->
    ~ In s (spaces (t_bra t ++ t_ket t)) /\ ~ In s (spaces (t_bra u ++ t_ket u)).

(** The index position that moves fastest through memory. *)
Definition fastest (lay : layout) (l : list idx) : option idx :=
  match lay with
  | RowMajor => nth_error (rev l) 0
  | ColumnMajor => nth_error l 0
  | Unspecified => None
  end.

(** Real two-electron integrals: (p q | r s) with its eight symmetries. *)
Definition eightfold {V} (eri : idx -> idx -> idx -> idx -> V) : Prop :=
  forall p q r s, eri q p r s = eri p q r s /\ eri p q s r = eri p q r s /\ eri r s p q = eri p q r s.

(** What the three kinds of integral tensors stand for. *)
Definition g_value {V} (eri : idx -> idx -> idx -> idx -> V) (b0 b1 k0 k1 : idx) : V := eri b0 k0 b1 k1.
Definition integral_value {V} (eri : idx -> idx -> idx -> idx -> V) (i : integral) : V :=
  match i with
  | KInt b0 b1 k0 k1 => eri b0 k0 b1 k1
  | JInt b0 b1 k0 k1 => eri b0 b1 k0 k1
  end.

(** Index orders of [g] that the symmetries identify. *)
Inductive equivalent : idx * idx * (idx * idx) -> idx * idx * (idx * idx) -> Prop :=
| eq_refl_ : forall x, equivalent x x
| eq_first : forall b0 b1 k0 k1 y, equivalent (k0, b1, (b0, k1)) y -> equivalent (b0, b1, (k0, k1)) y
| eq_second : forall b0 b1 k0 k1 y, equivalent (b0, k1, (k0, b1)) y -> equivalent (b0, b1, (k0, k1)) y
| eq_columns : forall b0 b1 k0 k1 y, equivalent (b1, b0, (k1, k0)) y -> equivalent (b0, b1, (k0, k1)) y.
