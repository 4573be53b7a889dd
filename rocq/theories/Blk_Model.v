(** * Model of the tensor block comparators, SeQuant/core/utility/tensor.hpp, and of the maps keyed
      by them

    Spaces and indices are those of [Tsr_Model] (space.hpp, index.hpp). Labels are strings in the
    code; here they are numbers ordered as the strings are. A tensor is its label and its slots; its
    symmetries take no part in the comparison. *)
From Coq Require Import ZArith List Arith Bool.
From Verif Require Import Tsr_Model.
Import ListNotations.

Record btensor := mkB { b_label : Z; b_bra : list index; b_ket : list index; b_aux : list index }.

(** [Tensor::slots], tensor.hpp:581; [num_slots], 654-656; [indices], 589-592; [num_indices], 658-661
    of core/expressions/tensor.hpp. *)
Definition slots (t : btensor) : list index := b_bra t ++ b_ket t ++ b_aux t.
Definition num_slots (t : btensor) : nat := length (b_bra t) + length (b_ket t) + length (b_aux t).
Definition b_indices (t : btensor) : list index := filter (fun i => negb (ix_null i)) (slots t).
Definition num_indices (t : btensor) : nat := length (filter (fun i => negb (ix_null i)) (slots t)).

(** The template arguments [Comparator] (at the three types it is used with) and [fallback];
    [Selector] is [std::not_equal_to] in every instance (tensor.hpp:77-82, 156-163). *)
Record comparator := mkCmp { c_Z : Z -> Z -> bool; c_nat : nat -> nat -> bool;
                             c_space : space -> space -> bool; c_fallback : bool }.
Definition equal_to : comparator := mkCmp Z.eqb Nat.eqb space_eqb true.
Definition less : comparator := mkCmp Z.ltb Nat.ltb space_ltb false.

Section Compare.
  Variable c : comparator.

  (** The loop over the indices, tensor.hpp:46-57. [None]: the assertion at 48 fails. *)
  Fixpoint space_loop (l m : list index) : option bool :=
    match l, m with
    | [], _ => Some (c_fallback c)
    | _ :: _, [] => None
    | x :: l', y :: m' =>
        if negb (space_eqb (ix_space x) (ix_space y)) then Some (c_space c (ix_space x) (ix_space y))
        else space_loop l' m'
    end.

  (** [TensorBlockComparator::operator()], tensor.hpp:25-60. *)
  Definition block_compare (l r : btensor) : option bool :=
    if negb (Z.eqb (b_label l) (b_label r)) then Some (c_Z c (b_label l) (b_label r))
    else if negb (Nat.eqb (num_slots l) (num_slots r)) then Some (c_nat c (num_slots l) (num_slots r))
    else if negb (Nat.eqb (num_indices l) (num_indices r)) then Some (c_nat c (num_indices l) (num_indices r))
    else space_loop (b_indices l) (b_indices r).

  (** [std::ranges::find] and [distance], tensor.hpp:114-117: the position of an index in [indices_],
      or their number. *)
  Fixpoint position (x : index) (l : list index) : nat :=
    match l with [] => 0 | y :: l' => if ix_eqb y x then 0 else S (position x l') end.

  (** The loop over the indices, tensor.hpp:112-128. *)
  Fixpoint index_loop (specific l m : list index) : option bool :=
    match l, m with
    | [], _ => Some (c_fallback c)
    | _ :: _, [] => None
    | x :: l', y :: m' =>
        if negb (ix_eqb x y) then
          if negb (Nat.eqb (position x specific) (position y specific))
          then Some (c_nat c (position x specific) (position y specific))
          else index_loop specific l' m'
        else index_loop specific l' m'
    end.
End Compare.

(** [TensorBlockEqualComparator] and [TensorBlockLessThanComparator], tensor.hpp:77-82. *)
Definition block_equal : btensor -> btensor -> option bool := block_compare equal_to.
Definition block_less : btensor -> btensor -> option bool := block_compare less.

(** [IndexSpecificTensorBlockComparator::operator()], tensor.hpp:99-131. *)
Definition specific_compare (c : comparator) (specific : list index) (l r : btensor) : option bool :=
  match block_equal l r with
  | None => None
  | Some false => block_compare c l r
  | Some true => index_loop c specific (b_indices l) (b_indices r)
  end.
Definition specific_equal : list index -> btensor -> btensor -> option bool := specific_compare equal_to.
Definition specific_less : list index -> btensor -> btensor -> option bool := specific_compare less.

(** ** Maps

    [std::map] keyed by tensors (export.hpp:37, 40, 330, context.hpp:99, itf.hpp:33) as the list of its
    entries in order. [m[k] = v] finds the first entry that is not less than [k] and overwrites it
    unless [k] is less than it, in which case a new entry is put there. *)
Section Map.
  Context {K V : Type} (lt : K -> K -> bool).
  Fixpoint map_assign (k : K) (v : V) (m : list (K * V)) : list (K * V) :=
    match m with
    | [] => [(k, v)]
    | (k', v') :: m' => if lt k' k then (k', v') :: map_assign k v m'
                        else if lt k k' then (k, v) :: m else (k', v) :: m'
    end.
  Fixpoint map_find (k : K) (m : list (K * V)) : option V :=
    match m with
    | [] => None
    | (k', v') :: m' => if lt k' k then map_find k m' else if lt k k' then None else Some v'
    end.
  (** A sequence of assignments. *)
  Definition map_of (l : list (K * V)) : list (K * V) := fold_left (fun m kv => map_assign (fst kv) (snd kv) m) l [].
End Map.
