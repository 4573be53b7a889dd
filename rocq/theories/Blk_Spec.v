(** * Specification for the tensor block comparators *)
From Coq Require Import ZArith List Arith Bool.
From Verif Require Import Tsr_Model Tsr_Spec Blk_Model.
Import ListNotations.

(** The indices in the slots of a tensor, empty slots left out. *)
Definition occupied (t : btensor) : list index :=
  concat (map (fun i => match slot i with Some x => [x] | None => [] end) (b_bra t ++ b_ket t ++ b_aux t)).

(** The same block: label, number of slots, and the spaces of the indices in order. *)
Definition same_block (t u : btensor) : Prop :=
  b_label t = b_label u /\
  length (b_bra t ++ b_ket t ++ b_aux t) = length (b_bra u ++ b_ket u ++ b_aux u) /\
  map ix_space (occupied t) = map ix_space (occupied u).

(** [k] is where [x] occurs first in [l]; [length l] if it does not occur. *)
Definition first_at (l : list index) (x : index) (k : nat) : Prop :=
  (forall j y, j < k -> nth_error l j = Some y -> identity y <> identity x) /\
  (k = length l \/ exists y, nth_error l k = Some y /\ identity y = identity x).

(** The specific indices occur at the same places: the [j]-th indices of both tensors are the same
    specific index, or neither is one. *)
Definition same_specific (specific : list index) (t u : btensor) : Prop :=
  forall j x y k, nth_error (occupied t) j = Some x -> nth_error (occupied u) j = Some y ->
    (first_at specific x k <-> first_at specific y k).

(** All spaces of the tensor are in [S]. *)
Definition block_over (S : space -> Prop) (t : btensor) : Prop :=
  forall x, In x (b_bra t ++ b_ket t ++ b_aux t) -> S (ix_space x).

(** The value of the last assignment whose key satisfies [p]. *)
Fixpoint last_value {K V} (p : K -> bool) (l : list (K * V)) (before : option V) : option V :=
  match l with
  | [] => before
  | (k, v) :: l' => last_value p l' (if p k then Some v else before)
  end.
