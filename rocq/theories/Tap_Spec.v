(** * Specification for the TAPP backend: contractions of annotated arrays *)
From Coq Require Import List Bool Arith.
From Verif Require Import Num_Model Tap_Model.
Import ListNotations.

(** A multi-index within the extents. *)
Definition in_range (e idx : list nat) : Prop := Forall2 (fun i x => i < x) idx e.
Definition size (e : list nat) : nat := fold_right Nat.mul 1 e.

(** Values of labels. *)
Definition env := list (nat * nat).
Fixpoint value_of (v : env) (l : nat) : nat :=
  match v with [] => 0 | (k, i) :: v' => if Nat.eqb k l then i else value_of v' l end.
Definition memb (l : nat) (ls : list nat) : bool := existsb (Nat.eqb l) ls.
Fixpoint distinct (ls : list nat) : list nat :=
  match ls with [] => [] | a :: r => a :: filter (fun b => negb (Nat.eqb a b)) (distinct r) end.
Definition sum_range (n : nat) (f : nat -> cplx) : cplx := fold_right c_add c0 (map f (seq 0 n)).
Fixpoint sum_labels (dim : nat -> nat) (ls : list nat) (v : env) (body : env -> cplx) : cplx :=
  match ls with
  | [] => body v
  | a :: r => sum_range (dim a) (fun i => sum_labels dim r ((a, i) :: v) body)
  end.

(** Element [at_] of the product of two annotated arrays: labels that are not in the result are
    summed over. *)
Definition contraction (dim : nat -> nat) (a : list nat -> cplx) (ia : list nat) (b : list nat -> cplx) (ib ir at_ : list nat) : cplx :=
  sum_labels dim (filter (fun l => negb (memb l ir)) (distinct (ia ++ ib))) (combine ir at_)
    (fun v => c_mul (a (map (value_of v) ia)) (b (map (value_of v) ib))).

(** Array whose buffer fits its extents. *)
Definition valid (t : tensor) : Prop := List.length (data t) = size (ext t).
(** The array has the dimensions of its labels, all different. *)
Definition annotated (dim : nat -> nat) (t : tensor) (ls : list nat) : Prop := ext t = map dim ls /\ NoDup ls /\ valid t.

(** What the TAPP library promises for a product. *)
Definition tapp_product (tapp : cplx -> tensor -> list nat -> tensor -> list nat -> list nat -> list nat -> list cplx) : Prop :=
  forall dim alpha A ia B ib ir, annotated dim A ia -> annotated dim B ib -> NoDup ir ->
    (forall l, In l ir -> In l ia \/ In l ib) ->
    let d := mkT (map dim ir) (tapp alpha A ia B ib (map dim ir) ir) in
    valid d /\ forall at_, in_range (map dim ir) at_ ->
      element d at_ = c_mul alpha (contraction dim (element A) ia (element B) ib ir at_).

(** The order of labels of an element. *)
Definition reorder (pre post at_ : list nat) : list nat := map (value_of (combine post at_)) pre.
