(** * Model of the TAPP evaluation backend
    (SeQuant/core/eval/backends/tapp/{tensor,ops,result}.hpp)

    Extents and offsets are unbounded naturals (int64_t and size_t in the code); numbers are exact.
    The TAPP library is the parameter [tapp]: D = alpha A B for annotated operands (beta is always 0
    in the calls modelled). Assertions on ranks and extents are preconditions of the theorems. *)
From Coq Require Import List Bool Arith.
From Verif Require Import Num_Model.
Import ListNotations.

(** [compute_strides], tensor.hpp:40-50: filled from the last mode to the first. *)
Fixpoint strides (ext : list nat) : list nat :=
  match ext with
  | [] => []
  | _ :: r => match strides r, r with
              | s :: ss, x :: _ => s * x :: s :: ss
              | _, _ => [1]
              end
  end.
(** [compute_volume], tensor.hpp:53-57. *)
Definition volume (ext : list nat) : nat :=
  match ext with [] => 1 | _ => fold_left Nat.mul ext 1 end.
(** [offset], [offset_from_vec], tensor.hpp:255-271. *)
Fixpoint dot_off (off : nat) (idx st : list nat) : nat :=
  match idx, st with
  | i :: idx', s :: st' => dot_off (off + i * s) idx' st'
  | _, _ => off
  end.
Definition offset (ext idx : list nat) : nat := dot_off 0 idx (strides ext).

Record tensor := mkT { ext : list nat; data : list cplx }.
(** operator(), tensor.hpp:196-220. *)
Definition element (t : tensor) (idx : list nat) : cplx := nth (offset (ext t) idx) (data t) c0.

(** First position with the label, as in the loops of ops.hpp. *)
Fixpoint lookup (idx ex : list nat) (l : nat) : option nat :=
  match idx, ex with
  | i :: idx', x :: ex' => if Nat.eqb i l then Some x else lookup idx' ex' l
  | _, _ => None
  end.
(** [compute_result_extents], ops.hpp:79-107. [None]: "Result index not found in A or B". *)
Fixpoint result_extents (A : tensor) (ia : list nat) (B : tensor) (ib ir : list nat) : option (list nat) :=
  match ir with
  | [] => Some []
  | r :: ir' =>
      match (match lookup ia (ext A) r with Some x => Some x | None => lookup ib (ext B) r end), result_extents A ia B ib ir' with
      | Some x, Some xs => Some (x :: xs)
      | _, _ => None
      end
  end.

Section Backend.
  Variable tapp : cplx -> tensor -> list nat -> tensor -> list nat -> list nat -> list nat -> list cplx.

  (** [contract] with an empty result and beta = 0, ops.hpp:121-162. *)
  Definition contract (alpha : cplx) (A : tensor) (ia : list nat) (B : tensor) (ib ir : list nat) : option tensor :=
    match result_extents A ia B ib ir with
    | None => None
    | Some e => Some (mkT e (tapp alpha A ia B ib e ir))
    end.

  (** [permute], ops.hpp:170-218: a product with the scalar 1. *)
  Definition scalar_one : tensor := mkT [] [c1].
  Definition permute (src : tensor) (si di : list nat) : tensor :=
    let e := map (fun d => match lookup si (ext src) d with Some x => x | None => 0 end) di in
    mkT e (tapp c1 src si scalar_one [] e di).

  (** [scal], [dot], operator+=: ops.hpp:223-244, tensor.hpp:179-183. *)
  Definition scal (a : cplx) (t : tensor) : tensor := mkT (ext t) (map (fun x => c_mul x a) (data t)).
  Definition dot (a b : tensor) : cplx :=
    fold_left (fun r p => c_add r (c_mul (fst p) (snd p))) (combine (data a) (data b)) c0.
  Definition plus (a b : tensor) : tensor := mkT (ext a) (map (fun p => c_add (fst p) (snd p)) (combine (data a) (data b))).

  (** ResultTensorTAPP, result.hpp:157-264. *)
  Inductive result := RTensor (t : tensor) | RScalar (c : cplx).
  Definition r_sum (a b : tensor) (la ra ta : list nat) : tensor := plus (permute a la ta) (permute b ra ta).
  Definition r_prod_scalar (a : tensor) (c : cplx) (la ta : list nat) : tensor := scal c (permute a la ta).
  Definition r_prod (a b : tensor) (la ra ta : list nat) : option result :=
    match ta with
    | [] => Some (RScalar (dot a (permute b ra la)))
    | _ => match contract c1 a la b ra ta with Some t => Some (RTensor t) | None => None end
    end.
  Definition r_phase (a : tensor) (f : cplx) : tensor := scal f a.
  Definition r_permute (a : tensor) (pre post : list nat) : tensor := permute a pre post.
  Definition r_adjoint (a : tensor) (pre post : list nat) : tensor :=
    let t := permute a pre post in mkT (ext t) (map c_conj (data t)).
  Definition r_add_inplace (a b : tensor) : tensor := plus a b.
End Backend.
