(** Model of the leaf that binarize makes of a tensor without protoindices (SeQuant/core/eval/
    eval_expr.cpp:137-161, the second branch, and 388, 428): the tensor is brought into block order in
    place, and the node keeps the tensor and the sign of the change. The label does not end with the
    adjoint mark. Hash values are left out. *)
From Coq Require Import List ZArith.
From Verif Require Import BT_Model Ev_Model Tsr_Model.
Import ListNotations.

(** The data of a node: its tensor, and whether its phase is -1. *)
Definition payload : Type := tensor * bool.
(** EvalExpr(Tensor). [sort] is the sort of the block canonicalizer; [None] when an assertion
    fails. *)
Definition tensor_leaf (sort : list index -> list index) (t : tensor) : option (tree payload) :=
  option_map (fun r => Leaf r) (block_apply sort [] t).
(** EvalExpr::canon_phase (eval_expr.cpp:158, 277) *)
Definition leaf_phase (d : payload) : Z := if snd d then (-1)%Z else 1%Z.
