(** * Specification for the equations of motion: the sectors of an operator *)
From Coq Require Import List ZArith.
Open Scope Z_scope.

(** The sector with [p] particles and [h] holes belongs to the operator of highest sector [np], [nh]: the difference
    is the same, it is not above, and it is not the reference. *)
Definition sector (np nh p h : Z) : Prop :=
  0 <= p <= np /\ 0 <= h <= nh /\ p - h = np - nh /\ (p, h) <> (0, 0).

(** [l] lists the sectors, each once. *)
Definition sectors (np nh : Z) (l : list (Z * Z)) : Prop :=
  NoDup l /\ forall p h, In (p, h) l <-> sector np nh p h.
