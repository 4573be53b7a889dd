(** Specification for C15. [hs] is the list of the intermediates (hash values) of the terms. *)
From Coq Require Import List Arith Relations.
Import ListNotations.

(** term p has the intermediate h *)
Definition has_at (hs : list (list nat)) (p h : nat) : Prop := exists l, nth_error hs p = Some l /\ In h l.
(** p is the first term with the intermediate h *)
Definition first_at (hs : list (list nat)) (p h : nat) : Prop :=
  has_at hs p h /\ forall q, has_at hs q h -> p <= q.
(** p is the first term with an intermediate that q has, too *)
Definition link (hs : list (list nat)) (p q : nat) : Prop := exists h, first_at hs p h /\ has_at hs q h.
(** a chain of links *)
Definition leads (hs : list (list nat)) : nat -> nat -> Prop := clos_refl_trans nat (link hs).
(** two terms share an intermediate *)
Definition share (hs : list (list nat)) (p q : nat) : Prop := exists h, has_at hs p h /\ has_at hs q h.
