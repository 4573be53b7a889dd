(** * Specification of the projections *)
From Coq Require Import List Arith.
Import ListNotations.

Section CcmSpec.
  Context {Term K : Type} (kzero : K) (kadd : K -> K -> K) (vev : nat -> Term -> K).
  (** The expectation value of a projected sum: that of its terms, added. *)
  Definition total (p : nat) (l : list Term) : K := fold_right (fun x r => kadd (vev p x) r) kzero l.
  (** The equations for the ranks from [pmin] to [pmax]. *)
  Definition equations (h : list Term) (pmax pmin : nat) (r : list (option K)) : Prop :=
    length r = S pmax /\
    (forall p, pmin <= p <= pmax -> nth_error r p = Some (Some (total p h))) /\
    (forall p, p < pmin -> p <= pmax -> nth_error r p = Some None).
  (** Some term reaches the rank [p] and passes the screening for the ranks above. *)
  Definition reached (up_to exact : nat -> Term -> bool) (h : list Term) (pmax p : nat) : Prop :=
    exists x, In x h /\ exact p x = true /\ forall q, p <= q <= pmax -> up_to q x = true.
End CcmSpec.
