(** Specification for the symbolic costs: polynomials in the extents. *)
From Coq Require Import List Bool Arith QArith Qcanon Sorted.
From Verif Require Import AsyCost_Model.
Import ListNotations.

(** The power of a space in a monomial, and the monomial's value at given extents: both read off
    the list of (space, exponent) pairs. *)
Definition monomial_value (ext : nat -> nat) (m : list (nat * nat)) : Qc :=
  fold_right (fun kv t => qpow (qnat (ext (fst kv))) (snd kv) * t)%Qc 1%Qc m.
(** The value of a cost: the sum over its terms of prefactor times monomial. *)
Definition cost_value (ext : nat -> nat) (c : cost) : Qc :=
  fold_right (fun e t => pre e * monomial_value ext (exps e) + t)%Qc 0%Qc c.

(** A monomial in normal form: spaces in increasing order, no zero exponent. *)
Definition monomial_ok (m : list (nat * nat)) : Prop :=
  StronglySorted (fun x y => fst x < fst y)%nat m /\ Forall (fun kv => snd kv <> 0%nat) m.
Definition degree (m : list (nat * nat)) : nat := fold_right (fun kv n => snd kv + n)%nat 0%nat m.

(** The order of monomials: by degree; at equal degree the highest space with different powers
    decides. *)
Definition monomial_lt (m n : list (nat * nat)) : Prop :=
  (degree m < degree n)%nat \/
  (degree m = degree n /\ exists s, (exp_for m s < exp_for n s)%nat /\ forall t, (s < t)%nat -> exp_for m t = exp_for n t).

(** A cost in normal form: finite terms with nonzero prefactor and normal monomials other than 1, in
    strictly increasing order. *)
Definition term_ok (e : entry) : Prop := emax e = false /\ monomial_ok (exps e) /\ exps e <> [] /\ pre e <> 0%Qc.
Definition cost_ok (c : cost) : Prop :=
  Forall term_ok c /\ StronglySorted (fun x y => monomial_lt (exps x) (exps y)) c.
