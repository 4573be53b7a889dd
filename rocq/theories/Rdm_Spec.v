(** * Specification for the density cumulant decompositions

    Values of expressions and the textbook cumulant expansions, independent of the antisymmetrizer
    and of the replacement loops. *)
From Coq Require Import List ZArith QArith Qcanon Permutation.
From Verif Require Import Ant_Model Rdm_Model.
Import ListNotations.
Local Open Scope Qc_scope.

Section Spec.
  Context {I : Type}.

  (** Value of an expression: [vT] gives the elements of tensors, [vO] the expectation values of
      normal operators (no product of this file contains more than one operator). *)
  Section Val.
    Variables (vT : nat -> list I -> list I -> Qc) (vO : list I -> list I -> Qc).
    Fixpoint xval (e : rex I) : Qc :=
      match e with
      | XT lab b k => vT lab b k
      | XO c a => vO c a
      | XC c => Q2Qc (inject_Z c)
      | XP c fs => Q2Qc (inject_Z c) * fold_right Qcmult 1 (map xval fs)
      | XS l => fold_right Qcplus 0 (map xval l)
      end.
  End Val.

  (** Canonical forms of products of scalar tensors and at most one operator agree iff the scalars
      agree and the factors agree up to their order. *)
  Definition canonical_equality (same : product I Z -> product I Z -> bool) : Prop :=
    forall p q, same p q = true <-> p_scalar p = p_scalar q /\ Permutation (p_factors p) (p_factors q).

  (** Every tensor and every operator of the expression satisfies [P]. *)
  Fixpoint every (P : rex I -> Prop) (e : rex I) : Prop :=
    match e with
    | XP _ fs => fold_right and True (map (every P) fs)
    | XS l => fold_right and True (map (every P) l)
    | _ => P e
    end.

  Definition no_cumulant (e : rex I) : Prop :=
    every (fun x => match x with XT lab _ _ => lab <> kappa | _ => True end) e.

  (** Antisymmetrized products of a one-body quantity [f] and a two-body quantity [g]; the lower
      indices come first. *)
  Definition det2 (f : I -> I -> Qc) (a0 a1 b0 b1 : I) : Qc :=
    f a0 b0 * f a1 b1 - f a0 b1 * f a1 b0.

  Definition det3 (f : I -> I -> Qc) (a0 a1 a2 b0 b1 b2 : I) : Qc :=
    f a0 b0 * det2 f a1 a2 b1 b2 - f a0 b1 * det2 f a1 a2 b0 b2 + f a0 b2 * det2 f a1 a2 b0 b1.

  (** One lower and one upper index go to [f], the other two, in increasing order, to [g]. *)
  Definition one_two (f : I -> I -> Qc) (g : I -> I -> I -> I -> Qc) (a0 a1 a2 b0 b1 b2 : I) : Qc :=
      f a0 b0 * g a1 a2 b1 b2 - f a0 b1 * g a1 a2 b0 b2 + f a0 b2 * g a1 a2 b0 b1
    - f a1 b0 * g a0 a2 b1 b2 + f a1 b1 * g a0 a2 b0 b2 - f a1 b2 * g a0 a2 b0 b1
    + f a2 b0 * g a0 a1 b1 b2 - f a2 b1 * g a0 a1 b0 b2 + f a2 b2 * g a0 a1 b0 b1.

  Definition one_of (vT : nat -> list I -> list I -> Qc) (lab : nat) (a b : I) : Qc := vT lab [a] [b].
  Definition two_of (vT : nat -> list I -> list I -> Qc) (lab : nat) (a a' b b' : I) : Qc := vT lab [a; a'] [b; b'].
End Spec.
