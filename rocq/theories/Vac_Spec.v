(** * Specification of operator-level expectation values *)
From Coq Require Import List Arith Bool Ring.
From Verif Require Import Vac_Model.
Import ListNotations.

Section Spec.
  Context {Lab Op Nop Atom K : Type} (label : Op -> Lab).
  Notation fac := (fac Op Nop Atom).
  Notation vex := (vex Op Nop Atom K).

  (** The operators among the factors, in order; their places are the positions. *)
  Definition operators (fs : list fac) : list (option Lab) :=
    flat_map (fun f => match f with FOp o => [Some (label o)] | FNop _ => [None] | FOther _ => [] end) fs.
  (** Positions [i < j] hold operators whose labels are one of the pairs. *)
  Definition paired (pairs : list (Lab * Lab)) (fs : list fac) (i j : nat) : Prop :=
    i < j /\ exists a b, In (a, b) pairs /\
      nth_error (operators fs) i = Some (Some a) /\ nth_error (operators fs) j = Some (Some b).
  Definition exactly (l : list (nat * nat)) (P : nat -> nat -> Prop) : Prop := forall i j, In (i, j) l <-> P i j.

  Context (k0 k1 : K) (kadd kmul : K -> K -> K).

  (** The terms of an expression multiplied out: scalars and factors. *)
  Definition tmul (a b : list (K * list fac)) : list (K * list fac) :=
    flat_map (fun x => map (fun y => (kmul (fst x) (fst y), snd x ++ snd y)) b) a.
  Fixpoint terms (e : vex) : list (K * list fac) :=
    match e with
    | VScalar c => [(c, [])]
    | VFac f => [(k1, [f])]
    | VSum l => flat_map terms l
    | VProd c fs => fold_left tmul (map (fun x => match x with inl f => [(k1, [f])] | inr l => flat_map terms l end) fs) [(c, [])]
    end.
  Definition ksum (l : list K) : K := fold_right kadd k0 l.

  (** [W] is the expectation value of a product of factors under the constraints. *)
  Definition value (W : list fac -> K) (e : vex) : K := ksum (map (fun t => kmul (fst t) (W (snd t))) (terms e)).

  (** Summands of a fully expanded expression: products without sums, scalars, operators. *)
  Fixpoint expanded (e : vex) : Prop :=
    match e with
    | VScalar _ => True
    | VFac (FOp _) => True
    | VFac _ => False
    | VProd _ fs => plain fs <> None
    | VSum l => fold_right and True (map expanded l)
    end.
  (** Expressions the function is for: lone normal operators and other atoms are not. *)
  Fixpoint supported (e : vex) : Prop :=
    match e with
    | VScalar _ => True
    | VFac (FOp _) => True
    | VFac _ => False
    | VProd _ _ => True
    | VSum l => fold_right and True (map supported l)
    end.
  (** The nesting of an expression. *)
  Fixpoint depth (e : vex) : nat :=
    match e with VSum l => S (fold_right max 0 (map depth l)) | _ => 1 end.
End Spec.
