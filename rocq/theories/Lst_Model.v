(** Model of the similarity transformation and of the screening of expectation values on the level of
    many-body operators: SeQuant/domain/mbpt/utils.cpp. Expressions, products, sums, adjoints, expand and
    rapid_simplify are those of the model of the expression algebra.

    Expressions are values, so that clones (and the options skip_clone) have no effect: the pointer
    structure is not represented. *)
From Coq Require Import List Bool Arith.
From Verif Require Import Qn_Model Expr_Model Expr_Proofs4 Expr_Spec.
Import ListNotations.

(** How a call ends: with a result, or with an exception or a failed assertion. [NoFuel]: the bound on the
    depth of the recursion is exceeded. *)
Inductive outcome {X : Type} := Done (x : X) | Throws | NoFuel.
Arguments outcome : clear implicits.

(** LSTOptions, utils.hpp:17-34 (without skip_clone) *)
Record options := mkoptions { unitary : bool; use_connected_form : bool }.

Section Lst.
  Variable k : kops.
  Variable a : aops k.
  Notation E := (expr (K k) (A a)).
  (** is<op_t>, is<Variable> *)
  Variables is_op is_var : A a -> bool.
  (** rational{1, n} *)
  Variable inverse : nat -> K k.
  (** canonicalize (expr_algorithms.hpp), and what transform_sum_expr (sum.hpp:402-430) makes of the
      results for the summands: it canonicalizes them and adds them up (see the models of C30, C69, C87). *)
  Variable canonicalize : E -> E.
  Variable total : list E -> E.

  (** simplify, expr_algorithms.cpp:453-459; expand and rapid_simplify with as many rounds as they need. *)
  Definition expanded_form (e : E) : E := expand k a (width k a e + 4) e.
  Definition rapid (e : E) : E := rapid_simplify k a (S (size e)) e.
  Definition simplify (e : E) : E := rapid (canonicalize (rapid (expanded_form e))).

  Definition plus_eq (l r : E) : E := match plus_assign k a (Some l) (Some r) with Some e => e | None => EErr end.
  Definition minus_eq (l r : E) : E := match minus_assign k a (Some l) (Some r) with Some e => e | None => EErr end.

  (** The body of the loop of transform, utils.cpp:25-47 *)
  Definition commutator (o : options) (B op_Sk : E) : E :=
    if use_connected_form o then
      let c := times k a op_Sk B in
      if unitary o then plus_eq c (times k a (adjoint k a B) op_Sk) else c
    else
      let c := minus k a (times k a op_Sk B) (times k a B op_Sk) in
      if unitary o then minus_eq c (minus k a (times k a op_Sk (adjoint k a B)) (times k a (adjoint k a B) op_Sk)) else c.
  (** The loop, 24-50: [n] rounds are left, the next one has number [j]. *)
  Fixpoint rounds (o : options) (B : E) (n j : nat) (result op_Sk : E) : E :=
    match n with
    | O => result
    | S n' =>
        let op := simplify (times k a (EConst (inverse j)) (commutator o B op_Sk)) in
        rounds o B n' (S j) (plus_eq result op) op
    end.
  Definition transform (o : options) (B : E) (rank : nat) (e : E) : E := rounds o B rank 1 e e.

  (** All results, or the first that is not one. *)
  Fixpoint all_done {X} (l : list (outcome X)) : outcome (list X) :=
    match l with
    | [] => Done []
    | Done x :: l' => match all_done l' with Done r => Done (x :: r) | Throws => Throws | NoFuel => NoFuel end
    | Throws :: _ => Throws
    | NoFuel :: _ => NoFuel
    end.
  Definition summed (r : outcome (list E)) : outcome E := match r with Done l => Done (total l) | Throws => Throws | NoFuel => NoFuel end.

  (** lst, utils.cpp:12-80, for a rank that is not 0: the recursion *)
  Fixpoint lst_rec (fuel : nat) (o : options) (B : E) (rank : nat) (e : E) : outcome E :=
    match fuel with
    | O => NoFuel
    | S n =>
        match e with
        | EAtom x => if is_op x then Done (transform o B rank e) else if is_var x then Done e else Throws
        | EProd _ _ fs =>
            if existsb (is_sum k a) fs then lst_rec n o B rank (simplify (expanded_form e))
            else Done (transform o B rank e)
        | ESum _ ss => summed (all_done (map (lst_rec n o B rank) ss))
        | EConst _ => Done e
        | EErr => Throws
        end
    end.
  Definition lst (fuel : nat) (o : options) (B : E) (rank : nat) (e : E) : outcome E :=
    match rank with O => Done e | _ => lst_rec fuel o B rank e end.

  (** screen_vac_av, utils.cpp:82-121; [can] is op::can_change_qns(term, qns_t{}), which may throw. *)
  Variable can : E -> outcome bool.
  Fixpoint screen_vac_av (fuel : nat) (e : E) : outcome E :=
    match fuel with
    | O => NoFuel
    | S n =>
        match e with
        | EAtom x => if is_op x then Done (EConst (k0 k)) else if is_var x then Done e else Throws
        | EProd _ _ fs =>
            if existsb (is_sum k a) fs then screen_vac_av n (simplify (expanded_form e))
            else match can e with Done b => Done (if b then e else EConst (k0 k)) | Throws => Throws | NoFuel => NoFuel end
        | ESum _ ss => summed (all_done (map (screen_vac_av n) ss))
        | EConst _ => Done e
        | EErr => Throws
        end
    end.

  (** op::can_change_qns for a product of operators, op.cpp:1275-1303: the scalar factors are left out,
      the others have to be operators. Simplification: a factor that is a product is not a scalar. *)
  Variable action : A a -> operator.
  Variable ctx : context.
  Fixpoint actions (fs : list E) : option (list operator) :=
    match fs with
    | [] => Some []
    | EConst _ :: fs' => actions fs'
    | EAtom x :: fs' => if is_var x then actions fs' else if is_op x then option_map (cons (action x)) (actions fs') else None
    | _ => None
    end.
  Definition can_keep_vacuum (e : E) : outcome bool :=
    match (match e with EProd _ _ fs => actions fs | _ => actions [e] end) with
    | Some l => match can_change_qns ctx l (zero_qns ctx) (zero_qns ctx) with Some b => Done b | None => Throws end
    | None => Throws
    end.
End Lst.
