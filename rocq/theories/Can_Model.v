(** Model of the canonicalization of products and sums of tensors: SeQuant/core/expressions/expr.cpp
    ([Product::canonicalize_impl], [Sum::canonicalize_impl], [HashingAccumulator], [proportional_to])
    and [Tensor::canonicalize].

    Modelled are products whose factors are variables and tensors, and sums of such products and of
    lone tensors; the branch for factors that are neither is in Com_Model. The numbers are a commutative
    ring. [None] is an exception or a failed assertion. *)
From Coq Require Import ZArith List Arith Bool.
From Verif Require Import Tsr_Model Net_Model Net_Spec.
Import ListNotations.

(** [Variable], variable.hpp:15-84: the label, and whether it is conjugated. *)
Definition variable := (list Z * bool)%type.
Inductive factor := FVar (v : variable) | FTen (t : tensor).

Definition vars (fs : list factor) : list variable :=
  flat_map (fun f => match f with FVar v => [v] | FTen _ => [] end) fs.
Definition tensors (fs : list factor) : list tensor :=
  flat_map (fun f => match f with FVar _ => [] | FTen t => [t] end) fs.

(** Equality of factors: [Variable::static_equal], variable.hpp:80-83; [Tensor::static_equal]. *)
Definition factor_eqb (f g : factor) : bool :=
  match f, g with
  | FVar v, FVar w => str_eqb (fst v) (fst w) && Bool.eqb (snd v) (snd w)
  | FTen t, FTen u => tensor_eqb t u
  | _, _ => false
  end.
Fixpoint factors_eqb (l m : list factor) : bool :=
  match l, m with
  | [], [] => true
  | f :: l', g :: m' => factor_eqb f g && factors_eqb l' m'
  | _, _ => false
  end.

Section Canonicalize.
  Context {K : cring}.
  (** [Constant::is_zero]. *)
  Variable is_zero : K -> bool.
  (** What tensor networks are canonicalized with, see Net_Model. *)
  Variable bliss : graph -> vtx -> nat.
  Variable sort : list index -> list index.
  Variable hash : list index -> Z.
  Variable labels : list (list Z).
  (** The hash values of variables and of summands. *)
  Variable vhash : variable -> Z.

  (** The summands: products and tensors. *)
  Inductive summand := SProd (c : K) (fs : list factor) | STen (t : tensor).
  Variable shash : summand -> Z.

  (** [Product::canonicalize_impl], expr.cpp:229-376: the variables are sorted with [Expr::operator<],
      which compares hash values (expr.hpp:459-461), and put in front. [canonicalize] of a [Variable] does nothing. *)
  Definition sort_vars (vs : list variable) : list variable := stable_sort (fun a b => (vhash a <? vhash b)%Z) vs.
  Definition canon_product (opts : options) (c : K) (fs : list factor) : option (K * list factor) :=
    let scalars := map FVar (sort_vars (vars fs)) in
    match tensors fs with
    | [] => Some (c, scalars)
    | ts =>
        match canonicalize bliss sort hash labels opts ts with
        | None => None
        | Some (M, _, s) => Some (if s then rmul c (ropp r1) else c, scalars ++ map FTen M)
        end
    end.

  (** A summand in [Sum::canonicalize_impl], expr.cpp:448-462. [Tensor::canonicalize],
      tensor.cpp:43-46, uses the default canonicalizer without external indices and ignores the options; it returns the
      sign. *)
  Definition canon_summand (opts : options) (x : summand) : option summand :=
    match x with
    | SProd c fs => option_map (fun r : K * list factor => SProd (fst r) (snd r)) (canon_product opts c fs)
    | STen t => option_map (fun r : tensor * bool => if snd r then SProd (ropp r1) [FTen (fst r)] else STen (fst r)) (default_apply [] t)
    end.

  (** [proportional_to], expr.cpp:568-593; equal factors have equal hash values. *)
  Definition proportional (x y : summand) : bool :=
    match x, y with
    | SProd _ fs, SProd _ gs => factors_eqb fs gs
    | SProd _ [f], STen t | STen t, SProd _ [f] => factor_eqb f (FTen t)
    | STen t, STen u => tensor_eqb t u
    | _, _ => false
    end.

  (** [HashingAccumulator::append], expr.cpp:489-530: [old] is the element of the set that is found. *)
  Definition merge (old x : summand) : summand :=
    match old, x with
    | SProd c fs, SProd d _ => SProd (radd c d) fs
    | STen _, SProd d gs => SProd (radd d r1) gs
    | SProd c fs, STen _ => SProd (radd c r1) fs
    | STen _, STen u => SProd (radd r1 r1) [FTen u]
    end.
  (** The hash set is a list here; its order, and the place where an element is put, play no role. *)
  Fixpoint accumulate (acc : list summand) (x : summand) : list summand :=
    match acc with
    | [] => [x]
    | y :: acc' => if proportional y x then merge y x :: acc' else y :: accumulate acc' x
    end.

  (** [make_sum_impl], expr.cpp:532-552, before sorting. *)
  Definition zero_summand (x : summand) : bool := match x with SProd c _ => is_zero c | STen _ => false end.
  Definition collect (l : list summand) : list summand := filter (fun x => negb (zero_summand x)) (fold_left accumulate l []).

  (** The order in which the elements of the hash set are visited. *)
  Variable iter : list summand -> list summand.

  (** The passes of [Sum::canonicalize_impl], expr.cpp:429-487. *)
  Definition rapid_options (opts : options) : options := mkopts false true (o_named opts) false.
  Definition deep_options (opts : options) : options := mkopts true (o_lexicographic opts) (o_named opts) false.
  Definition pass (opts : options) (l : list summand) : option (list summand) := option_map (fun r => iter (collect r)) (map_opt (canon_summand opts) l).
  Definition sort_summands (l : list summand) : list summand := stable_sort (fun x y => (shash x <? shash y)%Z) l.

  (** [Sum::rapid_canonicalize], [Sum::canonicalize], sum.hpp:335-346. *)
  Definition canonicalize_sum_rapid (opts : options) (l : list summand) : option (list summand) :=
    option_map sort_summands (pass (rapid_options opts) l).
  Definition canonicalize_sum (opts : options) (l : list summand) : option (list summand) :=
    match pass (rapid_options opts) l with
    | None => None
    | Some l1 => option_map sort_summands (pass (deep_options opts) l1)
    end.
End Canonicalize.
Arguments summand : clear implicits.
