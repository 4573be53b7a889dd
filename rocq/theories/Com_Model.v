(** Commutation tests and the order of the factors of a product
    (/repo/SeQuant/core/expressions/expr.hpp, expr.cpp, core/op.hpp, domain/mbpt/op.ipp). *)
From Coq Require Import List NArith ZArith Bool Arith.
From Verif Require Import Alg_Model Wick_Model Qn_Model.
Import ListNotations.

(** ** Expr::commutes_with (core/expressions/expr.hpp:209-228). An expression is an atom or has
    subexpressions (summands or factors); [cnumber] is is_cnumber(), [atoms] commutes_with_atom. *)
Section Trees.
  Context {A : Type}.
  Variable cnumber : A -> bool.
  Variable atoms : A -> A -> bool.
  Inductive tree := Atom (a : A) | Compound (children : list tree).
  Fixpoint atom_commutes (a : A) (t : tree) : bool :=
    match t with
    | Atom b => cnumber a || cnumber b || atoms a b
    | Compound l => cnumber a || forallb (atom_commutes a) l
    end.
  Fixpoint commutes (t u : tree) : bool :=
    match t with
    | Atom a => atom_commutes a u
    | Compound l => forallb (fun x => commutes x u) l
    end.
End Trees.
Arguments tree A : clear implicits.

(** ** The order of the factors: the branch of Product::canonicalize_impl for products with factors
    that are not tensors (core/expressions/expr.cpp:250-268, 306-358). Scalar factors come first, in
    the order in which ranges::sort leaves them; the others are sorted by bubble_sort, exchanging
    neighbours that commute and are in the wrong order. Not modelled: the canonicalization of the
    factors themselves, which precedes it. *)
Section Product.
  Context {F : Type}.
  Variable scalar : F -> bool.
  Variable sort_scalars : list F -> list F.
  Variable commute : F -> F -> bool.       (* first->commutes_with( *second) *)
  Variable less : F -> F -> bool.          (* local_compare *)
  Definition exchange (first second : F) : bool := if commute first second then less first second else false.
  Definition canonical_order (factors : list F) : option (list F) :=
    let scalars := sort_scalars (filter scalar factors) in
    match filter (fun f => negb (scalar f)) factors with
    | [] => Some scalars
    | fs => option_map (fun r => scalars ++ fst r) (bubble_sort exchange fs)
    end.
End Product.

(** ** The order of many-body operators *)
Section Operators.
  Variable ctx : context.
  Variable L : Type.
  Variable label_eqb : L -> L -> bool.
  Variable label_less : L -> L -> bool.    (* std::wstring::operator< *)
  Variable cardinal : list L.              (* cardinal_tensor_labels() *)
  Record mop := mkmop { mlabel : L; maction : operator }.

  (** position in the list of cardinal labels *)
  Fixpoint position (l : L) (cs : list L) : option nat :=
    match cs with
    | [] => None
    | c :: cs' => if label_eqb c l then Some 0 else option_map S (position l cs')
    end.

  (** QuantumNumberChange::operator< (domain/mbpt/op.hpp:283-289): lexicographic over the flat
      sequence of intervals *)
  Definition interval_less (a b : interval) : bool := if Z.eqb (lower a) (lower b) then Z.ltb (upper a) (upper b) else Z.ltb (lower a) (lower b).
  Fixpoint intervals_less (a b : list interval) : bool :=
    match a, b with
    | _, [] => false
    | [], _ :: _ => true
    | x :: a', y :: b' => if interval_less x y then true else if interval_less y x then false else intervals_less a' b'
    end.
  Definition flat (q : qns) : list interval := flat_map (fun ca => [fst ca; snd ca]) q.
  (** less_than_rank_of (op.ipp:183-187). [None]: an assertion fails. Simplification: then the
      comparison is false. *)
  Definition less_than_rank_of (x y : mop) : bool :=
    match apply ctx (maction x) (zero_qns ctx), apply ctx (maction y) (zero_qns ctx) with
    | Some a, Some b => intervals_less (flat a) (flat b)
    | _, _ => false
    end.
  (** static_less_than (op.ipp:85-120) and local_compare (expr.cpp:309-341) for two operators *)
  Definition mop_less (x y : mop) : bool :=
    if label_eqb (mlabel x) (mlabel y) then less_than_rank_of x y else
    match position (mlabel x) cardinal, position (mlabel y) cardinal with
    | Some p, Some q => if Nat.eqb p q then less_than_rank_of x y else Nat.ltb p q
    | Some _, None => true
    | None, Some _ => false
    | None, None => label_less (mlabel x) (mlabel y)
    end.
  (** commutes_with_atom (op.ipp:123-139). Simplification: a failed assertion counts as false. *)
  Definition mop_commutes (x y : mop) : bool :=
    match commutes_with ctx (maction x) (maction y) with Some b => b | None => false end.
  (** A product of operators, after canonicalization. *)
  Definition operator_order (fs : list mop) : option (list mop) :=
    canonical_order (fun _ => false) (fun l => l) mop_commutes mop_less fs.
End Operators.
Arguments mkmop {L}. Arguments mlabel {L}. Arguments maction {L}.

(** ** NormalOperator::commutes_with_atom (core/op.hpp:801-832) for two normal operators with the
    same vacuum; [can] is can_contract. *)
Definition nop_commutes {I} (can : op I -> op I -> bool) (this that : list (op I)) : bool :=
  forallb (fun l => forallb (fun r => negb (can l r)) that) this.
