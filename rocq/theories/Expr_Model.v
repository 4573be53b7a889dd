(** Model of the expression algebra: SeQuant/core/expressions/product.hpp, sum.hpp, expr.cpp,
    expr_operators.hpp, expr_algorithms.cpp (expand, flatten, rapid_simplify) and the accumulator
    that collects like terms.

    Simplifications. Expressions are values: pointers, clones of leaves and memoized hash values are
    not represented (the one place where sharing matters has its own pointer model below).
    [std::shared_ptr] being null (an assertion everywhere) is not represented. Scalars are a type
    with ring operations, a conjugation and an equality test; leaves other than constants
    (variables, powers, tensors, operators) are a type with the few operations used here. *)
From Coq Require Import List Bool Arith.
Import ListNotations.

(** Complex<rational>, the scalars (constant.hpp:42). *)
Record kops := mkkops {
  K : Type; k0 : K; k1 : K; kadd : K -> K -> K; kmul : K -> K -> K; kopp : K -> K;
  kconj : K -> K; keqb : K -> K -> bool }.

(** Leaves other than constants: [azero] is Expr::is_zero (expr.hpp:72, power.hpp:72), [aflat] is
    Power::flatten (power.hpp:91-167; None: not a power or left unchanged), [aadj] is adjoint,
    [aeqb] is operator== , [ascalar] is is_scalar, [acnum] is is_cnumber and [acomm] is
    commutes_with_atom (expr.hpp:165-231). *)
Record aops (k : kops) := mkaops {
  A : Type; azero : A -> bool; aflat : A -> option (K k + A); aadj : A -> A;
  aeqb : A -> A -> bool; ascalar : A -> bool; acnum : A -> bool; acomm : A -> A -> bool }.
Arguments A {k}. Arguments azero {k}. Arguments aflat {k}. Arguments aadj {k}. Arguments aeqb {k}.
Arguments ascalar {k}. Arguments acnum {k}. Arguments acomm {k}.

(** Product, CProduct and NCProduct, product.hpp:33, 474, 491. *)
Inductive pkind := PPlain | PComm | PNonComm.

(** Expressions. A Sum carries constant_summand_idx_ (sum.hpp:300). [EErr] marks a failed
    assertion or an exception; no C++ object corresponds to it. *)
Inductive expr {X Y : Type} : Type :=
  | EConst (z : X)
  | EAtom (a : Y)
  | EProd (k : pkind) (s : X) (fs : list expr)
  | ESum (ci : option nat) (ss : list expr)
  | EErr.
Arguments expr : clear implicits.

(** Product::Flatten, product.hpp:35 *)
Inductive ftag := FOnce | FRec | FNo.

Section Expr.
  Variable k : kops.
  Variable a : aops k.
  Notation E := (expr (K k) (A a)).

  Definition is_prod (e : E) : bool := match e with EProd _ _ _ => true | _ => false end.
  Definition is_sum (e : E) : bool := match e with ESum _ _ => true | _ => false end.
  Definition is_const (e : E) : bool := match e with EConst _ => true | _ => false end.

  (** Expr::is_zero: expr.hpp:72, constant.hpp is_zero, product.hpp:274; a Sum is never zero. *)
  Definition is_zero (e : E) : bool :=
    match e with
    | EConst z => keqb k z (k0 k)
    | EAtom x => azero a x
    | EProd _ s _ => keqb k s (k0 k)
    | ESum _ _ => false
    | EErr => false
    end.

  (** ** Product::append, product.hpp:152-179, on the scalar and the factors of the product;
      [cl] clones the pushed factor. The multiplication by [scalar] (line 155) is [scale]. *)
  Definition prod := (K k * list E)%type.
  Definition scale (z : K k) (p : prod) : prod := (kmul k (fst p) z, snd p).
  Definition push (p : prod) (e : E) : prod := (fst p, snd p ++ [e]).

  Fixpoint append (cl : E -> E) (t : ftag) (e : E) (p : prod) : prod :=
    match e with
    | EConst z => scale z p
    | EProd _ s fs =>
        match t with
        | FNo => push p (cl e)
        | FOnce => fold_left (fun p x => append cl FNo x p) fs (scale s p)
        | FRec => fold_left (fun p x => append cl FRec x p) fs (scale s p)
        end
    | _ => push p (cl e)
    end.

  (** ** Sum::append, sum.hpp:127-151, on constant_summand_idx_ and the summands. *)
  Definition sumst := (option nat * list E)%type.

  (** [summands_.at(i)] must be a Constant, to which [z] is added (lines 135-137). *)
  Fixpoint add_at (i : nat) (z : K k) (l : list E) : list E :=
    match i, l with
    | 0, EConst w :: l' => EConst (kadd k w z) :: l'
    | 0, _ :: l' => EErr :: l'
    | S i', x :: l' => x :: add_at i' z l'
    | _, [] => [EErr]
    end.

  Fixpoint sum_append (cl : E -> E) (e : E) (st : sumst) : sumst :=
    match e with
    | ESum _ ss => fold_left (fun st x => sum_append cl x st) ss st
    | _ =>
        if is_zero e then st
        else
          match e with
          | EConst z =>
              match fst st with
              | Some i => (Some i, add_at i z (snd st))
              | None => (Some (length (snd st)), snd st ++ [EConst z])
              end
          | _ => (fst st, snd st ++ [cl e])
          end
    end.

  (** ** clone: product.hpp:351-363 (deep_copy: append with Flatten::No), sum.hpp:253-259: the
      clones of the factors (summands) are appended, and append clones them once more. The
      recursion is on fuel; [EErr] if it runs out. The clone of a CProduct or NCProduct is a
      Product: clone() is not overridden. *)
  Fixpoint depth (e : E) : nat :=
    match e with
    | EProd _ _ l | ESum _ l => S (fold_right (fun x n => Nat.max (depth x) n) 0 l)
    | _ => 1
    end.
  Fixpoint clone_fuel (fuel : nat) (e : E) : E :=
    match fuel with
    | 0 => EErr
    | S n =>
        match e with
        | EProd _ s fs =>
            let p := fold_left (fun p x => append (clone_fuel n) FNo (clone_fuel n x) p) fs (s, []) in
            EProd PPlain (fst p) (snd p)
        | ESum _ ss =>
            let st := fold_left (fun st x => sum_append (clone_fuel n) (clone_fuel n x) st) ss (None, []) in
            ESum (fst st) (snd st)
        | _ => e
        end
    end.
  Definition clone (e : E) : E := clone_fuel (depth e) e.

  (** Constructors Product(scalar, begin, end, tag), product.hpp:106-135 and
      Sum(begin, end), sum.hpp:46-62. *)
  Definition mk_prod (kd : pkind) (s : K k) (t : ftag) (fs : list E) : E :=
    let p := fold_left (fun p x => append clone t x p) fs (s, []) in EProd kd (fst p) (snd p).
  Definition mk_sum (ss : list E) : E :=
    let st := fold_left (fun st x => sum_append clone x st) ss (None, []) in ESum (fst st) (snd st).

  (** The constructor from a range that is an expression, product.hpp:63-86: a Product gives its
      factors and its scalar, anything else is appended. *)
  Definition prod_of_expr (t : ftag) (e : E) : E :=
    match e with
    | EProd _ s fs =>
        let p := fold_left (fun p x => append clone t x p) fs (k1 k, []) in
        EProd PPlain (kmul k (fst p) s) (snd p)
    | _ => let p := append clone FRec e (k1 k, []) in EProd PPlain (fst p) (snd p)
    end.

  (** The member functions as they act on an expression that is a Product (Sum). *)
  Definition product_append (z : K k) (f : E) (t : ftag) (e : E) : E :=
    match e with
    | EProd kd s fs => let p := append clone t f (scale z (s, fs)) in EProd kd (fst p) (snd p)
    | _ => EErr
    end.
  Definition sum_append_to (x : E) (e : E) : E :=
    match e with
    | ESum ci ss => let st := sum_append clone x (ci, ss) in ESum (fst st) (snd st)
    | _ => EErr
    end.

  (** ** Product::prepend, product.hpp:225-252. The scalar of a Product factor is multiplied in
      (line 240) before the flatten tag is looked at; the subfactors are put in front one after
      another (lines 242-245). *)
  Definition push_front (p : prod) (e : E) : prod := (fst p, e :: snd p).
  Fixpoint prepend (t : ftag) (e : E) (p : prod) : prod :=
    match e with
    | EConst z => scale z p
    | EProd _ s fs =>
        match t with
        | FNo => push_front (scale s p) (clone e)
        | FOnce => fold_left (fun p x => prepend FNo x p) fs (scale s p)
        | FRec => fold_left (fun p x => prepend FRec x p) fs (scale s p)
        end
    | _ => push_front p (clone e)
    end.
  Definition product_prepend (z : K k) (f : E) (t : ftag) (e : E) : E :=
    match e with
    | EProd kd s fs => let p := prepend t f (scale z (s, fs)) in EProd kd (fst p) (snd p)
    | _ => EErr
    end.

  (** ** Sum::prepend, sum.hpp:155-182 *)
  Fixpoint sum_prepend (e : E) (st : sumst) : sumst :=
    match e with
    | ESum _ ss => fold_left (fun st x => sum_prepend x st) ss st
    | _ =>
        if is_zero e then st
        else
          match e with
          | EConst z =>
              match fst st with
              | Some i => (Some i, add_at i z (snd st))
              | None => (Some 0, EConst z :: snd st)
              end
          | _ => (option_map S (fst st), clone e :: snd st)
          end
    end.
  Definition sum_prepend_to (x : E) (e : E) : E :=
    match e with
    | ESum ci ss => let st := sum_prepend x (ci, ss) in ESum (fst st) (snd st)
    | _ => EErr
    end.

  (** ** Operators, expr_operators.hpp:25-48 (times), 52-68 (nctimes, operator^), 70-86 (plus),
      88-105 (minus). *)
  Definition times (l r : E) : E :=
    match l, r with
    | EConst x, EConst y => EConst (kmul k x y)
    | _, _ =>
        if negb (is_prod l) && negb (is_prod r) then mk_prod PPlain (k1 k) FRec [l; r]
        else if is_prod l then product_append (k1 k) r FRec (clone l)
        else product_prepend (k1 k) l FRec (clone r)
    end.
  Definition as_nc (e : E) : E := match e with EProd _ s fs => EProd PNonComm s fs | _ => e end.
  Definition nctimes (l r : E) : E :=
    if negb (is_prod l) && negb (is_prod r) then mk_prod PNonComm (k1 k) FRec [l; r]
    else if is_prod l then product_append (k1 k) r FRec (as_nc (clone l))
    else product_prepend (k1 k) l FRec (as_nc (clone r)).
  Definition plus (l r : E) : E :=
    if negb (is_sum l) && negb (is_sum r) then mk_sum [l; r]
    else if is_sum l then sum_append_to r (clone l)
    else sum_prepend_to l (clone r).
  Definition negated (r : E) : E :=
    match r with
    | EConst z => EConst (kopp k z)
    | _ => mk_prod PPlain (kopp k (k1 k)) FRec [r]
    end.
  Definition minus (l r : E) : E :=
    if negb (is_sum l) then mk_sum [l; negated r] else sum_append_to (negated r) (clone l).

  (** ** In-place operators, expr.cpp:112-158; [None] is the null pointer. The operand must not be
      the object itself (see the pointer model of that case in Expr_Alias). Product::operator*=
      is product.hpp:365-372, Sum::operator+= and -= are sum.hpp:264-276. *)
  Definition plus_assign (l r : option E) : option E :=
    match r, l with
    | None, _ => l
    | Some r, None => Some (clone r)
    | Some r, Some l =>
        Some (match l, r with
              | ESum _ _, _ => sum_append_to r l
              | EConst x, EConst y => EConst (kadd k x y)
              | _, _ => mk_sum [l; r]
              end)
    end.
  Definition minus_assign (l r : option E) : option E :=
    match r, l with
    | None, _ => l
    | Some r, None => Some (times (EConst (kopp k (k1 k))) (clone r))
    | Some r, Some l =>
        Some (match l, r with
              | ESum _ _, _ => sum_append_to (negated r) l
              | EConst x, EConst y => EConst (kadd k x (kopp k y))
              | _, _ => mk_sum [l; mk_prod PPlain (kopp k (k1 k)) FRec [r]]
              end)
    end.
  Definition times_assign (l r : option E) : option E :=
    match r, l with
    | None, _ => l
    | Some r, None => Some (clone r)
    | Some r, Some l =>
        Some (match l, r with
              | EProd kd s fs, EConst y => EProd kd (kmul k s y) fs
              | EProd _ _ _, _ => product_append (k1 k) r FRec l
              | EConst x, EConst y => EConst (kmul k x y)
              | _, _ => mk_prod PPlain (k1 k) FRec [l; r]
              end)
    end.

  (** ** adjoint, expr.cpp:186-195, 216, 378-388, 399-427: [adj_in_place] is the member function,
      [adjoint] the free function, which clones first. The recursion goes through clones, so it
      runs on fuel; running out of fuel gives [EErr]. *)
  Fixpoint adj (fuel : nat) (e : E) : E :=
    match fuel with
    | 0 => EErr
    | S n =>
        match e with
        | EConst z => EConst (kconj k z)
        | EAtom x => EAtom (aadj a x)
        | EProd PComm s fs => mk_prod PComm (kconj k s) FRec (map (fun x => adj n (clone x)) fs)
        | EProd kd s fs => mk_prod kd (kconj k s) FRec (map (fun x => adj n (clone x)) (rev fs))
        | ESum _ ss => mk_sum (map (fun x => adj n (clone x)) ss)
        | EErr => EErr
        end
    end.
  Definition adj_in_place (e : E) : E := adj (depth e) e.
  Definition adjoint (e : E) : E := adj_in_place (clone e).

  (** ** Visiting, expr.hpp:394-422, for visitors that change the visited subexpression: depth
      first, every subexpression but not the expression itself. *)
  Fixpoint visit (f : E -> E) (e : E) : E :=
    match e with
    | EProd kd s fs => EProd kd s (map (fun x => f (visit f x)) fs)
    | ESum ci ss => ESum ci (map (fun x => f (visit f x)) ss)
    | _ => e
    end.

  (** [while (step(expr));] with [step] telling whether it changed the expression; on fuel, [EErr]
      if it runs out. *)
  Fixpoint while_changes (step : E -> E * bool) (fuel : nat) (e : E) : E :=
    match fuel with
    | 0 => EErr
    | S n => let '(e', changed) := step e in if changed then while_changes step n e' else e'
    end.

  (** ** expand, expr_algorithms.cpp:118-249 *)

  (** The first Sum among the factors: what precedes it, its summands, what follows it. *)
  Fixpoint first_sum (pre fs : list E) : option (list E * list E * list E) :=
    match fs with
    | [] => None
    | ESum _ ss :: post => Some (pre, ss, post)
    | x :: post => first_sum (pre ++ [x]) post
    end.

  (** expand_product, lines 138-169; the other factors are cloned anew for every summand. *)
  Definition expand_product (s : K k) (fs : list E) : option E :=
    match first_sum [] fs with
    | Some (pre, ss, post) =>
        Some (mk_sum (map (fun x => mk_prod PPlain s FRec (map clone pre ++ x :: map clone post)) ss))
    | None => None
    end.

  (** the loop of expand_sum, lines 180-216: [done] are the summands before the current one *)
  Definition append_all (l : list E) (st : sumst) : sumst :=
    fold_left (fun st x => sum_append clone x st) l st.
  Fixpoint expand_summands (done : list E) (result : option sumst) (l : list E) : option sumst :=
    match l with
    | [] => result
    | x :: l' =>
        let so_far := match result with Some r => r | None => append_all done (None, []) end in
        match x with
        | EProd _ s fs =>
            match expand_product s fs with
            | Some y => expand_summands (done ++ [y]) (Some (sum_append clone y so_far)) l'
            | None => expand_summands (done ++ [x]) (option_map (sum_append clone x) result) l'
            end
        | ESum _ _ => expand_summands (done ++ [x]) (Some (sum_append clone x so_far)) l'
        | _ => expand_summands (done ++ [x]) (option_map (sum_append clone x) result) l'
        end
    end.

  (** expand_sum, lines 172-231 *)
  Definition expand_sum (ci : option nat) (ss : list E) : E * bool :=
    let '(e, changed) :=
      match expand_summands [] None ss with
      | Some st => (st, true)
      | None => ((ci, ss), false)
      end in
    match snd e with
    | [x] => (x, true)
    | [] => (EConst (k0 k), true)
    | l => (ESum (fst e) l, changed)
    end.

  (** ExpandVisitor::expand, lines 234-241 *)
  Definition expand_step (e : E) : E * bool :=
    match e with
    | EProd _ s fs => match expand_product s fs with Some y => (y, true) | None => (e, false) end
    | ESum ci ss => expand_sum ci ss
    | _ => (e, false)
    end.

  (** ExpandVisitor::operator(), lines 119-133, and expand, lines 244-249. [fuel] bounds the number
      of rounds at every node. *)
  Definition expand_node (fuel : nat) (e : E) : E := while_changes expand_step fuel e.
  Definition expand (fuel : nat) (e : E) : E := expand_node fuel (visit (expand_node fuel) e).

  (** ** flatten, expr_algorithms.cpp:261-299: subexpressions are flattened in place; the
      expression is rebuilt as soon as one of them is of its own type. *)
  Fixpoint flatten (e : E) : E :=
    match e with
    | EProd kd s fs =>
        let fs' := map flatten fs in
        if existsb is_prod fs' then mk_prod PPlain s FRec fs' else EProd kd s fs'
    | ESum ci ss =>
        let ss' := map flatten ss in
        if existsb is_sum ss' then mk_sum ss' else ESum ci ss'
    | _ => e
    end.

  (** ** rapid_simplify, expr_algorithms.cpp:311-441 *)
  Definition flat_atom (e : E) : E :=
    match e with
    | EAtom x => match aflat a x with Some (inl z) => EConst z | Some (inr y) => EAtom y | None => e end
    | _ => e
    end.

  (** the loop of simplify_product, lines 344-354: powers are flattened up to the first factor that
      is a product or a constant; the flag tells whether there is one *)
  Fixpoint scan_factors (fs : list E) : list E * bool :=
    match fs with
    | [] => ([], false)
    | x :: fs' =>
        let x' := flat_atom x in
        if is_prod x' || is_const x' then (x' :: fs', true)
        else let '(r, b) := scan_factors fs' in (x' :: r, b)
    end.

  (** simplify_product, lines 337-378 *)
  Definition simplify_product (kd : pkind) (s : K k) (fs : list E) : E * bool :=
    let '(fs1, rebuild) := scan_factors fs in
    let e1 := if rebuild then mk_prod PPlain s FRec fs1 else EProd kd s fs1 in
    match e1 with
    | EProd _ s1 fs2 =>
        if keqb k s1 (k0 k) then (EConst (k0 k), true)
        else
          match fs2 with
          | [] => (EConst s1, true)
          | [x] => if keqb k s1 (k1 k) then (x, true) else (e1, rebuild)
          | _ => (e1, rebuild)
          end
    | _ => (EErr, false)
    end.

  (** the loop of simplify_sum, lines 397-414 *)
  Fixpoint scan_summands (nconst : nat) (ss : list E) : bool :=
    match ss with
    | [] => false
    | ESum _ _ :: _ => true
    | EConst z :: ss' => if keqb k z (k0 k) then true else if Nat.eqb (S nconst) 2 then true else scan_summands (S nconst) ss'
    | _ :: ss' => scan_summands nconst ss'
    end.

  (** simplify_sum, lines 383-422 *)
  Definition simplify_sum (ci : option nat) (ss : list E) : E * bool :=
    match ss with
    | [] => (EConst (k0 k), true)
    | [x] => (x, true)
    | _ => if scan_summands 0 ss then (mk_sum ss, true) else (ESum ci ss, false)
    end.

  Definition simplify_step (e : E) : E * bool :=
    match e with
    | EProd kd s fs => simplify_product kd s fs
    | ESum ci ss => simplify_sum ci ss
    | _ => (e, false)
    end.
  Definition simplify_node (fuel : nat) (e : E) : E := while_changes simplify_step fuel e.
  Definition rapid_simplify (fuel : nat) (e : E) : E := simplify_node fuel (visit (simplify_node fuel) e).

  (** ** Equality, expr.hpp:496-501, product.hpp:457-471, sum.hpp:348-361, constant.hpp. The hash
      values compared on the way only save work: they agree on equal expressions. *)
  Fixpoint eqb (e f : E) : bool :=
    let fix all l m :=
      match l, m with
      | [], [] => true
      | x :: l', y :: m' => eqb x y && all l' m'
      | _, _ => false
      end in
    match e, f with
    | EConst x, EConst y => keqb k x y
    | EAtom x, EAtom y => aeqb a x y
    | EProd _ s l, EProd _ t m => keqb k s t && all l m
    | ESum _ l, ESum _ m => all l m
    | _, _ => false
    end.
  Fixpoint eqb_list (l m : list E) : bool :=
    match l, m with
    | [], [] => true
    | x :: l', y :: m' => eqb x y && eqb_list l' m'
    | _, _ => false
    end.

  (** proportional_to, expr.cpp:569-594 *)
  Definition proportional (e f : E) : bool :=
    match e, f with
    | EConst _, EConst _ => true
    | EProd _ _ l, EProd _ _ m => eqb_list l m
    | EProd _ _ l, _ => match l with [x] => eqb x f | _ => false end
    | _, EProd _ _ m => match m with [y] => eqb y e | _ => false end
    | _, _ => eqb e f
    end.

  (** Product::add_identical, product.hpp:374-390 *)
  Definition add_identical (p other : E) : E :=
    match p, other with
    | EProd kd s l, EProd _ t m => if eqb_list l m then EProd kd (kadd k s t) l else EErr
    | EProd kd s [x], _ => if eqb x other then EProd kd (kadd k s (k1 k)) [x] else EErr
    | _, _ => EErr
    end.

  (** ** HashingAccumulator::append, expr.cpp:489-530. The hash set is a list in some order;
      [look] is its find: which element (if any) it returns depends on the hash function and on
      the buckets, but the element always satisfies [proportional]. *)
  Definition remove_at (i : nat) (l : list E) : list E := firstn i l ++ skipn (S i) l.
  Definition set_at (i : nat) (x : E) (l : list E) : list E := firstn i l ++ x :: skipn (S i) l.

  Definition accumulate1 (look : list E -> E -> option nat) (x : E) (acc : list E) : list E :=
    match look acc x with
    | None => acc ++ [x]
    | Some i =>
        let old := nth i acc EErr in
        if is_prod x then
          if is_prod old then set_at i (add_identical old x) acc
          else remove_at i acc ++ [add_identical (prod_of_expr FRec (clone x)) old]
        else
          if is_prod old then set_at i (add_identical old x) acc
          else
            let p := append clone FRec x (scale (kadd k (k1 k) (k1 k)) (k1 k, [])) in
            remove_at i acc ++ [EProd PPlain (fst p) (snd p)]
    end.
  Fixpoint accumulate (look : list E -> E -> option nat) (flat : bool) (x : E) (acc : list E) : list E :=
    match x with
    | ESum _ ss => if flat then fold_left (fun acc y => accumulate look flat y acc) ss acc else accumulate1 look x acc
    | _ => accumulate1 look x acc
    end.

  (** The constructor Sum(summands, move_only_tag), sum.hpp:96-123. [it] is the position of the
      iterator; a step past the end is undefined behaviour (None). *)
  Fixpoint move_only (fuel : nat) (l : list E) (ci : option nat) (pos it : nat) : option sumst :=
    match fuel with
    | 0 => None
    | S n =>
        match nth_error l it with
        | None => if Nat.eqb it (length l) then Some (ci, l) else None
        | Some x =>
            if is_zero x then move_only n (remove_at it l) ci pos (S pos)
            else
              match x with
              | EConst z =>
                  match ci with
                  | Some i => move_only n (remove_at it (add_at i z l)) ci pos (S pos)
                  | None => move_only n l (Some pos) (S pos) (S it)
                  end
              | _ => move_only n l ci (S pos) (S it)
              end
        end
    end.

  (** make_sum_impl, expr.cpp:532-552, on the elements in iteration (or sorted) order, and
      make_expr, lines 560-567; None is undefined behaviour *)
  Definition make_sum_impl (l : list E) : option E :=
    let l' := filter (fun x => negb (is_zero x)) l in
    option_map (fun st => ESum (fst st) (snd st)) (move_only (S (length l')) l' None 0 0).
  Definition make_expr (l : list E) : option E :=
    match l with
    | [] => Some (EConst (k0 k))
    | [x] => Some x
    | _ => make_sum_impl l
    end.
End Expr.
