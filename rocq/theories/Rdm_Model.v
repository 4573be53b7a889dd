(** * Model of the density cumulant decompositions, domain/mbpt/rdm.cpp

    The antisymmetrizer is the one of [Ant_Model] (domain/mbpt/antisymmetrizer.{hpp,cpp}).

    Simplifications.
    - An index is an element of an arbitrary type; a tensor is its label and its bra and ket
      indices; a normal operator is the indices of its creators and annihilators. The label is
      [gamma] or [kappa].
    - Scalars are integers (only products of 1 and -1 occur).
    - [simplify] (rdm.cpp:179, 195 and 227-316) is not applied. It expands products of sums, so
      that a factor that is an operator nested in a sum becomes a factor of a summand. The model
      therefore replaces at any depth below a summand that is a product.
    - The "fast" branch of rank 2 (rdm.cpp:252-276) and the substitution in a whole expression
      (rdm.cpp:335-436) are not modelled. *)
From Coq Require Import List Arith Bool ZArith.
From Verif Require Import Ant_Model.
Import ListNotations.

(** rdm.cpp:6-14: the labels. *)
Definition gamma : nat := 0.
Definition kappa : nat := 1.

(** Outcomes: a result; a failed [SEQUANT_ASSERT] (undefined behaviour when assertions are
    disabled, see [Expr::as], core/expressions/expr.hpp:308-314); an unsupported rank is thrown
    (rdm.cpp:330). *)
Inductive rout (A : Type) := ROk (a : A) | RAssert | RThrow.
Arguments ROk {A}. Arguments RAssert {A}. Arguments RThrow {A}.

Section Rdm.
  Context {I : Type}.

  (** Expressions of this file: tensors, normal operators, constants, products with a scalar, sums. *)
  Inductive rex :=
  | XT (lab : nat) (bra ket : list I)
  | XO (cre ann : list I)
  | XC (c : Z)
  | XP (c : Z) (fs : list rex)
  | XS (l : list rex).

  (** [Product::append(1, e)] and [Product::prepend(1, e)]: constants are multiplied to the scalar,
      products are flattened. *)
  Definition append1 (c : Z) (fs : list rex) (e : rex) : rex :=
    match e with
    | XC k => XP (c * k) fs
    | XP k gs => XP (c * k) (fs ++ gs)
    | _ => XP c (fs ++ [e])
    end.
  Definition prepend1 (c : Z) (fs : list rex) (e : rex) : rex :=
    match e with
    | XC k => XP (c * k) fs
    | XP k gs => XP (c * k) (gs ++ fs)
    | _ => XP c (e :: fs)
    end.

  (** [operator*], core/expressions/expr_operators.hpp:25-48. *)
  Definition mulx (a b : rex) : rex :=
    match a, b with
    | XC x, XC y => XC (x * y)
    | XP c fs, _ => append1 c fs b
    | _, XP c fs => prepend1 c fs a
    | _, _ => match append1 1 [] a with XP c fs => append1 c fs b | e => e end
    end.

  (** [operator+], core/expressions/expr_operators.hpp:70-86. Constants are not merged: none is
      added in this file. *)
  Definition addx (a b : rex) : rex :=
    match a, b with
    | XS l, XS m => XS (l ++ m)
    | XS l, _ => XS (l ++ [b])
    | _, XS m => XS (a :: m)
    | _, _ => XS [a; b]
    end.

  (** What the antisymmetrizer gets and returns. *)
  Definition of_factor (f : factor I Z) : rex :=
    match f with
    | FTensor lab b k => XT lab b k
    | FConst c => XC c
    | FOp c a => XO c a
    end.
  Definition of_product (p : product I Z) : rex := XP (p_scalar p) (map of_factor (p_factors p)).

  (** [dflt] is the default index of the vectors of the antisymmetrizer; [same p q]: the products
      are equal once put into canonical form. *)
  Variables (dflt : I) (same : product I Z -> product I Z -> bool).

  (** Number of steps for permutations of [n] indices. *)
  Definition steps (n : nat) : nat := fact n.

  Definition anti (n : nat) (p : product I Z) : option (list (product I Z)) :=
    antisymm_element dflt 1%Z Z.mul Z.opp same (steps n) p.

  (** [antisymmetrize(s).result] for a sum [s] of products, and for one product,
      antisymmetrizer.cpp:209-236; [others] are the summands that are not products. *)
  Definition antisum (n : nat) (ps : list (product I Z)) (others : list rex) : rout rex :=
    match collect (map (anti n) ps) with
    | Some tss => ROk (XS (map of_product (concat tss) ++ others))
    | None => RAssert
    end.

  Definition rbind {A B} (x : rout A) (f : A -> rout B) : rout B :=
    match x with ROk a => f a | RAssert => RAssert | RThrow => RThrow end.

  Definition neg1 (e : rex) : rex := mulx (XC (-1)) e.

  (** [cumu_to_density], rdm.cpp:19-28. *)
  Definition cumu_to_density (e : rex) : rout rex :=
    match e with
    | XT lab [up0] [dn0] =>
        if lab =? kappa then ROk (XT gamma [up0] [dn0]) else RAssert
    | _ => RAssert
    end.

  (** [cumu2_to_density], rdm.cpp:30-46. *)
  Definition cumu2_to_density (e : rex) : rout rex :=
    match e with
    | XT lab [up0; up1] [dn0; dn1] =>
        if lab =? kappa then
          rbind (antisum 2 [mkProduct 1%Z [FTensor gamma [up0] [dn0]; FTensor gamma [up1] [dn1]]] [])
                (fun d1_d2 => ROk (addx (XT gamma [up0; up1] [dn0; dn1]) (neg1 d1_d2)))
        else RAssert
    | _ => RAssert
    end.

  (** Replace factors at any depth; [f] returns [None] for a factor that stays. *)
  Fixpoint subst (f : rex -> option (rout rex)) (e : rex) : rout rex :=
    let subst_list := fix go (l : list rex) : rout (list rex) :=
      match l with
      | [] => ROk []
      | x :: l' => rbind (subst f x) (fun y => rbind (go l') (fun ys => ROk (y :: ys)))
      end in
    match f e with
    | Some r => r
    | None => match e with
              | XP c fs => rbind (subst_list fs) (fun gs => ROk (XP c gs))
              | XS l => rbind (subst_list l) (fun m => ROk (XS m))
              | _ => ROk e
              end
    end.

  Fixpoint rmapm (g : rex -> rout rex) (l : list rex) : rout (list rex) :=
    match l with
    | [] => ROk []
    | x :: l' => rbind (g x) (fun y => rbind (rmapm g l') (fun ys => ROk (y :: ys)))
    end.

  (** The loops [for (auto&& product : e->as<Sum>().summands()) if (product->is<Product>()) for (auto&&
      factor : ...) factor = ...], rdm.cpp:183-194, 196-206, 228-249 and so on: [as<Sum>] of an
      expression that is not a sum fails, summands that are not products are left alone. *)
  Definition replace_in_products (f : rex -> option (rout rex)) (e : rex) : rout rex :=
    match e with
    | XS l => rbind (rmapm (fun s => match s with XP _ _ => subst f s | _ => ROk s end) l)
                    (fun m => ROk (XS m))
    | _ => RAssert
    end.

  (** [cumu3_to_density], rdm.cpp:48-91. The loops at 73-80 and 82-89 have no test that a summand is
      a product, [as<Product>] fails if it is not. *)
  Definition strict_replace (f : rex -> option (rout rex)) (e : rex) : rout rex :=
    match e with
    | XS l => rbind (rmapm (fun s => match s with XP _ _ => subst f s | _ => RAssert end) l)
                    (fun m => ROk (XS m))
    | _ => RAssert
    end.

  Definition cumulant_of_rank (n : nat) (g : rex -> rout rex) (e : rex) : option (rout rex) :=
    match e with
    | XT lab b _ => if (lab =? kappa) && (length b =? n) then Some (g e) else None
    | _ => None
    end.

  Definition cumu3_to_density (e : rex) : rout rex :=
    match e with
    | XT lab [up0; up1; up2] [dn0; dn1; dn2] =>
        if lab =? kappa then
          rbind (antisum 3 [mkProduct 1%Z [FTensor gamma [up0] [dn0]; FTensor gamma [up1] [dn1]; FTensor gamma [up2] [dn2]];
                            mkProduct 1%Z [FTensor gamma [up0] [dn0]; FTensor kappa [up1; up2] [dn1; dn2]]] [])
                (fun d1_d2 =>
          let temp := mulx (mulx (XT gamma [up0; up1; up2] [dn0; dn1; dn2]) (XC (-1))) d1_d2 in
          rbind (strict_replace (cumulant_of_rank 2 cumu2_to_density) temp)
                (strict_replace (cumulant_of_rank 1 cumu_to_density)))
        else RAssert
    | _ => RAssert
    end.

  (** [one_body_sub], rdm.cpp:93-105. *)
  Definition one_body_sub (e : rex) : rout rex :=
    match e with
    | XO [up0] [dn0] => ROk (addx (XO [up0] [dn0]) (neg1 (XT kappa [dn0] [up0])))
    | _ => RAssert
    end.

  (** [two_body_decomp], rdm.cpp:107-135. *)
  Definition two_body_decomp (e : rex) : rout rex :=
    match e with
    | XO [up0; up1] [dn0; dn1] =>
        rbind (antisum 2 [mkProduct 1%Z [FTensor kappa [dn0] [up0]; FOp [up1] [dn1]];
                          mkProduct 1%Z [FTensor kappa [dn0] [up0]; FTensor kappa [dn1] [up1]]]
                         [XT kappa [dn0; dn1] [up0; up1]])
              (fun s => ROk (addx (XO [up0; up1] [dn0; dn1]) (neg1 s)))
    | _ => RAssert
    end.

  Definition operator_of_rank (n : nat) (g : rex -> rout rex) (e : rex) : option (rout rex) :=
    match e with
    | XO c _ => if length c =? n then Some (g e) else None
    | _ => None
    end.

  (** [three_body_decomp], rdm.cpp:137-218: the expression. *)
  Definition three_body_decomp (approx : bool) (e : rex) : rout rex :=
    match e with
    | XO [up0; up1; up2] [dn0; dn1; dn2] =>
        rbind (antisum 3
                 [mkProduct 1%Z [FTensor kappa [dn0] [up0]; FOp [up1; up2] [dn1; dn2]];
                  mkProduct 1%Z [FTensor kappa [dn0] [up0]; FTensor kappa [dn1] [up1]; FTensor kappa [dn2] [up2]];
                  mkProduct 1%Z [FOp [up0] [dn0]; FTensor kappa [dn1] [up1]; FTensor kappa [dn2] [up2]];
                  mkProduct 1%Z [FOp [up0] [dn0]; FTensor kappa [dn1; dn2] [up1; up2]];
                  mkProduct 1%Z [FTensor kappa [dn0] [up0]; FTensor kappa [dn1; dn2] [up1; up2]]] [])
              (fun s =>
        let s' := if approx then s else addx (XT kappa [dn0; dn1; dn2] [up0; up1; up2]) s in
        rbind (replace_in_products (operator_of_rank 2 two_body_decomp) s')
              (replace_in_products (operator_of_rank 1 one_body_sub)))
    | _ => RAssert
    end.

  (** The replacements of [three_body_decomposition], rdm.cpp:229-247, 280-297 and 309-323. *)
  Definition rank3_factor (e : rex) : option (rout rex) :=
    match e with
    | XT lab b _ =>
        if (lab =? kappa) && (length b =? 3) then Some (cumu3_to_density e)
        else if (lab =? kappa) && (length b =? 2) then Some (cumu2_to_density e)
        else if (lab =? kappa) && (length b =? 1) then Some (cumu_to_density e)
        else if lab =? kappa then Some RAssert else None
    | _ => None
    end.
  Definition rank2_factor (e : rex) : option (rout rex) :=
    match e with
    | XT lab b _ =>
        if (lab =? kappa) && (2 <? length b) then Some (ROk (XC 0))
        else if (lab =? kappa) && (length b =? 2) then Some (cumu2_to_density e)
        else if lab =? kappa then Some (cumu_to_density e) else None
    | _ => None
    end.
  Definition rank1_factor (e : rex) : option (rout rex) :=
    match e with
    | XT lab b _ =>
        if (lab =? kappa) && (1 <? length b) then Some (ROk (XC 0))
        else if lab =? kappa then Some (cumu_to_density e) else None
    | _ => None
    end.

  (** [three_body_decomposition] with [fast = false], rdm.cpp:220-333: the expression. For rank 3
      [three_body_decomp(ex_)] (rdm.cpp:224) takes the default of its second argument, which is
      [approx = true] (rdm.hpp:28). *)
  Definition three_body_decomposition (rank : nat) (e : rex) : rout rex :=
    match rank with
    | 3 => rbind (three_body_decomp true e) (replace_in_products rank3_factor)
    | 2 => rbind (three_body_decomp true e) (replace_in_products rank2_factor)
    | 1 => rbind (three_body_decomp true e) (replace_in_products rank1_factor)
    | _ => RThrow
    end.
End Rdm.
Arguments rex : clear implicits.
