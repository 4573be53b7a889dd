(** Model of the fusion of two products (SeQuant/core/optimize/fusion.cpp).

    The expressions are those of Expr_Model. The scalars are any type with the operations listed
    there; [real] is the real part of a scalar without imaginary part and [of_rat] the scalar made of a
    rational number. Rational numbers are arbitrary-precision fractions in lowest terms
    (boost::multiprecision cpp_rational). *)
From Coq Require Import List Bool ZArith QArith Qcanon.
From Verif Require Import Expr_Model.
Import ListNotations.

(** Fusion::gcd_rational (127-137) *)
Definition gcd_rational (left right : Qc) : Qc :=
  let n1 := Qnum (this left) in
  let d1 := Qden (this left) in
  let n2 := Qnum (this right) in
  let d2 := Qden (this right) in
  Q2Qc (Qmake (Z.gcd (n1 * Zpos d2) (n2 * Zpos d1)) (d1 * d2)).
Definition negative (q : Qc) : bool := if Qclt_le_dec q 0 then true else false.
(** Fusion::fuse_scalar (139-150). None: division by zero (an exception). *)
Definition fuse_scalar (left right : Qc) : option (Qc * Qc * Qc) :=
  let fused := gcd_rational left right in
  if Qc_eq_bool fused 0 then None
  else
    let left_fused := (left / fused)%Qc in
    let right_fused := (right / fused)%Qc in
    if negative left && negative right then
      Some ((fused * - (1))%Qc, (left_fused * - (1))%Qc, (right_fused * - (1))%Qc)
    else Some (fused, left_fused, right_fused).

Section Fusion.
  Variable k : kops.
  Variable a : aops k.
  Variable real : K k -> option Qc.
  Variable of_rat : Qc -> K k.
  Notation E := (expr (K k) (A a)).

  (** the result of a fusion: the null pointer, a failed assertion or an exception, an expression *)
  Inductive fusion : Type := NoFusion | Failed | Fused (e : E).

  (** the loop that collects the common factors (40-45) *)
  Fixpoint common (l m : list E) : list E :=
    match l, m with
    | x :: l', y :: m' => if eqb k a x y then x :: common l' m' else []
    | _, _ => []
    end.
  (** Product{begin, end} *)
  Definition product_of (l : list E) : prod k a :=
    fold_left (fun p x => append k a (clone k a) FRec x p) l (k1 k, []).
  (** lift_tensor (20-25) *)
  Definition lift_tensor (p : prod k a) : E :=
    match snd p with
    | [x] => if keqb k (fst p) (k1 k) then x else mk_prod k a PPlain (fst p) FNo (snd p)
    | _ => mk_prod k a PPlain (fst p) FNo (snd p)
    end.
  (** Fusion::fuse_left (37-77) *)
  Definition fuse_left (lhs rhs : prod k a) : fusion :=
    let fac := common (snd lhs) (snd rhs) in
    match fac with
    | [] => NoFusion
    | _ =>
        let fac_prod := product_of fac in
        let lsmand_prod := product_of (skipn (length fac) (snd lhs)) in
        let rsmand_prod := product_of (skipn (length fac) (snd rhs)) in
        match real (fst lhs), real (fst rhs) with
        | Some x, Some y =>
            match fuse_scalar x y with
            | None => Failed
            | Some (s0, s1, s2) =>
                let f := lift_tensor (scale k a (of_rat s0) fac_prod) in
                let u := lift_tensor (scale k a (of_rat s1) lsmand_prod) in
                let v := lift_tensor (scale k a (of_rat s2) rsmand_prod) in
                Fused (mk_prod k a PPlain (k1 k) FRec [f; mk_sum k a [u; v]])
            end
        | _, _ => Failed
        end
    end.
  (** Fusion::fuse_right (79-125) *)
  Definition fuse_right (lhs rhs : prod k a) : fusion :=
    let fac := common (rev (snd lhs)) (rev (snd rhs)) in
    match fac with
    | [] => NoFusion
    | _ =>
        let fac_prod := product_of (rev fac) in
        let lsmand_prod := product_of (rev (skipn (length fac) (rev (snd lhs)))) in
        let rsmand_prod := product_of (rev (skipn (length fac) (rev (snd rhs)))) in
        match real (fst lhs), real (fst rhs) with
        | Some x, Some y =>
            match fuse_scalar x y with
            | None => Failed
            | Some (s0, s1, s2) =>
                let u := lift_tensor (scale k a (of_rat s1) lsmand_prod) in
                let v := lift_tensor (scale k a (of_rat s2) rsmand_prod) in
                let f := lift_tensor (scale k a (of_rat s0) fac_prod) in
                Fused (mk_prod k a PPlain (k1 k) FRec [mk_sum k a [u; v]; f])
            end
        | _, _ => Failed
        end
    end.
End Fusion.
Arguments NoFusion {k a}. Arguments Failed {k a}. Arguments Fused {k a}.
