(** Models of the scalars: Complex<rational> (SeQuant/core/complex.hpp), powers of scalars
    (SeQuant/core/expressions/power.hpp) and to_rational (SeQuant/core/rational.hpp). *)
From Coq Require Import List Bool Arith ZArith QArith Qround Qcanon.
Import ListNotations.

(** * Complex<rational> *)
(** rational is boost::multiprecision::cpp_rational (rational.hpp:17): always in lowest terms, as [Qc]. *)
Definition numerator (x : Qc) : Z := Qnum (this x).
Definition denominator (x : Qc) : Z := Zpos (Qden (this x)).
Definition qeqb (x y : Qc) : bool := if Qc_eq_dec x y then true else false.
Definition qltb (x y : Qc) : bool := match (x ?= y)%Qc with Lt => true | _ => false end.
Local Open Scope Qc_scope.

(** complex.hpp:18-23 *)
Record cplx := mkc { re : Qc; im : Qc }.
Definition c_of (x : Qc) : cplx := mkc x 0.
Definition c0 : cplx := mkc 0 0.
Definition c1 : cplx := mkc 1 0.
(** 40-41 *)
Definition c_is_zero (x : cplx) : bool := qeqb (re x) 0 && qeqb (im x) 0.
Definition c_is_identity (x : cplx) : bool := qeqb (re x) 1 && qeqb (im x) 0.
(** 100-120 *)
Definition c_opp (x : cplx) : cplx := mkc (- re x) (- im x).
Definition c_add (x y : cplx) : cplx := mkc (re x + re y) (im x + im y).
Definition c_sub (x y : cplx) : cplx := mkc (re x - re y) (im x - im y).
Definition c_mul (x y : cplx) : cplx := mkc (re x * re y - im x * im y) (re x * im y + im x * re y).
(** 86-91, operator*=: the same products in the same order *)
Definition c_mul_assign (x y : cplx) : cplx := mkc (re x * re y - im x * im y) (re x * im y + im x * re y).
(** 72-76, 138-146 *)
Definition c_scale (x : cplx) (k : Qc) : cplx := mkc (k * re x) (k * im x).
(** 122-125 *)
Definition norm_squared (x : cplx) : Qc := re x * re x + im x * im x.
(** 226-229 *)
Definition c_conj (x : cplx) : cplx := mkc (re x) (- im x).
(** 127-130; None: division of rationals by zero throws std::overflow_error *)
Definition c_div (x y : cplx) : option cplx :=
  if qeqb (norm_squared y) 0 then None else Some (c_scale (c_mul x (c_conj y)) (1 / norm_squared y)).
(** 154-157 *)
Definition c_eqb (x y : cplx) : bool := qeqb (re x) (re y) && qeqb (im x) (im y).
(** 214-224; None: assertion *)
Definition q_abs (x : Qc) : Qc := if qltb x 0 then - x else x.
Definition c_abs (x : cplx) : option Qc :=
  if qeqb (re x) 0 || qeqb (im x) 0 then Some (if qeqb (im x) 0 then q_abs (re x) else q_abs (im x)) else None.

(** * Power *)
(** The bases: Constant and Variable (constant.hpp, variable.hpp). Labels are numbers here. *)
Inductive scalar := Const (c : cplx) | Var (label : nat) (conjugated : bool).
Record power := mkpower { base : scalar; exponent : Qc; conjugated : bool }.
Inductive expr := Leaf (s : scalar) | Pow (p : power).
(** power.hpp:27-40: the constructor; None: assertion *)
Definition make_power (b : scalar) (e : Qc) : option power :=
  match b with
  | Const c => if c_is_zero c && qltb e 0 then None else Some (mkpower b e false)
  | Var _ _ => Some (mkpower b e false)
  end.
(** 70-73, 176 *)
Definition conjugate (p : power) : power := mkpower (base p) (exponent p) (negb (conjugated p)).
(** Constant::adjoint, Variable::adjoint *)
Definition s_adjoint (s : scalar) : scalar := match s with Const c => Const (c_conj c) | Var l b => Var l (negb b) end.
(** 78-81 *)
Definition p_is_zero (p : power) : bool :=
  qltb 0 (exponent p) && match base p with Const c => c_is_zero c | _ => false end.

(** 154-161: exponentiation by squaring; None: out of fuel (excluded by a theorem) *)
Fixpoint squaring (fuel : nat) (n : Z) (value b : cplx) : option cplx :=
  if (0 <? n)%Z then
    match fuel with
    | O => None
    | S fuel' =>
        let value' := if (n mod 2 =? 0)%Z then value else c_mul_assign value b in
        let n' := (n / 2)%Z in
        squaring fuel' n' value' (if (0 <? n')%Z then c_mul_assign b b else b)
    end
  else Some value.
(** 149-166; None: out of fuel or division by zero *)
Definition raise (b : cplx) (n : Z) (conj : bool) : option cplx :=
  let negate := (n <? 0)%Z in
  let m := if negate then (- n)%Z else n in
  match squaring (S (Z.to_nat m)) m c1 b with
  | None => None
  | Some value =>
      match (if negate then c_div c1 value else Some value) with
      | None => None
      | Some w => Some (if conj then c_conj w else w)
      end
  end.
(** 98-168 *)
Definition flatten (p : power) : option expr :=
  if qeqb (exponent p) 1 then Some (Leaf (if conjugated p then s_adjoint (base p) else base p))
  else if qeqb (exponent p) 0 then Some (Leaf (Const c1))
  else match base p with
       | Var _ _ => Some (Pow p)
       | Const v =>
           if c_eqb v c1 then Some (Leaf (Const c1))
           else
             let n := numerator (exponent p) in
             if (denominator (exponent p) =? 1)%Z then
               option_map (fun w => Leaf (Const w)) (raise v n (conjugated p))
             else if (denominator (exponent p) =? 2)%Z && qeqb (im v) 0 && negb (qltb (re v) 0) then
               let '(pr, prem) := Z.sqrtrem (numerator (re v)) in
               let '(qr, qrem) := Z.sqrtrem (denominator (re v)) in
               if negb (prem =? 0)%Z || negb (qrem =? 0)%Z then Some (Pow p)
               else option_map (fun w => Leaf (Const w))
                      (raise (c_of (Q2Qc (inject_Z pr) / Q2Qc (inject_Z qr))) n (conjugated p))
             else Some (Pow p)
       end.
(** Expr::operator== on the bases *)
Definition s_eqb (a b : scalar) : bool :=
  match a, b with
  | Const x, Const y => c_eqb x y
  | Var l c, Var l' c' => (l =? l')%nat && Bool.eqb c c'
  | _, _ => false
  end.
(** 188-219: operator*=; None: exception *)
Definition mul_assign (p : power) (that : expr) : option power :=
  match that with
  | Pow q => if Bool.eqb (conjugated p) (conjugated q) && s_eqb (base p) (base q)
             then Some (mkpower (base p) (exponent p + exponent q) (conjugated p)) else None
  | Leaf t =>
      match base p, t with
      | Var l c, Var l' c' => if (l =? l')%nat && Bool.eqb (xorb c (conjugated p)) c'
                              then Some (mkpower (base p) (exponent p + 1) (conjugated p)) else None
      | _, _ => if negb (conjugated p) && s_eqb (base p) t
                then Some (mkpower (base p) (exponent p + 1) (conjugated p)) else None
      end
  end.

(** * to_rational *)
(** rational.hpp:85-100, the loop; None: the exception at its end. [lo], [hi]: f_minus_top_exact and
    f_plus_top_exact. *)
Local Open Scope Q_scope.
Definition qltb' (x y : Q) : bool := match x ?= y with Lt => true | _ => false end.
Fixpoint stern_brocot (niter : nat) (lo hi lower upper : Q) : option Q :=
  match niter with
  | O => None
  | S n =>
      let middle := Qred (Qmake (Qnum lower + Qnum upper) (Qden lower + Qden upper)) in
      if qltb' (inject_Z (QDen middle) * hi) (inject_Z (Qnum middle)) then stern_brocot n lo hi lower middle
      else if qltb' (inject_Z (Qnum middle)) (inject_Z (QDen middle) * lo) then stern_brocot n lo hi middle upper
      else Some middle
  end.
(** 60-117. A floating-point number is the rational it stands for; [rnd] rounds the result of an operation
    on floating-point numbers. Simplification: infinities and NaN are left out. *)
Definition to_rational (rnd : Q -> Q) (t eps : Q) (max_niter : nat) : option Q :=
  if Qeq_bool eps 0 then Some (Qred t)
  else
    let b := Qfloor t in
    let f := rnd (t - inject_Z b) in
    if qltb' f eps then Some (inject_Z b)
    else if qltb' (rnd (1 - eps)) f then Some (rnd (inject_Z b + 1))
    else match stern_brocot max_niter (rnd (f - eps)) (rnd (f + eps)) 0 1 with
         | None => None
         | Some m => Some (Qred (Qmake (QDen m * b + Qnum m) (Qden m)))
         end.
