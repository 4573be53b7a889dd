(** What the scalars are to be compared with. *)
From Coq Require Import List Bool Arith ZArith QArith Qcanon.
From Verif Require Import Num_Model.
Local Open Scope Qc_scope.

(** Integer powers of complex rational numbers *)
Fixpoint cpow (c : cplx) (n : nat) : cplx := match n with O => c1 | S n' => c_mul c (cpow c n') end.
(** The reciprocal, where there is one. *)
Definition c_inv (x : cplx) : cplx := mkc (re x / norm_squared x) (- (im x / norm_squared x)).
Definition zpow (c : cplx) (n : Z) : cplx :=
  match n with Z0 => c1 | Zpos m => cpow c (Pos.to_nat m) | Zneg m => c_inv (cpow c (Pos.to_nat m)) end.
Definition real_nonneg (c : cplx) : Prop := im c = 0 /\ 0 <= re c.
(** [v] is the principal value of c^(m/d), m/d in lowest terms: v^d = c^m, and if c is real and not negative,
    so is v. For d = 1 and for such c there is only one such v. *)
Definition is_power (c : cplx) (e : Qc) (v : cplx) : Prop :=
  cpow v (Pos.to_nat (Qden (this e))) = zpow c (Qnum (this e)) /\ (real_nonneg c -> real_nonneg v).

(** What a power means: any commutative monoid with conjugation and powers with rational exponents. *)
Record meaning := mkmeaning {
  carrier : Type; times : carrier -> carrier -> carrier; unit_ : carrier; bar : carrier -> carrier;
  of_const : cplx -> carrier; of_var : nat -> carrier; pw : carrier -> Qc -> carrier
}.
Section Laws.
  Variable M : meaning.
  (** Where b^(x+y) = b^x b^y: always, except for the base zero with a negative exponent. *)
  Definition adds (b : carrier M) (x y : Qc) : Prop := pw M b (x + y) = times M (pw M b x) (pw M b y).
  Record laws : Prop := {
    bar_times : forall x y, bar M (times M x y) = times M (bar M x) (bar M y);
    bar_bar : forall x, bar M (bar M x) = x;
    const_bar : forall c, of_const M (c_conj c) = bar M (of_const M c);
    const_one : of_const M c1 = unit_ M;
    bar_unit : bar M (unit_ M) = unit_ M;
    pw_one : forall b, pw M b 1 = b;
    pw_zero : forall b, pw M b 0 = unit_ M
  }.
  (** A base and an exponent that the constructor of Power accepts: not zero with a negative exponent *)
  Definition valid (s : scalar) (e : Qc) : Prop := s = Const c0 -> 0 <= e.
  (** Powers of constants are the principal ones. *)
  Definition principal : Prop := forall c e v, valid (Const c) e -> Qden (this e) = 1%positive \/ real_nonneg c ->
    is_power c e v -> pw M (of_const M c) e = of_const M v.
  Definition svalue (s : scalar) : carrier M :=
    match s with Const c => of_const M c | Var l b => if b then bar M (of_var M l) else of_var M l end.
  Definition pvalue (p : power) : carrier M :=
    let v := pw M (svalue (base p)) (exponent p) in if conjugated p then bar M v else v.
  Definition evalue (e : expr) : carrier M := match e with Leaf s => svalue s | Pow p => pvalue p end.
  Definition next_exponent (e : expr) : Qc := match e with Leaf _ => 1 | Pow q => exponent q end.
End Laws.
