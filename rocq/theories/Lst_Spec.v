(** What the similarity transformation is measured against: commutators and exponentials in a ring. *)
From Coq Require Import List Bool Arith.
From Verif Require Import Wick_Spec Expr_Model Expr_Spec.
Import ListNotations.

Section Spec.
  Context {R : ring}.
  Local Open Scope op_scope.
  (** x - y, the sum of f 0 ... f n, powers *)
  Definition rsub (x y : car R) : car R := x + ropp R y.
  Definition sum_to (n : nat) (f : nat -> car R) : car R := rsum (map f (seq 0 (S n))).
  Fixpoint power (x : car R) (n : nat) : car R := match n with O => r1 R | S n' => x * power x n' end.
  Fixpoint times_nat (n : nat) (x : car R) : car R := match n with O => r0 R | S n' => x + times_nat n' x end.

  (** [x, b] = x b - b x *)
  Definition bracket (b x : car R) : car R := rsub (x * b) (b * x).
  (** [[x, b], b] ..., n times *)
  Definition nested (b : car R) (n : nat) (x : car R) : car R := Nat.iter n (bracket b) x.

  (** Inverse factorials: central elements c with n! c = 1. *)
  Definition inverse_factorials (c : nat -> car R) : Prop :=
    (forall n, central (c n)) /\ (forall n, times_nat (fact n) (c n) = r1 R).
  Variable c : nat -> car R.
  (** The Campbell expansion up to [n] commutators *)
  Definition campbell (n : nat) (b x : car R) : car R := sum_to n (fun j => c j * nested b j x).
  (** The exponential of an element whose powers vanish from the [n+1]-st on *)
  Definition exponential (n : nat) (b : car R) : car R := sum_to n (fun j => c j * power b j).
End Spec.

Section Contracts.
  Context {k : kops} {a : aops k}.
  Variable i : interpretation k a.
  Notation E := (expr (K k) (A a)).
  (** The expression is well formed and has the value [v]. *)
  Definition has_value (e : E) (v : car (ir i)) : Prop := ok e /\ value i e = v.
  (** A term, or a sum of terms. *)
  Definition flat (e : E) : Prop := sum_free e \/ exists ci ss, e = ESum ci ss /\ forall x, In x ss -> sum_free x.
  (** Canonicalization keeps values and makes no new sums; adding up gives the sum. *)
  Definition canonicalizer (f : E -> E) : Prop := forall e, ok e -> has_value (f e) (value i e) /\ (flat e -> flat (f e)).
  Definition totals (f : list E -> E) : Prop := forall l, Forall ok l -> has_value (f l) (rsum (map (value i) l)).
  (** 1/n: n times this number is 1. *)
  Fixpoint count (n : nat) : K k := match n with O => k0 k | S n' => kadd k (k1 k) (count n') end.
  Definition reciprocals (f : nat -> K k) : Prop := forall n, kmul k (f (S n)) (count (S n)) = k1 k.
  (** 1/n! *)
  Fixpoint reciprocal_factorial (f : nat -> K k) (n : nat) : K k :=
    match n with O => k1 k | S n' => kmul k (f (S n')) (reciprocal_factorial f n') end.
End Contracts.
