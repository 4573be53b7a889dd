(** The normalising tactic for the rings of Wick_Spec. *)
From Coq Require Import Ncring Ncring_tac.
From Verif Require Import Wick_Spec.

Definition rsub {R : ring} (x y : car R) := radd R x (ropp R y).
#[global] Instance ring_ops {R : ring} : Ring_ops (T:=car R) (ring0:=r0 R) (ring1:=r1 R) (add:=radd R) (mul:=rmul R)
  (sub:=rsub) (opp:=ropp R) (ring_eq:=eq) := {}.
#[global] Instance ring_ring {R : ring} : Ring (Ro:=@ring_ops R).
Proof.
  constructor; try exact _;
    unfold addition, add_notation, multiplication, mul_notation, subtraction, sub_notation,
      opposite, opp_notation, zero, zero_notation, one, one_notation, equality, eq_notation; intros.
  - apply radd_0. - apply radd_comm. - apply radd_assoc. - apply rmul_1_l. - apply rmul_1_r.
  - apply rmul_assoc. - apply rdistr_l. - apply rdistr_r. - reflexivity. - apply radd_opp.
Qed.

Ltac ncr := non_commutative_ring.
