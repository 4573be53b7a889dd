(** A concrete operator algebra for the examples and refutations: one particle and one hole state
    (4x4 integer matrices, Jordan-Wigner). *)
From Coq Require Import List NArith ZArith Bool Arith Lia.
From Verif Require Import Wick_Model Wick_Spec Wick_Ring Wick_Proofs1 Qn_Model Qn_Spec.
Import ListNotations.

(** integers *)
Definition ring_Z : ring.
Proof. refine (mkring Z 0%Z 1%Z Z.add Z.mul Z.opp _ _ _ _ _ _ _ _ _); abstract (intros; ring). Defined.

(** 2x2 matrices over a ring *)
Section Mat2.
  Variable R : ring.
  Local Open Scope op_scope.
  Definition mat2 := (car R * car R * car R * car R)%type.
  Definition madd (x y : mat2) : mat2 := let '(a, b, c, d) := x in let '(a', b', c', d') := y in (a + a', b + b', c + c', d + d').
  Definition mmul (x y : mat2) : mat2 := let '(a, b, c, d) := x in let '(a', b', c', d') := y in
    (a * a' + b * c', a * b' + b * d', c * a' + d * c', c * b' + d * d').
  Definition mopp (x : mat2) : mat2 := let '(a, b, c, d) := x in (ropp R a, ropp R b, ropp R c, ropp R d).
  Ltac mring := intros; repeat match goal with x : mat2 |- _ => destruct x as [[[? ?] ?] ?] end; cbn [madd mmul mopp]; repeat (f_equal; try ncr).
  Definition ring_mat2 : ring.
  Proof.
    refine (mkring mat2 (r0 R, r0 R, r0 R, r0 R) (r1 R, r0 R, r0 R, r1 R) madd mmul mopp _ _ _ _ _ _ _ _ _).
    all: abstract mring.
  Defined.
End Mat2.

Definition R4 : ring := ring_mat2 (ring_mat2 ring_Z).
Definition m2 (a b c d : Z) : car (ring_mat2 ring_Z) := (a, b, c, d).
Definition m4 (a b c d : car (ring_mat2 ring_Z)) : car R4 := (a, b, c, d).
Definition O2 := m2 0 0 0 0.
Definition I2 := m2 1 0 0 1.
(** annihilators of the particle and of the hole *)
Definition ap : car R4 := m4 O2 I2 O2 O2.
Definition ap_dag : car R4 := m4 O2 O2 I2 O2.
Definition bh : car R4 := m4 (m2 0 1 0 0) O2 O2 (m2 0 (-1) 0 0).
Definition bh_dag : car R4 := m4 (m2 0 0 1 0) O2 O2 (m2 0 0 (-1) 0).
Definition zero4 : car R4 := m4 O2 O2 O2 O2.

(** label 0 is the hole state (occupied), every other label the particle state *)
Definition is_hole (i : nat) : bool := match i with 0 => true | _ => false end.
Definition plus4 (o : op nat) : car R4 := if is_hole (oidx o) then (if ocre o then zero4 else bh_dag) else (if ocre o then ap_dag else zero4).
Definition minus4 (o : op nat) : car R4 := if is_hole (oidx o) then (if ocre o then bh else zero4) else (if ocre o then zero4 else ap).
Definition can4 (l r : op nat) : bool :=
  Bool.eqb (is_hole (oidx l)) (is_hole (oidx r)) && (if is_hole (oidx l) then ocre l && negb (ocre r) else negb (ocre l) && ocre r).
Definition contr4 (l r : op nat) : car R4 := if can4 l r then m4 I2 O2 O2 I2 else zero4.
Definition V4 (x : car R4) : car R4 := let a : Z := fst (fst (fst (fst (fst (fst (x : ((Z*Z*Z*Z)*(Z*Z*Z*Z)*(Z*Z*Z*Z)*(Z*Z*Z*Z))%type)))))) in m4 (m2 a 0 0 a) O2 O2 (m2 a 0 0 a).

Lemma central_I4 : central (m4 I2 O2 O2 I2 : car R4).
Proof. intros y. change (m4 I2 O2 O2 I2) with (r1 R4). rewrite rmul_1_l, rmul_1_r. reflexivity. Qed.
Lemma central_04 : central (zero4 : car R4).
Proof. intros y. change zero4 with (r0 R4). rewrite rmul_0_l, rmul_0_r. reflexivity. Qed.

Lemma relations4 : canonical true plus4 minus4 contr4.
Proof.
  split; [|split; [|split]].
  - intros [[|i] [|]] [[|j] [|]]; vm_compute; reflexivity.
  - intros [[|i] [|]] [[|j] [|]]; vm_compute; reflexivity.
  - intros [[|i] [|]] [[|j] [|]]; vm_compute; reflexivity.
  - intros l r. unfold contr4. destruct (can4 l r); [apply central_I4|apply central_04].
Qed.

Definition p4 {X : Type} (a b c d a' b' c' d' : X) (H : (a, b, c, d) = (a', b', c', d')) : a = a' /\ b = b' /\ c = c' /\ d = d'.
Proof. repeat split; congruence. Qed.

Lemma central_scalar (c : car R4) : central c -> exists z, c = m4 (m2 z 0 0 z) O2 O2 (m2 z 0 0 z).
Proof.
  intros H. pose proof (H ap) as H1. pose proof (H ap_dag) as H2. pose proof (H bh) as H3. pose proof (H bh_dag) as H4.
  destruct c as [[[[[[a1 a2] a3] a4] [[[b1 b2] b3] b4]] [[[c1 c2] c3] c4]] [[[d1 d2] d3] d4]].
  cbn -[Z.add Z.mul] in H1, H2, H3, H4. unfold mmul, madd in H1, H2, H3, H4. cbn -[Z.add Z.mul] in H1, H2, H3, H4.
  apply p4 in H1. destruct H1 as (E1 & E2 & E3 & E4). apply p4 in E1, E2, E3, E4.
  apply p4 in H2. destruct H2 as (F1 & F2 & F3 & F4). apply p4 in F1, F2, F3, F4.
  apply p4 in H3. destruct H3 as (G1 & G2 & G3 & G4). apply p4 in G1, G2, G3, G4.
  apply p4 in H4. destruct H4 as (K1 & K2 & K3 & K4). apply p4 in K1, K2, K3, K4.
  exists a1. unfold m4, m2, O2.
  assert (a2 = 0 /\ a3 = 0 /\ a4 = a1 /\ b1 = 0 /\ b2 = 0 /\ b3 = 0 /\ b4 = 0 /\ c1 = 0 /\ c2 = 0 /\ c3 = 0 /\ c4 = 0 /\ d1 = a1 /\ d2 = 0 /\ d3 = 0 /\ d4 = a1)%Z by lia.
  repeat match goal with H : _ /\ _ |- _ => destruct H end; subst. reflexivity.
Qed.

Ltac tup := repeat match goal with |- (_, _) = (_, _) => f_equal end; ring.
Lemma V4_ok : expectation (R := R4) plus4 minus4 V4.
Proof.
  split; [|split; [|split; [|split]]].
  - intros [[[[[[? ?] ?] ?] [[[? ?] ?] ?]] [[[? ?] ?] ?]] [[[? ?] ?] ?]] [[[[[[? ?] ?] ?] [[[? ?] ?] ?]] [[[? ?] ?] ?]] [[[? ?] ?] ?]]. reflexivity.
  - intros c x Hc. destruct (central_scalar c Hc) as (z & ->).
    destruct x as [[[[[[a1 a2] a3] a4] [[[b1 b2] b3] b4]] [[[c1 c2] c3] c4]] [[[d1 d2] d3] d4]].
    unfold V4, m4, m2, O2. unfold rmul, R4, ring_mat2, ring_Z. cbn -[Z.add Z.mul]. unfold m2. tup.
  - reflexivity.
  - intros [[|i] [|]] [[[[[[a1 a2] a3] a4] [[[b1 b2] b3] b4]] [[[c1 c2] c3] c4]] [[[d1 d2] d3] d4]]; unfold plus4, V4, m4, m2, O2; cbn -[Z.add Z.mul]; unfold m2, r0; cbn -[Z.add Z.mul]; tup.
  - intros [[|i] [|]] [[[[[[a1 a2] a3] a4] [[[b1 b2] b3] b4]] [[[c1 c2] c3] c4]] [[[d1 d2] d3] d4]]; unfold minus4, V4, m4, m2, O2; cbn -[Z.add Z.mul]; unfold m2, r0; cbn -[Z.add Z.mul]; tup.
Qed.

(** The spaces of make_F12_sr_spaces (convention.cpp:194-217): o, i (holes), a (particles), g, alpha'. *)
Definition f12 : context := mkcontext false (map (fun t => mkspace t any) [1; 2; 4; 8; 16]%N) (fun _ => 3%N) (fun _ => 4%N) (fun _ => 2%N).
(** The hole state is in i, the particle state in a. *)
Definition f12_base (i : nat) : nat := if is_hole i then 1 else 2.
(** make_min_sr_spaces (convention.cpp:115-128): i, a *)
Definition sr : context := mkcontext false (map (fun t => mkspace t any) [1; 2]%N) (fun _ => 1%N) (fun _ => 2%N) (fun _ => 1%N).
Definition sr_base (i : nat) : nat := if is_hole i then 0 else 1.

Lemma f12_ok : occupied_lowest f12 /\ plain_spaces f12.
Proof.
  split.
  - intros b H. cbn in H. repeat destruct H as [<-|H]; try destruct H; cbn; (split; [discriminate|]); first [left; reflexivity|right; reflexivity].
  - split; [repeat constructor; cbn; intuition discriminate|]. repeat constructor; cbn; discriminate.
Qed.
Lemma sr_ok : occupied_lowest sr /\ plain_spaces sr.
Proof.
  split.
  - intros b H. cbn in H. repeat destruct H as [<-|H]; try destruct H; cbn; (split; [discriminate|]); first [left; reflexivity|right; reflexivity].
  - split; [repeat constructor; cbn; intuition discriminate|]. repeat constructor; cbn; discriminate.
Qed.
Lemma f12_zero l r : contractible f12 f12_base l r = false -> contr4 l r = r0 R4.
Proof. destruct l as [[|i] [|]], r as [[|j] [|]]; intros H; try reflexivity; discriminate H. Qed.
Lemma sr_zero l r : contractible sr sr_base l r = false -> contr4 l r = r0 R4.
Proof. destruct l as [[|i] [|]], r as [[|j] [|]]; intros H; try reflexivity; discriminate H. Qed.
