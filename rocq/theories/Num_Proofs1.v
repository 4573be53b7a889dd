(** Proofs about complex numbers. *)
From Coq Require Import List Bool Arith ZArith QArith Qcanon Lqa Lia Ring Znumtheory.
From Verif Require Import Num_Model Num_Spec.
Local Open Scope Qc_scope.

Lemma qeqb_spec x y : reflect (x = y) (qeqb x y).
Proof. unfold qeqb. destruct (Qc_eq_dec x y); now constructor. Qed.
Lemma qltb_spec x y : qltb x y = true <-> x < y.
Proof. unfold qltb. rewrite Qclt_alt. destruct (x ?= y); split; intros; congruence. Qed.
Lemma qltb_ge x y : qltb x y = false <-> y <= x.
Proof.
  split; intros H.
  - apply Qcnot_lt_le. intros C. apply qltb_spec in C. congruence.
  - destruct (qltb x y) eqn:E; auto. apply qltb_spec in E. exfalso. now apply (Qcle_not_lt _ _ H).
Qed.
Lemma this_mul (x y : Qc) : (this (x * y) == this x * this y)%Q.
Proof. apply Qred_correct. Qed.
Lemma this_add (x y : Qc) : (this (x + y) == this x + this y)%Q.
Proof. apply Qred_correct. Qed.
Lemma sq_nonneg (x : Qc) : 0 <= x * x.
Proof. unfold Qcle. rewrite this_mul. cbn [this]. change (this 0) with 0%Q. nra. Qed.
Lemma sum_squares (x y : Qc) : x * x + y * y = 0 -> x = 0 /\ y = 0.
Proof.
  intros H. apply (f_equal this) in H. assert (E : (this x * this x + this y * this y == 0)%Q).
  { rewrite <- !this_mul, <- this_add, H. reflexivity. }
  split; apply Qc_is_canon; change (this 0) with 0%Q; nra.
Qed.

Lemma c_eq x y : re x = re y -> im x = im y -> x = y.
Proof. destruct x, y; cbn; congruence. Qed.
Lemma c_eqb_spec x y : c_eqb x y = true <-> x = y.
Proof.
  unfold c_eqb. rewrite andb_true_iff. split.
  - intros [H1 H2]. apply c_eq; [destruct (qeqb_spec (re x) (re y))|destruct (qeqb_spec (im x) (im y))]; congruence.
  - intros ->. destruct (qeqb_spec (re y) (re y)), (qeqb_spec (im y) (im y)); auto; congruence.
Qed.
Lemma c_is_zero_spec x : c_is_zero x = true <-> x = c0.
Proof. exact (c_eqb_spec x c0). Qed.
Lemma c_ring : ring_theory c0 c1 c_add c_mul c_sub c_opp eq.
Proof. split; intros; apply c_eq; cbn; ring. Qed.
Add Ring Kring34 : c_ring.
Lemma conj_mul x y : c_conj (c_mul x y) = c_mul (c_conj x) (c_conj y).
Proof. apply c_eq; cbn; ring. Qed.
Lemma conj_add x y : c_conj (c_add x y) = c_add (c_conj x) (c_conj y).
Proof. apply c_eq; cbn; ring. Qed.
Lemma conj_conj x : c_conj (c_conj x) = x.
Proof. apply c_eq; cbn; ring. Qed.
Lemma conj_one : c_conj c1 = c1.
Proof. apply c_eq; cbn; [reflexivity|ring]. Qed.
Lemma norm_zero x : norm_squared x = 0 -> x = c0.
Proof. intros H. apply sum_squares in H as [H1 H2]. now apply c_eq. Qed.
Lemma norm_mul x y : norm_squared (c_mul x y) = norm_squared x * norm_squared y.
Proof. unfold norm_squared. cbn. ring. Qed.
Lemma norm_conj x : c_mul x (c_conj x) = c_of (norm_squared x).
Proof. unfold norm_squared. apply c_eq; cbn; ring. Qed.
Lemma inv_l x : x <> c0 -> c_mul (c_inv x) x = c1.
Proof. intros H. assert (N : norm_squared x <> 0) by (intros E; apply H; now apply norm_zero). unfold c_inv. apply c_eq; cbn; unfold norm_squared in *; field; exact N. Qed.
Lemma inv_r x : x <> c0 -> c_mul x (c_inv x) = c1.
Proof. intros H. rewrite <- (inv_l x H). ring. Qed.
Lemma c_div_inv x y : y <> c0 -> c_div x y = Some (c_mul x (c_inv y)).
Proof.
  intros H. assert (N : norm_squared y <> 0) by (intros E; apply H; now apply norm_zero). unfold c_div. destruct (qeqb_spec (norm_squared y) 0); [congruence|].
  f_equal. unfold c_inv. apply c_eq; cbn; unfold norm_squared in *; field; exact N.
Qed.
Lemma c_div_zero x : c_div x c0 = None.
Proof. reflexivity. Qed.
Lemma c1_c0 : c1 <> c0.
Proof. intros H. apply (f_equal re) in H. discriminate. Qed.
Lemma c_integral x y : c_mul x y = c0 -> x = c0 \/ y = c0.
Proof.
  intros H. destruct (c_is_zero x) eqn:E; [left; now apply c_is_zero_spec|right].
  assert (x <> c0) by (intros C; apply c_is_zero_spec in C; congruence).
  transitivity (c_mul (c_mul (c_inv x) x) y); [rewrite inv_l by auto; ring|].
  transitivity (c_mul (c_inv x) (c_mul x y)); [ring|]. rewrite H. ring.
Qed.

(** ** Powers *)
Lemma cpow_add c n m : cpow c (n + m) = c_mul (cpow c n) (cpow c m).
Proof. induction n as [|n IH]; cbn [cpow Nat.add]; [ring|]. rewrite IH. ring. Qed.
Lemma cpow_mul c n m : cpow c (n * m) = cpow (cpow c n) m.
Proof. rewrite Nat.mul_comm. induction m as [|m IH]; cbn [cpow Nat.mul]; [reflexivity|]. now rewrite cpow_add, IH. Qed.
Lemma cpow_prod a b n : cpow (c_mul a b) n = c_mul (cpow a n) (cpow b n).
Proof. induction n as [|n IH]; cbn [cpow]; [ring|]. rewrite IH. ring. Qed.
Lemma cpow_one n : cpow c1 n = c1.
Proof. induction n as [|n IH]; cbn [cpow]; [reflexivity|]. rewrite IH. ring. Qed.
Lemma cpow_zero n : n <> O -> cpow c0 n = c0.
Proof. destruct n; [congruence|]. intros _. cbn [cpow]. ring. Qed.
Lemma cpow_nonzero c n : c <> c0 -> cpow c n <> c0.
Proof. intros H. induction n as [|n IH]; cbn [cpow]; [apply c1_c0|]. intros C. apply c_integral in C as [C|C]; auto. Qed.
Lemma cpow_conj c n : cpow (c_conj c) n = c_conj (cpow c n).
Proof. induction n as [|n IH]; cbn [cpow]; [symmetry; apply conj_one|]. now rewrite IH, conj_mul. Qed.
Lemma inv_mul a b : a <> c0 -> b <> c0 -> c_inv (c_mul a b) = c_mul (c_inv a) (c_inv b).
Proof.
  intros Ha Hb. assert (Hab : c_mul a b <> c0) by (intros C; apply c_integral in C as [C|C]; auto).
  transitivity (c_mul (c_inv (c_mul a b)) (c_mul (c_mul a (c_inv a)) (c_mul b (c_inv b)))); [rewrite !inv_r by auto; ring|].
  transitivity (c_mul (c_mul (c_inv (c_mul a b)) (c_mul a b)) (c_mul (c_inv a) (c_inv b))); [ring|]. rewrite inv_l by auto. ring.
Qed.
Lemma inv_one : c_inv c1 = c1.
Proof. transitivity (c_mul (c_inv c1) c1); [ring|apply inv_l, c1_c0]. Qed.
Lemma inv_inj a b : a <> c0 -> b <> c0 -> c_inv a = c_inv b -> a = b.
Proof.
  intros Ha Hb H. transitivity (c_mul a (c_mul (c_inv b) b)); [rewrite inv_l by auto; ring|].
  rewrite <- H. transitivity (c_mul (c_mul a (c_inv a)) b); [ring|]. rewrite inv_r by auto. ring.
Qed.
Lemma cpow_inv a n : a <> c0 -> cpow (c_inv a) n = c_inv (cpow a n).
Proof.
  intros Ha. induction n as [|n IH]; cbn [cpow]; [symmetry; apply inv_one|]. rewrite IH, inv_mul; auto. now apply cpow_nonzero.
Qed.
Lemma inv_nonzero a : a <> c0 -> c_inv a <> c0.
Proof. intros H C. apply c1_c0. rewrite <- (inv_l a H), C. ring. Qed.

(** ** Real numbers that are not negative *)
Lemma nonneg_mul a b : real_nonneg a -> real_nonneg b -> real_nonneg (c_mul a b).
Proof.
  intros [H1 H2] [H3 H4]. split; cbn; rewrite H1, H3; [ring|]. replace (re a * re b - 0 * 0) with (re a * re b) by ring.
  unfold Qcle in *. rewrite this_mul. change (this 0) with 0%Q in *. nra.
Qed.
Lemma nonneg_one : real_nonneg c1.
Proof. split; [reflexivity|]. discriminate. Qed.
Lemma nonneg_cpow a n : real_nonneg a -> real_nonneg (cpow a n).
Proof. intros H. induction n as [|n IH]; cbn [cpow]; [apply nonneg_one|]. now apply nonneg_mul. Qed.
Lemma this_inv (x : Qc) : (this (/ x) == / this x)%Q.
Proof. apply Qred_correct. Qed.
Lemma nonneg_inv a : real_nonneg a -> real_nonneg (c_inv a).
Proof.
  intros [H1 H2]. destruct (Qc_eq_dec (re a) 0) as [E|E].
  - replace a with c0 by now apply c_eq. split; [reflexivity|]. discriminate.
  - assert (E2 : c_inv a = mkc (/ re a) 0) by (unfold c_inv, norm_squared; apply c_eq; cbn; rewrite ?H1; field; auto). rewrite E2. split; [reflexivity|]. cbn [re].
    unfold Qcle in *. rewrite this_inv. change (this 0) with 0%Q in *. now apply Qinv_le_0_compat.
Qed.
Lemma nonneg_conj a : real_nonneg a -> c_conj a = a.
Proof. intros [H _]. apply c_eq; cbn; [reflexivity|]. rewrite H. ring. Qed.

Fixpoint qpow (x : Qc) (n : nat) : Qc := match n with O => 1 | S n' => x * qpow x n' end.
Lemma cpow_real x n : cpow (c_of x) n = c_of (qpow x n).
Proof. induction n as [|n IH]; cbn [cpow qpow]; [reflexivity|]. rewrite IH. apply c_eq; cbn; ring. Qed.
Lemma qpow_pos x n : 0 < x -> 0 < qpow x n.
Proof.
  intros H. induction n as [|n IH]; cbn [qpow]; [reflexivity|]. unfold Qclt in *. rewrite this_mul. change (this 0) with 0%Q in *. nra.
Qed.
Lemma qpow_lt x y n : 0 <= x -> x < y -> qpow x (S n) < qpow y (S n).
Proof.
  intros Hx Hy. assert (0 < y) by (eapply Qcle_lt_trans; eauto). induction n as [|n IH].
  - cbn. now rewrite !Qcmult_1_r.
  - change (x * qpow x (S n) < y * qpow y (S n)). assert (P : 0 < qpow y (S n)) by now apply qpow_pos. unfold Qclt, Qcle in *. rewrite !this_mul. change (this 0) with 0%Q in *.
    set (a := this x) in *. set (b := this y) in *. set (u := this (qpow x (S n))) in *. set (v := this (qpow y (S n))) in *. nra.
Qed.
Lemma qpow_inj x y n : n <> O -> 0 <= x -> 0 <= y -> qpow x n = qpow y n -> x = y.
Proof.
  destruct n as [|n]; [congruence|]. intros _ Hx Hy H. destruct (Qc_dec x y) as [[L|L]|E]; auto; exfalso.
  - apply (qpow_lt x y n Hx) in L. rewrite H in L. now apply Qclt_not_eq in L.
  - apply (qpow_lt y x n Hy) in L. rewrite H in L. now apply Qclt_not_eq in L.
Qed.
Lemma nonneg_real a : real_nonneg a -> a = c_of (re a).
Proof. intros [H _]. now apply c_eq. Qed.
(** There is only one root that is real and not negative. *)
Lemma root_unique a b n : n <> O -> real_nonneg a -> real_nonneg b -> cpow a n = cpow b n -> a = b.
Proof.
  intros Hn Ha Hb H. rewrite (nonneg_real a Ha), (nonneg_real b Hb), !cpow_real in H. apply (f_equal re) in H. cbn in H.
  rewrite (nonneg_real a Ha), (nonneg_real b Hb). f_equal. apply (qpow_inj _ _ n); auto; [apply Ha|apply Hb].
Qed.
