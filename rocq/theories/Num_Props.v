(** Theorems about complex rational numbers, powers of scalars and the conversion of floating-point numbers. *)
From Coq Require Import List Bool Arith ZArith QArith Qround Qabs Qcanon Lqa Lia Ring.
From Verif Require Import Num_Model Num_Spec Num_Proofs1 Num_Proofs2 Num_Proofs3.
Local Open Scope Qc_scope.

(** C102: Complex<rational> is a field: a commutative ring in which division is defined by everything that is
    not zero and undoes multiplication. *)
Theorem C102_ring : ring_theory c0 c1 c_add c_mul c_sub c_opp eq.
Proof. exact c_ring. Qed.
Theorem C102_division x y : c1 <> c0 /\ (c_div x y = None <-> y = c0) /\ forall z, c_div x y = Some z <-> y <> c0 /\ c_mul z y = x.
Proof.
  split; [apply c1_c0|]. destruct (c_is_zero y) eqn:E.
  - apply c_is_zero_spec in E. subst y. rewrite c_div_zero. split; [tauto|]. intros z. split; [discriminate|]. intros [H _]. congruence.
  - assert (H : y <> c0) by (intros C; apply c_is_zero_spec in C; congruence). rewrite (c_div_inv x y H). split; [split; [discriminate|congruence]|]. intros z. split.
    + intros Hz. split; auto. assert (c_mul x (c_inv y) = z) by congruence. subst z. transitivity (c_mul x (c_mul (c_inv y) y)); [apply c_eq; cbn; ring|]. rewrite inv_l by auto. apply c_eq; cbn; ring.
    + intros [_ <-]. f_equal. transitivity (c_mul z (c_mul y (c_inv y))); [apply c_eq; cbn; ring|]. rewrite inv_r by auto. apply c_eq; cbn; ring.
Qed.
(** C102: the compound assignments and the scaled product agree with the operators; conjugation is an
    automorphism that is its own inverse, the norm is multiplicative and is zero only for zero. *)
Theorem C102_conjugation x y : c_mul_assign x y = c_mul x y /\ (forall k, c_scale x k = c_mul (c_of k) x) /\
  c_conj (c_add x y) = c_add (c_conj x) (c_conj y) /\ c_conj (c_mul x y) = c_mul (c_conj x) (c_conj y) /\ c_conj (c_conj x) = x /\
  c_mul x (c_conj x) = c_of (norm_squared x) /\ norm_squared (c_mul x y) = norm_squared x * norm_squared y /\ (norm_squared x = 0 <-> x = c0) /\ 0 <= norm_squared x.
Proof.
  split; [reflexivity|]. split; [intros k; apply c_eq; cbn; ring|]. split; [apply conj_add|]. split; [apply conj_mul|]. split; [apply conj_conj|]. split; [apply norm_conj|]. split; [apply norm_mul|].
  split; [split; [apply norm_zero|now intros ->]|]. unfold norm_squared. pose proof (sq_nonneg (re x)) as H1. pose proof (sq_nonneg (im x)) as H2. unfold Qcle in *. rewrite this_add. change (this 0) with 0%Q in *. lra.
Qed.
(** C102: equality is equality; the absolute value, where it is given, is the root of the norm. *)
Theorem C102_equality x y : (c_eqb x y = true <-> x = y) /\ (c_is_zero x = true <-> x = c0) /\ (c_is_identity x = true <-> x = c1) /\
  match c_abs x with Some a => 0 <= a /\ a * a = norm_squared x | None => re x <> 0 /\ im x <> 0 end.
Proof.
  split; [apply c_eqb_spec|]. split; [apply c_is_zero_spec|]. split; [exact (c_eqb_spec x c1)|]. unfold c_abs, norm_squared.
  assert (A : forall q, 0 <= q_abs q /\ q_abs q * q_abs q = q * q).
  { intros q. unfold q_abs. destruct (qltb q 0) eqn:E; [|apply qltb_ge in E; auto]. apply qltb_spec in E. split; [|ring]. apply Qclt_le_weak in E. apply Qcopp_le_compat in E. now replace (- 0) with 0 in E by ring. }
  destruct (qeqb_spec (re x) 0) as [Hr|Hr], (qeqb_spec (im x) 0) as [Hi|Hi]; cbn [orb]; auto.
  - destruct (A (re x)) as [A1 A2]. split; [exact A1|]. rewrite A2, Hi. ring.
  - destruct (A (im x)) as [A1 A2]. split; [exact A1|]. rewrite A2, Hr. ring.
  - destruct (A (re x)) as [A1 A2]. split; [exact A1|]. rewrite A2, Hi. ring.
Qed.

(** C103: the constructor of Power accepts a base and an exponent exactly if they are valid. *)
Theorem C103_constructor s e : (exists p, make_power s e = Some p /\ base p = s /\ exponent p = e /\ conjugated p = false) <-> valid s e.
Proof.
  unfold valid, make_power. destruct s as [c|l b]; [|split; [discriminate|intros _; eexists; repeat split]].
  destruct (c_is_zero c) eqn:E; cbn [andb].
  - apply c_is_zero_spec in E. subst c. destruct (qltb e 0) eqn:E2.
    + split; [intros (p & H & _); discriminate|]. intros H. exfalso. apply qltb_spec in E2. specialize (H eq_refl). now apply Qcle_not_lt in H.
    + split; [intros _ _; now apply qltb_ge|intros _; eexists; repeat split].
  - split; [|intros _; eexists; repeat split]. intros _ H. exfalso. injection H as ->. cbn in E. discriminate.
Qed.
(** C103: flattening a power never fails and keeps its value, whatever powers mean. *)
Theorem C103_flatten M p : laws M -> principal M -> valid (base p) (exponent p) -> exists r, flatten p = Some r /\ evalue M r = pvalue M p.
Proof.
  intros HL HP HV. destruct p as [[c|l a] e b]; cbn [base exponent] in HV.
  - destruct (flatten_const c e b) as (r & Er & [->|(w & -> & Hc & Hw)]); [intros ->; now apply HV| |]; (eexists; split; [exact Er|]); [reflexivity|].
    unfold pvalue. cbn [base exponent conjugated svalue evalue]. rewrite (HP c e _ HV Hc Hw). destruct b; [now rewrite <- (const_bar _ HL), conj_conj|reflexivity].
  - rewrite flatten_var. eexists. split; [reflexivity|]. destruct (qeqb_spec e 1) as [->|_].
    + unfold pvalue. cbn [base exponent conjugated evalue]. rewrite (pw_one _ HL). cbn [svalue]. destruct a, b; cbn [negb]; rewrite ?(bar_bar _ HL); reflexivity.
    + destruct (qeqb_spec e 0) as [->|_]; [|reflexivity]. unfold pvalue. cbn [base exponent conjugated evalue svalue]. rewrite (pw_zero _ HL), (const_one _ HL). destruct b; [now rewrite (bar_unit _ HL)|reflexivity].
Qed.
(** C103: where a power of a constant becomes a constant, it is the power in the field itself, and there is only
    one. *)
Theorem C103_constant c e b w : valid (Const c) e -> flatten (mkpower (Const c) e b) = Some (Leaf (Const w)) ->
  is_power c e (if b then c_conj w else w) /\ forall v, is_power c e v -> v = (if b then c_conj w else w).
Proof.
  intros HV H. destruct (flatten_const c e b) as (r & Er & Hr); [intros ->; now apply HV|]. rewrite Er in H. injection H as ->. destruct Hr as [Hr|(w' & E & Hc & Hw)]; [discriminate|]. injection E as <-.
  split; auto. intros v Hv. exact (is_power_unique c e _ _ Hc Hv Hw).
Qed.
(** C103: integer powers always become constants, and square roots of real numbers that are not negative do
    whenever there is a rational one. *)
Theorem C103_folds c e b : valid (Const c) e -> Qden (this e) = 1%positive \/ (real_nonneg c /\ Qden (this e) = 2%positive /\ exists v, is_power c e v) ->
  exists w, flatten (mkpower (Const c) e b) = Some (Leaf (Const w)).
Proof.
  intros HV [H|(H1 & H2 & v & Hv)]; [|apply (flatten_complete c e b v); auto; intros ->; now apply HV].
  apply (flatten_complete c e b (zpow c (Qnum (this e)))); auto; [intros ->; now apply HV|]. split; [|apply nonneg_zpow]. rewrite H. change (Pos.to_nat 1) with 1%nat. cbn [cpow]. apply c_eq; cbn; ring.
Qed.
(** C103: operator*=, where it does not throw, multiplies the values, and what it makes is valid again. *)
Theorem C103_product M p t r : laws M -> adds M (svalue M (base p)) (exponent p) (next_exponent t) -> mul_assign p t = Some r ->
  pvalue M r = times M (pvalue M p) (evalue M t).
Proof. apply mul_assign_value. Qed.
Theorem C103_product_valid p t r : valid (base p) (exponent p) -> (forall q, t = Pow q -> valid (base q) (exponent q)) -> mul_assign p t = Some r -> valid (base r) (exponent r).
Proof.
  intros H1 H2 H. destruct p as [bs e cj]. cbn [base exponent] in *.
  assert (Add : forall x y, 0 <= x -> 0 <= y -> 0 <= x + y) by (intros x y Hx Hy; unfold Qcle in *; rewrite this_add; change (this 0) with 0%Q in *; lra).
  assert (One : (0 : Qc) <= 1) by discriminate.
  destruct t as [t|[bq eq cq]]; cbn [mul_assign base exponent conjugated] in H.
  - assert (G : r = mkpower bs (e + 1) cj) by (destruct bs, t; repeat (match type of H with (if ?x then _ else _) = _ => destruct x end); congruence). subst r. cbn. intros E. apply Add; auto.
  - destruct (Bool.eqb cj cq && s_eqb bs bq) eqn:E; [|discriminate]. apply andb_true_iff in E as [_ E]. apply s_eqb_spec in E. subst bq. assert (r = mkpower bs (e + eq) cj) by congruence. subst r. cbn. intros E.
    apply Add; auto. apply (H2 _ eq_refl). exact E.
Qed.

(** C104: what to_rational returns is within eps of its argument, up to the rounding of its own operations. *)
Theorem C104_close rnd t eps N d r : (0 <= d)%Q -> (d <= 1)%Q -> (forall x, (Qabs x <= 2)%Q -> (Qabs (rnd x - x) <= d)%Q) ->
  (rnd (inject_Z (Qfloor t) + 1) == inject_Z (Qfloor t) + 1)%Q -> (0 <= eps)%Q -> (eps <= 1)%Q ->
  to_rational rnd t eps N = Some r -> (Qabs (r - t) <= eps + 2 * d)%Q.
Proof. apply to_rational_close. Qed.
(** C104: without rounding, it is the fraction with the smallest denominator closer than eps. *)
Theorem C104_simplest t eps N r x : (0 < eps)%Q -> to_rational (fun q => q) t eps N = Some r -> (Qabs (x - t) < eps)%Q -> (QDen r <= QDen x)%Z.
Proof. apply to_rational_simplest. Qed.
(** C104: without rounding, there is no exception if max_niter is at least 1 / (2 eps). *)
Theorem C104_no_exception_partial t eps N : (0 <= eps)%Q -> (1 < 2 * eps * inject_Z (Z.of_nat (S N)))%Q \/ (eps == 0)%Q -> exists r, to_rational (fun q => q) t eps N = Some r.
Proof. intros H1 H2. pose proof (to_rational_ends t eps N H1 H2) as H. destruct (to_rational _ t eps N) as [r|]; [eauto|congruence]. Qed.

Module NumExamples.
  Definition q (n : Z) (d : positive) : Qc := Q2Qc (n # d).
  Example division_ok : c_div (mkc (q 1 1) (q 2 1)) (mkc (q 3 1) (q (-4) 1)) = Some (mkc (q (-1) 5) (q 2 5)).
  Proof. vm_compute. do 2 f_equal; apply Qc_is_canon; reflexivity. Qed.
  (** (4/9)^(-3/2) = 27/8 *)
  Example root_ok : match flatten (mkpower (Const (c_of (q 4 9))) (q (-3) 2) false) with Some (Leaf (Const w)) => c_eqb w (c_of (q 27 8)) | _ => false end = true.
  Proof. vm_compute. reflexivity. Qed.
  (** (1 + 2i)^-2, conjugated *)
  Example power_ok : match flatten (mkpower (Const (mkc (q 1 1) (q 2 1))) (q (-2) 1) true) with Some (Leaf (Const w)) => c_eqb w (mkc (q (-3) 25) (q 4 25)) | _ => false end = true.
  Proof. vm_compute. reflexivity. Qed.

  (** A meaning in which all the laws hold: constants are zero or not, variables and their powers are
      exponents of a common base. *)
  Definition mtimes (x y : option Qc) : option Qc := match x, y with Some a, Some b => Some (a + b) | _, _ => None end.
  Definition M : meaning := {| carrier := option Qc; times := mtimes; unit_ := Some 0; bar := option_map Qcopp;
    of_const := fun c => if c_is_zero c then None else Some 0; of_var := fun l => Some (q (Z.of_nat l) 1);
    pw := fun b e => match b with Some x => Some (x * e) | None => if qeqb e 0 then Some 0 else None end |}.
  Example M_laws : laws M.
  Proof.
    split; cbn.
    - intros [x|] [y|]; cbn; auto. f_equal. ring.
    - intros [x|]; cbn; auto. f_equal. ring.
    - intros c. destruct (c_is_zero c) eqn:E.
      + apply c_is_zero_spec in E. subst c. reflexivity.
      + destruct (c_is_zero (c_conj c)) eqn:E2; cbn; [|f_equal; ring]. apply c_is_zero_spec in E2. exfalso. assert (c = c0) by (rewrite <- (conj_conj c), E2; reflexivity). subst c. discriminate.
    - reflexivity.
    - reflexivity.
    - intros [x|]; [f_equal; ring|reflexivity].
    - intros [x|]; [f_equal; ring|reflexivity].
  Qed.
  Example M_principal : principal M.
  Proof.
    intros c e v HV _ [H _]. cbn. destruct (c_is_zero c) eqn:E.
    - apply c_is_zero_spec in E. subst c. specialize (HV eq_refl). destruct (qeqb_spec e 0) as [->|He].
      + destruct (c_is_zero v) eqn:Ev; [|reflexivity]. apply c_is_zero_spec in Ev. subst v. discriminate.
      + destruct (c_is_zero v) eqn:Ev; [reflexivity|]. assert (v <> c0) by (intros C; apply c_is_zero_spec in C; congruence). exfalso. revert H. apply num_nonneg in HV as Hn.
        destruct (Qnum (this e)) as [|m|m] eqn:En; [|cbn [zpow]; rewrite (cpow_zero (Pos.to_nat m)) by lia; now apply cpow_nonzero|lia].
        exfalso. apply He. rewrite (qc_eta e), En. apply Qc_is_canon. cbn [this Q2Qc]. rewrite !Qred_correct. reflexivity.
    - assert (Hc : c <> c0) by (intros C; apply c_is_zero_spec in C; congruence). replace (0 * e) with 0 by ring. destruct (c_is_zero v) eqn:Ev; auto. apply c_is_zero_spec in Ev. subst v. exfalso.
      rewrite cpow_zero in H by lia. symmetry in H. now apply zpow_nonzero in H.
  Qed.
  (** x^(1/2) *= x, for the variable x_3 *)
  Example product_ok : adds M (svalue M (Var 3 true)) (q 1 2) 1 /\ mul_assign (mkpower (Var 3 true) (q 1 2) true) (Leaf (Var 3 false)) = Some (mkpower (Var 3 true) (q 1 2 + 1) true).
  Proof. split; [|reflexivity]. unfold adds. cbn [pw M svalue bar of_var option_map times mtimes]. f_equal. Qed.

  (** to_rational(0.3125, 0.01) is 4/13 *)
  Example rational_ok : to_rational (fun x => x) (5 # 16) (1 # 100) 1000 = Some (4 # 13).
  Proof. vm_compute. reflexivity. Qed.
  (** The exception that is marked as unreachable is reached: 1/4096 with the default precision 2^-26 and the
      default number of iterations. *)
  Theorem C104_exception_refuted : to_rational (fun x => x) (1 # 4096) (1 # 67108864) 1000 = None.
  Proof. vm_compute. reflexivity. Qed.
End NumExamples.
