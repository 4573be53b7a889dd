(** Proofs about powers of scalars. *)
From Coq Require Import List Bool Arith ZArith QArith Qcanon Lqa Lia Ring Znumtheory.
From Verif Require Import Num_Model Num_Spec Num_Proofs1.
Local Open Scope Qc_scope.
Add Ring Kring35 : c_ring.

(** ** Exponentiation by squaring *)
Lemma squaring_pow fuel : forall n value b, (0 <= n)%Z -> (Z.to_nat n <= fuel)%nat -> squaring fuel n value b = Some (c_mul value (cpow b (Z.to_nat n))).
Proof.
  induction fuel as [|fuel IH]; intros n value b Hn Hf.
  - assert (n = 0%Z) by lia. subst n. cbn. f_equal. ring.
  - cbn [squaring]. destruct (0 <? n)%Z eqn:E.
    2: { apply Z.ltb_ge in E. assert (n = 0%Z) by lia. subst n. cbn [Z.to_nat cpow]. f_equal. ring. }
    apply Z.ltb_lt in E. change c_mul_assign with c_mul. pose proof (Z.div_lt n 2 E ltac:(lia)) as Hlt. assert (Hd : (0 <= n / 2)%Z) by (apply Z.div_pos; lia).
    rewrite IH by lia. f_equal. pose proof (Z.div_mod n 2 ltac:(lia)) as Hdm. pose proof (Z.mod_pos_bound n 2 ltac:(lia)) as Hm.
    assert (Hb : cpow (if (0 <? n / 2)%Z then c_mul b b else b) (Z.to_nat (n / 2)) = cpow b (2 * Z.to_nat (n / 2))).
    { destruct (0 <? n / 2)%Z eqn:E2; [|apply Z.ltb_ge in E2; replace (n / 2)%Z with 0%Z by lia; reflexivity]. rewrite cpow_mul. f_equal. cbn [cpow]. ring. }
    rewrite Hb. destruct (n mod 2 =? 0)%Z eqn:E0.
    + apply Z.eqb_eq in E0. replace (Z.to_nat n) with (2 * Z.to_nat (n / 2))%nat by lia. reflexivity.
    + apply Z.eqb_neq in E0. replace (Z.to_nat n) with (S (2 * Z.to_nat (n / 2)))%nat by lia. cbn [cpow]. ring.
Qed.
Lemma raise_pow b n conj : ((n < 0)%Z -> b <> c0) -> raise b n conj = Some (if conj then c_conj (zpow b n) else zpow b n).
Proof.
  intros H. unfold raise. destruct (n <? 0)%Z eqn:E.
  - apply Z.ltb_lt in E. rewrite squaring_pow by lia. destruct n as [|m|m]; try lia. cbn [Z.opp Z.to_nat zpow].
    rewrite c_div_inv; [|replace (c_mul c1 (cpow b (Pos.to_nat m))) with (cpow b (Pos.to_nat m)) by ring; now apply cpow_nonzero, H].
    replace (c_mul c1 (cpow b (Pos.to_nat m))) with (cpow b (Pos.to_nat m)) by ring. f_equal.
    replace (c_mul c1 (c_inv (cpow b (Pos.to_nat m)))) with (c_inv (cpow b (Pos.to_nat m))) by ring. reflexivity.
  - apply Z.ltb_ge in E. rewrite squaring_pow by lia. f_equal. assert (G : c_mul c1 (cpow b (Z.to_nat n)) = zpow b n) by (destruct n as [|m|m]; [cbn; ring|cbn [Z.to_nat zpow]; ring|lia]). now rewrite G.
Qed.
Lemma zpow_cpow a k n : (a <> c0 \/ (0 <= n)%Z) -> zpow (cpow a k) n = cpow (zpow a n) k.
Proof.
  intros H. destruct n as [|m|m]; cbn [zpow]; [now rewrite cpow_one|now rewrite <- !cpow_mul, Nat.mul_comm|].
  assert (a <> c0) by (destruct H; auto; lia). rewrite cpow_inv by now apply cpow_nonzero. now rewrite <- !cpow_mul, Nat.mul_comm.
Qed.
Lemma zpow_one n : zpow c1 n = c1.
Proof. destruct n; cbn [zpow]; rewrite ?cpow_one, ?inv_one; reflexivity. Qed.
Lemma nonneg_zpow a n : real_nonneg a -> real_nonneg (zpow a n).
Proof. intros H. destruct n; cbn [zpow]; [apply nonneg_one|now apply nonneg_cpow|]. now apply nonneg_inv, nonneg_cpow. Qed.
Lemma zpow_nonzero a n : a <> c0 -> zpow a n <> c0.
Proof. intros H. destruct n; cbn [zpow]; [apply c1_c0|now apply cpow_nonzero|]. now apply inv_nonzero, cpow_nonzero. Qed.

(** ** Exponents *)
Lemma num_neg (e : Qc) : (Qnum (this e) < 0)%Z -> e < 0.
Proof. intros H. unfold Qclt, Qlt. cbn. lia. Qed.
Lemma num_nonneg (e : Qc) : 0 <= e -> (0 <= Qnum (this e))%Z.
Proof. intros H. unfold Qcle, Qle in H. cbn in H. lia. Qed.
Lemma qc_eta (x : Qc) : x = Q2Qc (Qnum (this x) # Qden (this x)).
Proof. apply Qc_is_canon. cbn [this Q2Qc]. rewrite Qred_correct. now destruct (this x). Qed.
Lemma qc_coprime (x : Qc) : Z.gcd (Qnum (this x)) (QDen (this x)) = 1%Z.
Proof. apply Qred_identity2. apply canon. Qed.

(** The square root found for numerator and denominator *)
Lemma root_square (x : Qc) pr qr : (pr * pr = Qnum (this x))%Z -> (qr * qr = QDen (this x))%Z ->
  let s := Q2Qc (inject_Z pr) / Q2Qc (inject_Z qr) in s * s = x.
Proof.
  intros H1 H2 s. assert (Hq : qr <> 0%Z) by (intros ->; discriminate). apply Qc_is_canon.
  assert (E : (this s == inject_Z pr / inject_Z qr)%Q).
  { unfold s, Qcdiv. rewrite this_mul, this_inv. cbn [this Q2Qc]. rewrite !Qred_correct. reflexivity. }
  rewrite this_mul, E. assert (Ex : (this x == inject_Z (Qnum (this x)) / inject_Z (QDen (this x)))%Q) by (rewrite <- Qmake_Qdiv; now destruct (this x)).
  rewrite Ex, <- H1, <- H2, !inject_Z_mult. field. intros C. apply Hq. unfold Qeq in C. cbn in C. lia.
Qed.
Lemma root_nonneg pr qr : (0 <= pr)%Z -> (0 <= qr)%Z -> 0 <= Q2Qc (inject_Z pr) / Q2Qc (inject_Z qr).
Proof.
  intros H1 H2. unfold Qcle, Qcdiv. rewrite this_mul, this_inv. cbn [this Q2Qc]. rewrite !Qred_correct. change (Qred 0) with 0%Q.
  apply Qmult_le_0_compat; [|apply Qinv_le_0_compat]; unfold Qle; cbn; lia.
Qed.

(** ** flatten *)
Definition valid_power (c : cplx) (e : Qc) : Prop := c = c0 -> 0 <= e.
Lemma sqrtrem_root n r m : (0 <= n)%Z -> Z.sqrtrem n = (r, m) -> (m = 0)%Z -> (r * r = n)%Z /\ (0 <= r)%Z.
Proof.
  intros Hn E Hm. pose proof (Z.sqrtrem_spec n Hn) as H. rewrite E in H. subst m. destruct H as [H1 H2]. split; [lia|].
  pose proof (Z.sqrtrem_sqrt n) as G. rewrite E in G. cbn in G. subst r. apply Z.sqrt_nonneg.
Qed.
Lemma c_of_square (x : Qc) s : s * s = x -> cpow (c_of s) 2 = c_of x.
Proof. intros <-. cbn [cpow]. apply c_eq; cbn; ring. Qed.
Lemma flatten_const c e b : valid_power c e -> exists r, flatten (mkpower (Const c) e b) = Some r /\
  (r = Pow (mkpower (Const c) e b) \/ exists w, r = Leaf (Const w) /\ (Qden (this e) = 1%positive \/ real_nonneg c) /\ is_power c e (if b then c_conj w else w)).
Proof.
  intros HV. unfold flatten. cbn [exponent base conjugated].
  assert (Twice : forall v, is_power c e v -> is_power c e (if b then c_conj (if b then c_conj v else v) else if b then c_conj v else v)) by (intros v Hv; destruct b; [now rewrite conj_conj|auto]).
  destruct (qeqb_spec e 1) as [->|He1].
  { eexists. split; [reflexivity|]. right. exists (if b then c_conj c else c). split; [now destruct b|]. split; [now left|]. apply Twice. split; [change (Pos.to_nat (Qden (this 1))) with 1%nat; reflexivity|auto]. }
  destruct (qeqb_spec e 0) as [->|He0].
  { eexists. split; [reflexivity|]. right. exists c1. split; [reflexivity|]. split; [now left|]. replace (if b then c_conj c1 else c1) with c1 by (destruct b; [now rewrite conj_one|auto]).
    split; [now rewrite cpow_one|intros _; apply nonneg_one]. }
  destruct (c_eqb c c1) eqn:Ec.
  { apply c_eqb_spec in Ec. subst c. eexists. split; [reflexivity|]. right. exists c1. split; [reflexivity|]. split; [right; apply nonneg_one|]. replace (if b then c_conj c1 else c1) with c1 by (destruct b; [now rewrite conj_one|auto]).
    split; [now rewrite cpow_one, zpow_one|intros _; apply nonneg_one]. }
  destruct (denominator e =? 1)%Z eqn:Ed.
  { apply Z.eqb_eq in Ed. unfold denominator in Ed. injection Ed as Ed.
    rewrite raise_pow by (intros Hn ->; apply num_neg in Hn; specialize (HV eq_refl); now apply Qcle_not_lt in HV).
    eexists. split; [reflexivity|]. right. eexists. split; [reflexivity|]. split; [now left|]. apply Twice. split; [rewrite Ed; change (Pos.to_nat 1) with 1%nat; cbn [cpow]; unfold numerator; ring|apply nonneg_zpow]. }
  destruct ((denominator e =? 2)%Z && qeqb (im c) 0 && negb (qltb (re c) 0)) eqn:E2; [|eexists; split; [reflexivity|now left]].
  apply andb_true_iff in E2 as [E2 E4]. apply andb_true_iff in E2 as [E2 E3]. apply Z.eqb_eq in E2. unfold denominator in E2. injection E2 as E2.
  destruct (qeqb_spec (im c) 0) as [E3'|]; [|discriminate]. apply negb_true_iff, qltb_ge in E4.
  destruct (Z.sqrtrem (numerator (re c))) as [pr prem] eqn:Ep. destruct (Z.sqrtrem (denominator (re c))) as [qr qrem] eqn:Eq.
  destruct (prem =? 0)%Z eqn:Z1; [|eexists; split; [reflexivity|now left]]. destruct (qrem =? 0)%Z eqn:Z2; [|eexists; split; [reflexivity|now left]]. cbn [negb orb].
  apply Z.eqb_eq in Z1, Z2. destruct (sqrtrem_root _ _ _ (num_nonneg _ E4) Ep Z1) as [P1 P2]. destruct (sqrtrem_root (denominator (re c)) _ _ ltac:(unfold denominator; lia) Eq Z2) as [Q1 Q2].
  pose proof (root_square _ _ _ P1 Q1) as Hs. cbv zeta in Hs. pose proof (root_nonneg pr qr P2 Q2) as Hs0. set (s := Q2Qc (inject_Z pr) / Q2Qc (inject_Z qr)) in *.
  assert (Hc : cpow (c_of s) 2 = c) by (rewrite (c_of_square _ _ Hs); now apply c_eq).
  assert (Hz : (Qnum (this e) < 0)%Z -> c_of s <> c0). { intros Hn C. apply num_neg in Hn. assert (c = c0) by (rewrite <- Hc, C; now apply cpow_zero). specialize (HV H). now apply Qcle_not_lt in HV. }
  rewrite raise_pow by exact Hz. eexists. split; [reflexivity|]. right. eexists. split; [reflexivity|]. split; [right; now split|]. apply Twice. split.
  - rewrite E2, <- Hc. change (Pos.to_nat 2) with 2%nat. symmetry. apply zpow_cpow. unfold numerator. destruct (Z.neg_nonneg_cases (Qnum (this e))); auto.
  - intros _. apply nonneg_zpow. split; [reflexivity|exact Hs0].
Qed.
Lemma flatten_var l a e b : flatten (mkpower (Var l a) e b) = Some (if qeqb e 1 then Leaf (Var l (if b then negb a else a)) else if qeqb e 0 then Leaf (Const c1) else Pow (mkpower (Var l a) e b)).
Proof. unfold flatten. cbn. destruct (qeqb e 1); [now destruct b|]. destruct (qeqb e 0); auto. Qed.

(** ** There is only one value *)
Lemma is_power_unique c e v v' : Qden (this e) = 1%positive \/ real_nonneg c -> is_power c e v -> is_power c e v' -> v = v'.
Proof.
  intros [H|H] [H1 N1] [H2 N2].
  - rewrite H in *. change (Pos.to_nat 1) with 1%nat in *. cbn [cpow] in H1, H2. transitivity (c_mul v c1); [ring|]. rewrite H1, <- H2. ring.
  - apply (root_unique v v' (Pos.to_nat (Qden (this e)))); auto; [lia|]. now rewrite H1, H2.
Qed.

(** ** Whatever can be folded is folded *)
Lemma square_parts (x w : Qc) : 0 <= x -> w * w = x -> exists a b, (a * a = Qnum (this x))%Z /\ (b * b = QDen (this x))%Z.
Proof.
  intros _ H. exists (Qnum (this w)), (QDen (this w)).
  assert (G : this x = (Qnum (this w) * Qnum (this w) # Qden (this w) * Qden (this w))).
  { rewrite <- H. change (this (w * w)) with (Qred (this w * this w)). rewrite Qred_identity; [destruct (this w); reflexivity|].
    cbn [Qnum Qden Qmult]. rewrite Pos2Z.inj_mul. pose proof (qc_coprime w) as Hg. apply Zgcd_1_rel_prime in Hg. apply Zgcd_1_rel_prime.
    apply rel_prime_mult; [|]; apply rel_prime_sym, rel_prime_mult; now apply rel_prime_sym. }
  rewrite G. cbn [Qnum Qden]. split; [reflexivity|]. now rewrite Pos2Z.inj_mul.
Qed.
Lemma odd_root c e v : real_nonneg c -> Qden (this e) = 2%positive -> is_power c e v -> c <> c0 -> exists w, real_nonneg w /\ cpow w 2 = c.
Proof.
  intros Hc Hd [Hv Hn] Hz. specialize (Hn Hc). rewrite Hd in Hv. change (Pos.to_nat 2) with 2%nat in Hv. pose proof (qc_coprime e) as Hg. rewrite Hd in Hg.
  assert (Ho : Z.odd (Qnum (this e)) = true).
  { destruct (Z.odd (Qnum (this e))) eqn:E; auto. exfalso. rewrite <- Z.negb_even in E. apply negb_false_iff, Z.even_spec in E as [k Hk]. rewrite Hk in Hg.
    assert (D : (2 | 1)%Z) by (rewrite <- Hg; apply Z.gcd_greatest; [exists k; ring|exists 1%Z; reflexivity]). apply Z.divide_1_r in D. lia. }
  apply Z.odd_spec in Ho as [k Hk]. rewrite Hk in Hv. exists (c_mul v (zpow c (- k))). split; [now apply nonneg_mul, nonneg_zpow|].
  rewrite cpow_prod, Hv, <- zpow_cpow by auto. clear -Hz.
  assert (G : forall n, c_mul (zpow c n) (zpow c (- n)) = c1) by (intros [|m|m]; cbn [zpow Z.opp]; [ring|apply inv_r|apply inv_l]; now apply cpow_nonzero).
  assert (S1 : zpow c (2 * k + 1) = c_mul c (zpow c (2 * k))).
  { destruct k as [|m|m].
    - change (2 * 0 + 1)%Z with 1%Z. change (2 * 0)%Z with 0%Z. reflexivity.
    - cbn [zpow Z.mul Z.add]. replace (Pos.to_nat (2 * m + 1)) with (S (Pos.to_nat (2 * m))) by lia. reflexivity.
    - replace (2 * Z.neg m + 1)%Z with (Z.neg (Pos.pred (2 * m))) by lia. replace (2 * Z.neg m)%Z with (Z.neg (2 * m)) by lia. cbn [zpow].
      assert (E : Pos.to_nat (2 * m) = S (Pos.to_nat (Pos.pred (2 * m)))) by lia. rewrite E. cbn [cpow]. rewrite inv_mul; auto; [|now apply cpow_nonzero].
      transitivity (c_mul (c_mul c (c_inv c)) (c_inv (cpow c (Pos.to_nat (Pos.pred (2 * m)))))); [rewrite inv_r by auto; ring|ring]. }
  rewrite S1. assert (S2 : zpow (cpow c 2) (- k) = zpow c (- (2 * k))).
  { rewrite zpow_cpow by auto. destruct k as [|m|m]; cbn [zpow Z.opp Z.mul]; [now rewrite cpow_one| |]; rewrite ?Pos2Nat.inj_mul, ?cpow_mul.
    - change (Pos.to_nat 2) with 2%nat. rewrite cpow_inv by now apply cpow_nonzero. f_equal. now rewrite <- !cpow_mul, Nat.mul_comm.
    - change (Pos.to_nat 2) with 2%nat. now rewrite <- !cpow_mul, Nat.mul_comm. }
  rewrite S2. transitivity (c_mul c (c_mul (zpow c (2 * k)) (zpow c (- (2 * k))))); [ring|]. rewrite G. ring.
Qed.
Lemma square_sqrtrem a n : (a * a = n)%Z -> snd (Z.sqrtrem n) = 0%Z.
Proof.
  intros H. assert (Hn : (0 <= n)%Z) by nia. pose proof (Z.sqrtrem_spec n Hn) as S. pose proof (Z.sqrtrem_sqrt n) as R. destruct (Z.sqrtrem n) as [r m]. cbn in *. destruct S as [S1 S2].
  assert (E : r = Z.abs a) by (rewrite R, <- H, <- (Z.abs_square a); apply Z.sqrt_square; lia). nia.
Qed.
Lemma flatten_complete c e b v : valid_power c e -> is_power c e v -> Qden (this e) = 1%positive \/ real_nonneg c /\ Qden (this e) = 2%positive ->
  exists w, flatten (mkpower (Const c) e b) = Some (Leaf (Const w)).
Proof.
  intros HV Hv Hcase. unfold flatten. cbn [exponent base conjugated]. destruct (qeqb e 1); [exists (if b then c_conj c else c); now destruct b|]. destruct (qeqb e 0); [eauto|].
  destruct (c_eqb c c1); [eauto|]. destruct Hcase as [Hd|[Hc Hd]]; unfold denominator at 1; rewrite Hd; cbn [Z.eqb Pos.eqb].
  - rewrite raise_pow by (intros Hn ->; apply num_neg in Hn; specialize (HV eq_refl); now apply Qcle_not_lt in HV). cbn. eauto.
  - unfold denominator at 1. rewrite Hd. cbn [Z.eqb Pos.eqb andb]. destruct Hc as [Hi Hr]. destruct (qeqb_spec (im c) 0); [|congruence]. apply (proj2 (qltb_ge _ _)) in Hr as Hr'. rewrite Hr'. cbn [negb andb].
    assert (G : exists a d, (a * a = numerator (re c))%Z /\ (d * d = denominator (re c))%Z).
    { destruct (c_is_zero c) eqn:Ez.
      - apply c_is_zero_spec in Ez. subst c. exists 0%Z, 1%Z. split; reflexivity.
      - assert (c <> c0) by (intros C; apply c_is_zero_spec in C; congruence). destruct (odd_root c e v (conj Hi Hr) Hd Hv H) as (w & Hw & Ew).
        apply (square_parts (re c) (re w)); auto. rewrite <- Ew. cbn. destruct Hw as [Hw _]. rewrite Hw. ring. }
    destruct G as (a & d & Ha & Hdd). pose proof (square_sqrtrem _ _ Ha) as S1. pose proof (square_sqrtrem _ _ Hdd) as S2.
    destruct (Z.sqrtrem (numerator (re c))) as [pr prem] eqn:Ep. destruct (Z.sqrtrem (denominator (re c))) as [qr qrem] eqn:Eq. cbn in S1, S2. subst prem qrem. cbn [Z.eqb negb orb].
    destruct (sqrtrem_root _ _ _ (num_nonneg _ Hr) Ep eq_refl) as [P1 P2]. destruct (sqrtrem_root (denominator (re c)) _ _ ltac:(unfold denominator; lia) Eq eq_refl) as [Q1 Q2].
    pose proof (root_square _ _ _ P1 Q1) as Hs. cbv zeta in Hs. rewrite raise_pow; [cbn; eauto|]. intros Hn C. apply num_neg in Hn.
    assert (Hcz : c = c0). { apply c_eq; [|exact Hi]. rewrite <- Hs. apply (f_equal re) in C. cbn in C |- *. rewrite C. reflexivity. }
    specialize (HV Hcz). now apply Qcle_not_lt in HV.
Qed.

(** ** operator*= *)
Lemma s_eqb_spec a b : s_eqb a b = true -> a = b.
Proof.
  destruct a as [x|l c], b as [y|l' c']; cbn; try discriminate; intros H; [apply c_eqb_spec in H; congruence|].
  apply andb_true_iff in H as [H1 H2]. apply Nat.eqb_eq in H1. apply Bool.eqb_prop in H2. congruence.
Qed.
Lemma mul_assign_value M p t r : laws M -> adds M (svalue M (base p)) (exponent p) (next_exponent t) -> mul_assign p t = Some r ->
  pvalue M r = times M (pvalue M p) (evalue M t).
Proof.
  intros HL HA H. unfold adds in HA. destruct p as [bs e cj]. cbn [base exponent] in *. unfold pvalue. destruct t as [t|[bq eq cq]]; cbn [mul_assign base exponent conjugated next_exponent evalue] in *.
  - assert (Gen : negb cj && s_eqb bs t = true -> pvalue M (mkpower bs (e + 1) cj) = times M (pvalue M (mkpower bs e cj)) (svalue M t)).
    { intros G. apply andb_true_iff in G as [G1 G2]. apply negb_true_iff in G1. apply s_eqb_spec in G2. subst. unfold pvalue. cbn [base exponent conjugated]. now rewrite HA, (pw_one _ HL). }
    destruct bs as [c|l c], t as [c'|l' c'].
    + destruct (negb cj && s_eqb (Const c) (Const c')); [|discriminate]. injection H as <-. now apply Gen.
    + destruct (negb cj && s_eqb (Const c) (Var l' c')); [|discriminate]. injection H as <-. now apply Gen.
    + destruct (negb cj && s_eqb (Var l c) (Const c')); [|discriminate]. injection H as <-. now apply Gen.
    + destruct ((l =? l')%nat && Bool.eqb (xorb c cj) c') eqn:E; [|discriminate]. injection H as <-. apply andb_true_iff in E as [E1 E2]. apply Nat.eqb_eq in E1. apply Bool.eqb_prop in E2. subst l' c'.
      cbn [base exponent conjugated]. rewrite HA, (pw_one _ HL). destruct cj; [|now rewrite xorb_false_r]. rewrite (bar_times _ HL). f_equal. rewrite xorb_true_r. cbn [svalue]. destruct c; cbn; [apply (bar_bar _ HL)|reflexivity].
  - destruct (Bool.eqb cj cq && s_eqb bs bq) eqn:E; [|discriminate]. injection H as <-. apply andb_true_iff in E as [E1 E2]. apply Bool.eqb_prop in E1. apply s_eqb_spec in E2. subst.
    unfold pvalue. cbn [base exponent conjugated]. rewrite HA. destruct cq; [apply (bar_times _ HL)|reflexivity].
Qed.
