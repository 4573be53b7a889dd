(** Proofs about to_rational. *)
From Coq Require Import List Bool Arith ZArith QArith Qcanon Qround Qabs Lqa Lia Znumtheory.
From Verif Require Import Num_Model.
Local Open Scope Q_scope.

Lemma qltb'_spec x y : qltb' x y = true <-> x < y.
Proof. unfold qltb'. rewrite Qlt_alt. destruct (x ?= y); split; intros; congruence. Qed.
Lemma qltb'_ge x y : qltb' x y = false <-> y <= x.
Proof.
  split; intros H.
  - apply Qnot_lt_le. intros C. apply qltb'_spec in C. congruence.
  - destruct (qltb' x y) eqn:E; auto. apply qltb'_spec in E. exfalso. lra.
Qed.
Lemma some_inj {A} (x y : A) : Some x = Some y -> x = y.
Proof. congruence. Qed.
Lemma inj_nonneg z : (0 <= z)%Z -> 0 <= inject_Z z.
Proof. intros H. change 0 with (inject_Z 0). now rewrite <- Zle_Qle. Qed.
Lemma Qfrac (q : Q) : q == inject_Z (Qnum q) / inject_Z (QDen q).
Proof. rewrite <- Qmake_Qdiv. now destruct q. Qed.
Lemma den_pos (q : Q) : 0 < inject_Z (QDen q).
Proof. unfold Qlt. cbn. lia. Qed.
Lemma frac_le (q x : Q) : inject_Z (QDen q) * x <= inject_Z (Qnum q) <-> x <= q.
Proof.
  pose proof (den_pos q) as P. rewrite (Qfrac q) at 3. split; intros H.
  - apply Qle_shift_div_l; auto. lra.
  - assert (E : inject_Z (Qnum q) == inject_Z (QDen q) * (inject_Z (Qnum q) / inject_Z (QDen q))) by (field; lra). rewrite E. apply Qmult_le_l; auto.
Qed.
Lemma frac_ge (q x : Q) : inject_Z (Qnum q) <= inject_Z (QDen q) * x <-> q <= x.
Proof.
  pose proof (den_pos q) as P. rewrite (Qfrac q) at 3. split; intros H.
  - apply Qle_shift_div_r; auto. lra.
  - assert (E : inject_Z (Qnum q) == inject_Z (QDen q) * (inject_Z (Qnum q) / inject_Z (QDen q))) by (field; lra). rewrite E. apply Qmult_le_l; auto.
Qed.

(** Whatever the loop returns is in the interval. *)
Lemma stern_brocot_in niter lo hi : forall lower upper m, stern_brocot niter lo hi lower upper = Some m -> lo <= m <= hi.
Proof.
  induction niter as [|n IH]; intros lower upper m H; cbn [stern_brocot] in H; [discriminate|]. set (mid := Qred _) in H.
  destruct (qltb' _ _) eqn:E1 in H; [eauto|]. destruct (qltb' _ _) eqn:E2 in H; [eauto|]. injection H as <-.
  apply qltb'_ge in E1, E2. split; [now apply frac_le|now apply frac_ge].
Qed.

(** Neighbours in the tree *)
Definition adjacent (p q : Q) : Prop := (Qnum q * QDen p - Qnum p * QDen q = 1)%Z.
Definition mediant (p q : Q) : Q := Qmake (Qnum p + Qnum q) (Qden p + Qden q).
Lemma mediant_red p q : adjacent p q -> Qred (mediant p q) = mediant p q.
Proof.
  unfold adjacent, mediant. intros H. apply Qred_identity. cbn [Qnum Qden]. apply Zgcd_1_rel_prime, bezout_rel_prime.
  apply (Bezout_intro _ _ _ (QDen p) (- Qnum p)). rewrite Pos2Z.inj_add. lia.
Qed.
Lemma adjacent_l p q : adjacent p q -> adjacent p (mediant p q).
Proof. unfold adjacent, mediant. cbn [Qnum Qden]. rewrite Pos2Z.inj_add. lia. Qed.
Lemma adjacent_r p q : adjacent p q -> adjacent (mediant p q) q.
Proof. unfold adjacent, mediant. cbn [Qnum Qden]. rewrite Pos2Z.inj_add. lia. Qed.
Lemma adjacent_gap p q : adjacent p q -> (q - p) * (inject_Z (QDen p) * inject_Z (QDen q)) == 1.
Proof.
  intros H. unfold adjacent in H. apply (f_equal inject_Z) in H. unfold Z.sub in H. rewrite inject_Z_plus, inject_Z_opp, !inject_Z_mult in H. change (inject_Z 1) with 1 in H.
  pose proof (den_pos p). pose proof (den_pos q). rewrite (Qfrac q) at 1. rewrite (Qfrac p) at 1. rewrite <- H. field. split; lra.
Qed.
(** A fraction strictly between neighbours has a denominator at least that of the mediant. *)
Lemma between p q x : adjacent p q -> p < x -> x < q -> (QDen p + QDen q <= QDen x)%Z.
Proof. unfold adjacent, Qlt. intros H H1 H2. nia. Qed.

Lemma stern_brocot_simplest niter lo hi : forall lower upper m, adjacent lower upper -> stern_brocot niter lo hi lower upper = Some m ->
  Qred m = m /\ forall x, lower < x -> x < upper -> lo <= x <= hi -> (QDen m <= QDen x)%Z.
Proof.
  induction niter as [|n IH]; intros lower upper m HA H; cbn [stern_brocot] in H; [discriminate|]. change (Qmake _ _) with (mediant lower upper) in H. rewrite (mediant_red _ _ HA) in H.
  destruct (qltb' _ _) eqn:E1 in H.
  - apply IH in H as [H1 H2]; [|now apply adjacent_l]. split; auto. intros x X1 X2 X3. apply H2; auto. apply qltb'_spec in E1.
    destruct (Qlt_le_dec x (mediant lower upper)) as [|G]; auto. exfalso. assert (mediant lower upper <= hi) by lra. apply frac_ge in H. lra.
  - destruct (qltb' _ _) eqn:E2 in H.
    + apply IH in H as [H1 H2]; [|now apply adjacent_r]. split; auto. intros x X1 X2 X3. apply H2; auto. apply qltb'_spec in E2.
      destruct (Qlt_le_dec (mediant lower upper) x) as [|G]; auto. exfalso. assert (lo <= mediant lower upper) by lra. apply frac_le in H. lra.
    + injection H as <-. split; [now apply mediant_red|]. intros x X1 X2 _. exact (between lower upper x HA X1 X2).
Qed.

(** The loop ends in time if the interval is wide enough. *)
Lemma stern_brocot_ends niter lo hi : forall lower upper, adjacent lower upper -> lower <= lo -> hi <= upper -> stern_brocot niter lo hi lower upper = None ->
  (hi - lo) * inject_Z (Z.of_nat niter + QDen lower + QDen upper - 1) <= 1.
Proof.
  induction niter as [|n IH]; intros lower upper HA H1 H2 H; cbn [stern_brocot] in H.
  - pose proof (adjacent_gap _ _ HA) as G. cbn [Z.of_nat]. destruct (Qlt_le_dec hi lo) as [L|L].
    + assert (0 <= inject_Z (0 + QDen lower + QDen upper - 1)) by (apply inj_nonneg; lia). nra.
    + assert (P : inject_Z (0 + QDen lower + QDen upper - 1) <= inject_Z (QDen lower) * inject_Z (QDen upper)) by (rewrite <- inject_Z_mult, <- Zle_Qle; nia).
      assert (0 <= inject_Z (QDen lower) * inject_Z (QDen upper)) by (rewrite <- inject_Z_mult; apply inj_nonneg; lia).
      apply Qle_trans with ((hi - lo) * (inject_Z (QDen lower) * inject_Z (QDen upper))); [apply Qmult_le_compat_nonneg; split; try lra|].
      { apply inj_nonneg; lia. }
      rewrite <- G. apply Qmult_le_compat_r; lra.
  - change (Qmake _ _) with (mediant lower upper) in H. rewrite (mediant_red _ _ HA) in H. destruct (qltb' _ _) eqn:E1 in H.
    + apply qltb'_spec in E1. assert (Hm : hi <= mediant lower upper) by (apply frac_le; lra). apply IH in H; auto; [|now apply adjacent_l].
      cbn [mediant Qden] in H. rewrite Pos2Z.inj_add in H. destruct (Qlt_le_dec hi lo) as [L|L].
      * assert (0 <= inject_Z (Z.of_nat (S n) + QDen lower + QDen upper - 1)) by (apply inj_nonneg; lia). nra.
      * eapply Qle_trans; [|exact H]. rewrite (Qmult_comm (hi - lo)), (Qmult_comm (hi - lo)). apply Qmult_le_compat_r; [|lra]. rewrite <- Zle_Qle. lia.
    + destruct (qltb' _ _) eqn:E2 in H; [|discriminate]. apply qltb'_spec in E2. assert (Hm : mediant lower upper <= lo) by (apply frac_ge; lra). apply IH in H; auto; [|now apply adjacent_r].
      cbn [mediant Qden] in H. rewrite Pos2Z.inj_add in H. destruct (Qlt_le_dec hi lo) as [L|L].
      * assert (0 <= inject_Z (Z.of_nat (S n) + QDen lower + QDen upper - 1)) by (apply inj_nonneg; lia). nra.
      * eapply Qle_trans; [|exact H]. rewrite (Qmult_comm (hi - lo)), (Qmult_comm (hi - lo)). apply Qmult_le_compat_r; [|lra]. rewrite <- Zle_Qle. lia.
Qed.

Lemma floor_frac t : 0 <= t - inject_Z (Qfloor t) /\ t - inject_Z (Qfloor t) < 1.
Proof. pose proof (Qfloor_le t). pose proof (Qlt_floor t) as G. rewrite inject_Z_plus in G. change (inject_Z 1) with 1 in G. lra. Qed.
Lemma shift_value (m : Q) b : Qred (Qmake (QDen m * b + Qnum m) (Qden m)) == inject_Z b + m.
Proof.
  rewrite Qred_correct. pose proof (Qfrac m) as E. rewrite Qmake_Qdiv, inject_Z_plus, inject_Z_mult. pose proof (den_pos m). set (n := inject_Z (Qnum m)) in *. set (d := inject_Z (QDen m)) in *. clearbody n d.
  rewrite E. field. lra.
Qed.
Lemma shift_red (m : Q) b : Qred m = m -> Qred (Qmake (QDen m * b + Qnum m) (Qden m)) = Qmake (QDen m * b + Qnum m) (Qden m).
Proof.
  intros H. apply Qred_identity. cbn [Qnum Qden]. apply Qred_identity2 in H. replace (QDen m * b + Qnum m)%Z with (Qnum m + b * QDen m)%Z by ring.
  rewrite Z.gcd_comm, Z.gcd_add_mult_diag_r, Z.gcd_comm. exact H.
Qed.
Lemma close x y d : - d <= x - y -> x - y <= d -> Qabs (x - y) <= d.
Proof. intros H1 H2. apply Qabs_Qle_condition. lra. Qed.

(** ** to_rational *)
Lemma to_rational_close rnd t eps N d r : 0 <= d -> d <= 1 -> (forall x, Qabs x <= 2 -> Qabs (rnd x - x) <= d) ->
  rnd (inject_Z (Qfloor t) + 1) == inject_Z (Qfloor t) + 1 -> 0 <= eps -> eps <= 1 -> to_rational rnd t eps N = Some r -> Qabs (r - t) <= eps + 2 * d.
Proof.
  intros Hd0 Hd1 Hr Hi He He1 H. unfold to_rational in H. destruct (Qeq_bool eps 0) eqn:E0.
  { injection H as <-. apply close; rewrite Qred_correct; lra. }
  destruct (floor_frac t) as [F1 F2]. set (b := Qfloor t) in *. set (f := rnd (t - inject_Z b)) in *.
  assert (Gf : - d <= f - (t - inject_Z b) /\ f - (t - inject_Z b) <= d) by (apply Qabs_Qle_condition, Hr, Qabs_Qle_condition; lra).
  assert (G1 : - d <= rnd (1 - eps) - (1 - eps) /\ rnd (1 - eps) - (1 - eps) <= d) by (apply Qabs_Qle_condition, Hr, Qabs_Qle_condition; lra).
  destruct (qltb' f eps) eqn:E1.
  { injection H as <-. apply qltb'_spec in E1. apply close; lra. }
  apply qltb'_ge in E1. destruct (qltb' (rnd (1 - eps)) f) eqn:E2.
  { injection H as <-. apply qltb'_spec in E2. apply close; rewrite Hi; lra. }
  apply qltb'_ge in E2. destruct (stern_brocot N _ _ 0 1) as [m|] eqn:Es; [|discriminate]. apply some_inj in H. subst r. apply stern_brocot_in in Es.
  assert (G2 : - d <= rnd (f - eps) - (f - eps) /\ rnd (f - eps) - (f - eps) <= d) by (apply Qabs_Qle_condition, Hr, Qabs_Qle_condition; lra).
  assert (G3 : - d <= rnd (f + eps) - (f + eps) /\ rnd (f + eps) - (f + eps) <= d) by (apply Qabs_Qle_condition, Hr, Qabs_Qle_condition; lra).
  pose proof (shift_value m b) as Sv. apply close; lra.
Qed.
Lemma adjacent_01 : adjacent 0 1.
Proof. reflexivity. Qed.
Lemma to_rational_simplest t eps N r x : 0 < eps -> to_rational (fun q => q) t eps N = Some r -> Qabs (x - t) < eps -> (QDen r <= QDen x)%Z.
Proof.
  intros He H Hx. unfold to_rational in H. destruct (Qeq_bool eps 0) eqn:E0; [apply Qeq_bool_eq in E0; lra|].
  set (b := Qfloor t) in *. destruct (qltb' (t - inject_Z b) eps) eqn:E1.
  { injection H as <-. cbn. lia. }
  apply qltb'_ge in E1. destruct (qltb' (1 - eps) (t - inject_Z b)) eqn:E2.
  { injection H as <-. cbn. lia. }
  apply qltb'_ge in E2. destruct (stern_brocot N _ _ 0 1) as [m|] eqn:Es; [|discriminate]. apply some_inj in H. subst r.
  destruct (stern_brocot_simplest _ _ _ _ _ _ adjacent_01 Es) as [Hm Hs]. rewrite shift_red by auto. cbn [Qden].
  apply Qabs_Qlt_condition in Hx. set (y := Qmake (Qnum x - QDen x * b) (Qden x)). change (QDen x) with (QDen y).
  assert (Ey : y == x - inject_Z b). { unfold y. rewrite Qmake_Qdiv. unfold Z.sub. rewrite inject_Z_plus, inject_Z_opp, inject_Z_mult. pose proof (Qfrac x) as E. pose proof (den_pos x) as P. clear -E P. set (n := inject_Z (Qnum x)) in *. set (d := inject_Z (QDen x)) in *. clearbody n d. rewrite E. field. lra. }
  apply Hs; rewrite ?Ey; lra.
Qed.
Lemma to_rational_ends t eps N : 0 <= eps -> 1 < 2 * eps * inject_Z (Z.of_nat (S N)) \/ eps == 0 -> to_rational (fun q => q) t eps N <> None.
Proof.
  intros He HN H. unfold to_rational in H. destruct (Qeq_bool eps 0) eqn:E0; [discriminate|]. apply Qeq_bool_neq in E0. destruct HN as [HN|HN]; [|contradiction].
  set (b := Qfloor t) in *. destruct (qltb' (t - inject_Z b) eps) eqn:E1; [discriminate|]. apply qltb'_ge in E1. destruct (qltb' (1 - eps) (t - inject_Z b)) eqn:E2; [discriminate|]. apply qltb'_ge in E2.
  destruct (stern_brocot N _ _ 0 1) as [m|] eqn:Es; [discriminate|]. apply stern_brocot_ends in Es; [|apply adjacent_01|lra|lra].
  replace (Z.of_nat N + QDen 0 + QDen 1 - 1)%Z with (Z.of_nat (S N)) in Es by (cbn [Qden]; lia). set (k := inject_Z (Z.of_nat (S N))) in *.
  assert (E : (t - inject_Z b + eps - (t - inject_Z b - eps)) * k == 2 * eps * k) by ring. rewrite E in Es. lra.
Qed.
