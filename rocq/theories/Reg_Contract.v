(** Lemmas about deciding and forming the contraction of two operators. *)
From Coq Require Import List NArith Bool Arith Lia FinFun.
From Verif Require Import Reg_Model Reg_Spec Reg_Proofs.
Import ListNotations.
Open Scope N_scope.

(** ** Enumerations of states *)

Lemma bits_in n k : In k (bits n) <-> N.testbit n k = true.
Proof.
  unfold bits. rewrite filter_In. split; [tauto|]. intros H. split; auto.
  apply in_map_iff. exists (N.to_nat k). split; [apply N2Nat.id|]. apply in_seq. split; [lia|].
  cbn. assert (k < N.size n); [|lia].
  destruct (N.eq_dec n 0) as [->|E]; [rewrite N.bits_0 in H; discriminate|].
  rewrite N.size_log2 by exact E. destruct (N.le_gt_cases k (N.log2 n)); [lia|].
  rewrite N.bits_above_log2 in H by lia. discriminate.
Qed.

Lemma bits_nodup n : NoDup (bits n).
Proof.
  unfold bits. apply NoDup_filter. apply Injective_map_NoDup; [|apply seq_NoDup].
  intros a b H. lia.
Qed.

Lemma list_prod_nodup {A B} (l : list A) (m : list B) : NoDup l -> NoDup m -> NoDup (list_prod l m).
Proof.
  intros Hl Hm. induction l as [|x l IH]; cbn; [constructor|]. inversion Hl; subst.
  assert (HH : forall (u v : list (A * B)), NoDup u -> NoDup v -> (forall z, In z u -> ~ In z v) -> NoDup (u ++ v)).
  { induction u as [|z u IHu]; cbn; intros v Hu Hv D; auto. inversion Hu; subst. constructor.
    - rewrite in_app_iff. intros [HI|HI]; [contradiction|]. apply (D z); auto.
    - apply IHu; auto. }
  apply HH; auto.
  - apply Injective_map_NoDup; auto. intros a b E. congruence.
  - intros [a b] Hz. apply in_map_iff in Hz as [y [E _]]. inversion E; subst. rewrite in_prod_iff. tauto.
Qed.

Lemma states_nodup s : NoDup (states s).
Proof.
  unfold states. apply list_prod_nodup; [apply bits_nodup|]. destruct (sqn s =? 0).
  - constructor; [tauto|constructor].
  - apply Injective_map_NoDup; [|apply bits_nodup]. intros a b E. congruence.
Qed.

Lemma states_in s x : In x (states s) <-> in_space x s.
Proof.
  destruct x as [i m]. unfold states, in_space, state. rewrite in_prod_iff, bits_in. cbn.
  destruct (sqn s =? 0) eqn:E.
  - apply N.eqb_eq in E. rewrite E. destruct m as [m|]; cbn.
    + split; [intros [_ [H|[]]]; discriminate|intros [_ H]; discriminate].
    + tauto.
  - apply N.eqb_neq in E. rewrite in_map_iff. destruct m as [m|]; split.
    + intros [H [k [H1 H2]]]. inversion H1; subst. apply bits_in in H2. auto.
    + intros [H H1]. split; auto. exists m. split; auto. apply bits_in. exact H1.
    + intros [H [k [H1 H2]]]. discriminate.
    + intros [_ H]. congruence.
Qed.

Lemma state_eqb_eq x y : state_eqb x y = true <-> x = y.
Proof.
  destruct x as [i m], y as [j n]. unfold state_eqb. cbn. rewrite andb_true_iff, N.eqb_eq.
  destruct m, n; rewrite ?N.eqb_eq; split; intros H; try congruence; try (destruct H; congruence); try discriminate;
    inversion H; auto.
Qed.

Lemma state_eqb_refl x : state_eqb x x = true.
Proof. apply state_eqb_eq. reflexivity. Qed.

Lemma sum_cons n l : sum (n :: l) = (n + sum l)%nat.
Proof. reflexivity. Qed.

Lemma sum_zero (F : state -> nat) l : (forall z, In z l -> F z = 0%nat) -> sum (map F l) = 0%nat.
Proof.
  induction l as [|z l IH]; intros H; auto. cbn [map]. rewrite sum_cons.
  rewrite (H z) by (left; reflexivity). rewrite IH; auto. intros w Hw. apply H. right. exact Hw.
Qed.

Lemma sum_pick (F : state -> nat) x l :
  NoDup l -> (forall z, z <> x -> F z = 0%nat) ->
  sum (map F l) = if existsb (state_eqb x) l then F x else 0%nat.
Proof.
  intros Hl H. induction l as [|z l IH]; auto. inversion Hl; subst. cbn [map existsb]. rewrite sum_cons.
  destruct (state_eqb x z) eqn:E; cbn [orb].
  - apply state_eqb_eq in E. subst z. rewrite sum_zero; [lia|].
    intros w Hw. apply H. intros ->. contradiction.
  - rewrite (H z) by (intros ->; rewrite state_eqb_refl in E; discriminate). cbn [Nat.add]. apply IH. assumption.
Qed.

Lemma existsb_states x s : existsb (state_eqb x) (states s) = true <-> in_space x s.
Proof.
  rewrite existsb_exists, <- states_in. split.
  - intros [y [H1 H2]]. apply state_eqb_eq in H2. congruence.
  - intros H. exists x. split; auto. apply state_eqb_refl.
Qed.

(** ** Occupied and unoccupied spaces *)

Lemma vacuum_occupied_ret r q o :
  vacuum_occupied r q = Ret o -> registered r o /\ sty o = vacocc r /\ sqn o = q.
Proof. unfold vacuum_occupied. destruct (vacocc r =? 0); [discriminate|]. apply retrieve_ret. Qed.

Lemma xor_and_ldiff c o : N.land (N.lxor c o) c = N.ldiff c o.
Proof.
  apply N.bits_inj. intros k. rewrite N.land_spec, N.lxor_spec, N.ldiff_spec.
  destruct (N.testbit c k), (N.testbit o k); reflexivity.
Qed.

Lemma vacuum_unoccupied_ret r q u :
  vacuum_unoccupied r q = Ret u -> registered r u /\ sty u = N.ldiff (complete r) (vacocc r) /\ sqn u = q.
Proof.
  unfold vacuum_unoccupied. intros H. apply bind_ret in H as [c [Hc H]]. apply bind_ret in H as [o [Ho H]].
  unfold complete_space in Hc. destruct (complete r =? 0); [discriminate|].
  apply retrieve_ret in Hc as (_ & Hc & _). apply vacuum_occupied_ret in Ho as (_ & Ho & _).
  apply retrieve_ret in H as (H1 & H2 & H3). rewrite Hc, Ho, xor_and_ldiff in H2. auto.
Qed.

(** the basis subspaces that give a nonzero contraction with an operator on the left *)
Definition hot (r : reg) (left_creates : bool) : N :=
  if left_creates then vacocc r else N.ldiff (complete r) (vacocc r).

Lemma is_qpannihilator_ret r a u :
  is_qpannihilator r a = Ret u -> u = negb (N.land (sty (osp a)) (hot r (ocr a)) =? 0).
Proof.
  unfold is_qpannihilator, either, hot. intros H. apply bind_ret in H as [v [Hv H]].
  unfold contains_occupied in Hv. apply bind_ret in Hv as [o [Ho Hv]]. apply vacuum_occupied_ret in Ho as (_ & Ho & _).
  inversion Hv; subst v. clear Hv. rewrite Ho in H. destruct (ocr a); cbn [negb andb] in *.
  - rewrite andb_true_r in H. destruct (negb _) eqn:E; [inversion H; auto|].
    apply bind_ret in H as [w [Hw H]]. rewrite andb_false_r in H. inversion H. auto.
  - rewrite andb_false_r in H. apply bind_ret in H as [w [Hw H]]. rewrite andb_true_r in H. inversion H; subst w.
    unfold contains_unoccupied in Hw. apply bind_ret in Hw as [o' [Ho' Hw]].
    apply vacuum_unoccupied_ret in Ho' as (_ & Ho' & _). rewrite Ho' in Hw. inversion Hw. auto.
Qed.

Lemma is_qpcreator_ret r b u :
  is_qpcreator r b = Ret u -> u = negb (N.land (sty (osp b)) (hot r (negb (ocr b))) =? 0).
Proof.
  unfold is_qpcreator, either, hot. intros H. apply bind_ret in H as [v [Hv H]].
  unfold contains_occupied in Hv. apply bind_ret in Hv as [o [Ho Hv]]. apply vacuum_occupied_ret in Ho as (_ & Ho & _).
  inversion Hv; subst v. clear Hv. rewrite Ho in H. destruct (ocr b); cbn [negb andb] in *.
  - rewrite andb_false_r in H. apply bind_ret in H as [w [Hw H]]. rewrite andb_true_r in H. inversion H; subst w.
    unfold contains_unoccupied in Hw. apply bind_ret in Hw as [o' [Ho' Hw]].
    apply vacuum_unoccupied_ret in Ho' as (_ & Ho' & _). rewrite Ho' in Hw. inversion Hw. auto.
  - rewrite andb_true_r in H. destruct (negb _) eqn:E; [inversion H; auto|].
    apply bind_ret in H as [w [Hw H]]. rewrite andb_false_r in H. inversion H. auto.
Qed.

(** the intersection with a space of the same quantum numbers *)
Lemma intersection_same r a v x :
  unambiguous r -> registered r a -> registered r v -> sqn v = sqn a -> intersection r a v = Ret x ->
  sty x = N.land (sty a) (sty v) /\ (sty x <> 0 -> registered r x /\ sqn x = sqn a).
Proof.
  intros W Ha Hv E H. destruct (intersection_ret r a v x W Ha Hv H) as [[-> ->]|[(H1 & H2 & _)|[_ [(H1 & H2 & H3)|(H1 & H2 & _)]]]].
  - rewrite N.land_diag. auto.
  - congruence.
  - auto.
  - subst x. cbn. split; auto. intros HH. contradiction HH. reflexivity.
Qed.

Lemma qpannihilator_space_ret r a x :
  unambiguous r -> registered r (osp a) -> qpannihilator_space r a = Ret x ->
  sty x = N.land (sty (osp a)) (hot r (ocr a)) /\ (sty x <> 0 -> registered r x /\ sqn x = sqn (osp a)).
Proof.
  intros W Ha H. unfold qpannihilator_space in H. apply bind_ret in H as [v [Hv H]]. unfold hot.
  assert (HH : registered r v /\ sty v = hot r (ocr a) /\ sqn v = sqn (osp a)).
  { unfold hot. destruct (ocr a); [apply vacuum_occupied_ret in Hv|apply vacuum_unoccupied_ret in Hv]; exact Hv. }
  destruct HH as (H1 & H2 & H3). fold (hot r (ocr a)). rewrite <- H2. apply (intersection_same r (osp a) v x); auto.
Qed.

Lemma qpcreator_space_ret r b x :
  unambiguous r -> registered r (osp b) -> qpcreator_space r b = Ret x ->
  sty x = N.land (sty (osp b)) (hot r (negb (ocr b))) /\ (sty x <> 0 -> registered r x /\ sqn x = sqn (osp b)).
Proof.
  intros W Hb H. unfold qpcreator_space in H. apply bind_ret in H as [v [Hv H]].
  assert (HH : registered r v /\ sty v = hot r (negb (ocr b)) /\ sqn v = sqn (osp b)).
  { unfold hot. destruct (ocr b); cbn [negb]; [apply vacuum_unoccupied_ret in Hv|apply vacuum_occupied_ret in Hv]; exact Hv. }
  destruct HH as (H1 & H2 & H3). rewrite <- H2. apply (intersection_same r (osp b) v x); auto.
Qed.

(** ** can_contract *)

(** No registered space other than the null space has a null type. *)
Definition proper (r : reg) : Prop := forall s, registered r s -> sty s = 0 -> is_null s = true.

Lemma common_ret r a b x y c :
  unambiguous r -> proper r -> registered r (osp a) -> registered r (osp b) ->
  qpannihilator_space r a = Ret x -> qpcreator_space r b = Ret y ->
  N.land (sty (osp a)) (hot r (ocr a)) <> 0 -> N.land (sty (osp b)) (hot r (negb (ocr b))) <> 0 ->
  intersection r x y = Ret c ->
  (is_null c = false ->
     sty c = N.land (N.land (sty (osp a)) (hot r (ocr a))) (N.land (sty (osp b)) (hot r (negb (ocr b)))) /\
     sty c <> 0 /\
     sqn c = sqn (osp a) /\ (sqn (osp a) = sqn (osp b) \/ N.land (sqn (osp a)) (sqn (osp b)) <> 0)) /\
  (is_null c = true ->
     N.land (N.land (sty (osp a)) (hot r (ocr a))) (N.land (sty (osp b)) (hot r (negb (ocr b)))) = 0 \/
     (sqn (osp a) <> sqn (osp b) /\ N.land (sqn (osp a)) (sqn (osp b)) = 0)).
Proof.
  intros W P Ha Hb Hx Hy Na Nb Hc.
  apply qpannihilator_space_ret in Hx as [Hx Rx]; auto. apply qpcreator_space_ret in Hy as [Hy Ry]; auto.
  rewrite <- Hx in Na |- *. rewrite <- Hy in Nb |- *. apply Rx in Na as [Rx1 Rx2]. apply Ry in Nb as [Ry1 Ry2].
  destruct (intersection_ret r x y c W Rx1 Ry1 Hc) as [[E ->]|[(H1 & H2 & ->)|[H [(H1 & H2 & H3)|(H1 & H2 & H3)]]]].
  - subst y. rewrite N.land_diag. split.
    + intros HN. assert (sty x <> 0). { intros HZ. rewrite (P x Rx1 HZ) in HN. discriminate. }
      split; [reflexivity|]. split; [assumption|]. split; [exact Rx2|]. left. congruence.
    + intros HN. left. apply is_null_iff in HN. tauto.
  - rewrite null_null. split; [discriminate|]. intros _. right. rewrite Rx2, Ry2 in *. auto.
  - split.
    + intros HN. split; [exact H2|]. split; [intros HZ; rewrite (P c H1 HZ) in HN; discriminate|].
      split; [congruence|]. rewrite Rx2, Ry2 in H. exact H.
    + intros HN. left. apply is_null_iff in HN. rewrite <- H2. tauto.
  - subst c. rewrite null_null. split; [discriminate|]. auto.
Qed.

(** a state shared by two spaces *)
Lemma shared_state (A B : space) h :
  (sqn A = sqn B \/ N.land (sqn A) (sqn B) <> 0) -> N.land (N.land (sty A) h) (sty B) <> 0 ->
  exists x, in_space x A /\ in_space x B /\ N.testbit h (fst x) = true.
Proof.
  intros Q T. apply nonzero_bit in T as [k Hk]. rewrite !N.land_spec, !andb_true_iff in Hk.
  destruct Hk as [[H1 H2] H3]. destruct (N.eq_dec (sqn A) (sqn B)) as [E|E].
  - destruct (N.eq_dec (sqn A) 0) as [Z|Z].
    + exists (k, None). unfold in_space. cbn. rewrite <- E. auto.
    + apply nonzero_bit in Z as [j Hj]. exists (k, Some j). unfold in_space. cbn. rewrite <- E. auto.
  - destruct Q as [Q|Q]; [contradiction|]. apply nonzero_bit in Q as [j Hj]. rewrite N.land_spec, andb_true_iff in Hj.
    exists (k, Some j). unfold in_space. cbn. tauto.
Qed.

Lemma shared_qns (A B : space) x : in_space x A -> in_space x B -> sqn A = sqn B \/ N.land (sqn A) (sqn B) <> 0.
Proof.
  destruct x as [i [m|]]; intros [_ H1] [_ H2]; cbn in *; [|left; congruence].
  right. intros Z. apply (proj1 (land_zero_bits _ _) Z m). auto.
Qed.

(** hot subspaces and the vacuum expectation value *)
Lemma vev_hot r a_cr b_cr x :
  N.testbit (complete r) (fst x) = true ->
  vev (vacocc r) a_cr b_cr x x = 1%nat <->
  (N.testbit (hot r a_cr) (fst x) = true /\ N.testbit (hot r (negb b_cr)) (fst x) = true).
Proof.
  intros C. unfold vev, hot. rewrite state_eqb_refl. destruct a_cr, b_cr; cbn [negb];
    rewrite ?N.ldiff_spec, ?C; destruct (N.testbit (vacocc r) (fst x)); cbn; split; intros H; try discriminate; try tauto; auto;
      destruct H; discriminate.
Qed.

(** The set of spaces in which everything is defined and complete. *)
Definition within (r : reg) (s : space) : Prop := N.land (sty s) (complete r) = sty s.

Lemma within_bit r s k : within r s -> N.testbit (sty s) k = true -> N.testbit (complete r) k = true.
Proof.
  intros H Hk. rewrite <- H, N.land_spec, andb_true_iff in Hk. tauto.
Qed.

Lemma can_contract_ret r a b v :
  unambiguous r -> proper r -> registered r (osp a) -> registered r (osp b) ->
  within r (osp a) -> within r (osp b) ->
  can_contract r a b = Ret v ->
  (v = true <-> exists x, in_space x (osp a) /\ in_space x (osp b) /\ vev (vacocc r) (ocr a) (ocr b) x x = 1%nat).
Proof.
  intros W P Ha Hb Ca Cb H. unfold can_contract in H.
  assert (NO : forall x, in_space x (osp a) -> in_space x (osp b) -> vev (vacocc r) (ocr a) (ocr b) x x = 1%nat ->
    N.land (N.land (sty (osp a)) (hot r (ocr a))) (N.land (sty (osp b)) (hot r (negb (ocr b)))) <> 0 /\
    N.land (sty (osp a)) (hot r (ocr a)) <> 0 /\ N.land (sty (osp b)) (hot r (negb (ocr b))) <> 0 /\
    (sqn (osp a) = sqn (osp b) \/ N.land (sqn (osp a)) (sqn (osp b)) <> 0)).
  { intros x H1 H2 H3. assert (C : N.testbit (complete r) (fst x) = true).
    { eapply within_bit; [exact Ca|]. apply H1. }
    apply (vev_hot r (ocr a) (ocr b) x C) in H3 as [H3 H4].
    assert (A1 : N.testbit (sty (osp a)) (fst x) = true) by apply H1.
    assert (A2 : N.testbit (sty (osp b)) (fst x) = true) by apply H2.
    repeat split.
    - intros Z. assert (E := f_equal (fun n => N.testbit n (fst x)) Z). cbv beta in E.
      rewrite !N.land_spec, A1, A2, H3, H4, N.bits_0 in E. discriminate.
    - intros Z. assert (E := f_equal (fun n => N.testbit n (fst x)) Z). cbv beta in E.
      rewrite !N.land_spec, A1, H3, N.bits_0 in E. discriminate.
    - intros Z. assert (E := f_equal (fun n => N.testbit n (fst x)) Z). cbv beta in E.
      rewrite !N.land_spec, A2, H4, N.bits_0 in E. discriminate.
    - eapply shared_qns; eauto. }
  apply bind_ret in H as [u [Hu H]]. apply is_qpannihilator_ret in Hu.
  destruct u; cbn [negb] in H.
  2: { inversion H; subst v. split; [discriminate|]. intros [x (H1 & H2 & H3)].
       destruct (NO x H1 H2 H3) as (_ & N1 & _). symmetry in Hu. apply negb_false_iff, N.eqb_eq in Hu. contradiction. }
  symmetry in Hu. apply negb_true_iff, N.eqb_neq in Hu.
  apply bind_ret in H as [w [Hw H]]. apply is_qpcreator_ret in Hw.
  destruct w; cbn [negb] in H.
  2: { inversion H; subst v. split; [discriminate|]. intros [x (H1 & H2 & H3)].
       destruct (NO x H1 H2 H3) as (_ & _ & N1 & _). symmetry in Hw. apply negb_false_iff, N.eqb_eq in Hw. contradiction. }
  symmetry in Hw. apply negb_true_iff, N.eqb_neq in Hw.
  apply bind_ret in H as [x [Hx H]]. apply bind_ret in H as [y [Hy H]]. apply bind_ret in H as [c [Hc H]].
  inversion H; subst v. clear H.
  destruct (common_ret r a b x y c W P Ha Hb Hx Hy Hu Hw Hc) as [C1 C2].
  destruct (is_null c) eqn:E; cbn [negb].
  - split; [discriminate|]. intros [z (H1 & H2 & H3)]. destruct (NO z H1 H2 H3) as (N1 & _ & _ & N2).
    destruct (C2 eq_refl) as [Z|[Z1 Z2]]; [contradiction|]. destruct N2; contradiction.
  - split; [intros _|reflexivity]. destruct (C1 eq_refl) as (T & T0 & _ & Q). rewrite T in T0.
    destruct (shared_state (osp a) (osp b) (N.land (hot r (ocr a)) (hot r (negb (ocr b)))) Q) as [z (Z1 & Z2 & Z3)].
    { intros Z. apply T0. apply N.bits_inj. intros k. rewrite N.bits_0.
      assert (E2 := f_equal (fun n => N.testbit n k) Z). cbv beta in E2. rewrite N.bits_0 in E2. rewrite !N.land_spec in E2 |- *.
      destruct (N.testbit (sty (osp a)) k), (N.testbit (sty (osp b)) k), (N.testbit (hot r (ocr a)) k), (N.testbit (hot r (negb (ocr b))) k); auto. }
    exists z. split; auto. split; auto. rewrite N.land_spec, andb_true_iff in Z3. apply vev_hot; [|exact Z3].
    eapply within_bit; [exact Ca|]. apply Z1.
Qed.

(** ** contract *)

(** The occupied subspaces come first. *)
Definition occupied_first (r : reg) : Prop := exists k, vacocc r = N.ones k.

Lemma le_ones_sub t k j : t <= N.ones k -> N.testbit t j = true -> N.testbit (N.ones k) j = true.
Proof.
  intros H Hj. destruct (N.lt_ge_cases j k) as [L|L]; [apply N.ones_spec_low; exact L|].
  exfalso. assert (t <> 0) by (intros ->; rewrite N.bits_0 in Hj; discriminate).
  assert (N.log2 t < k). { apply N.log2_lt_pow2; [lia|]. rewrite N.ones_equiv in H. assert (2 ^ k <> 0) by (apply N.pow_nonzero; lia). lia. }
  rewrite N.bits_above_log2 in Hj by lia. discriminate.
Qed.

Lemma Ret_inj {X} (a b : X) : Ret a = Ret b -> a = b.
Proof. congruence. Qed.

Lemma pure_left r a :
  occupied_first r -> within r (osp a) -> is_pure_qpannihilator r a = Ret true ->
  forall k, N.testbit (sty (osp a)) k = true -> N.testbit (hot r (ocr a)) k = true.
Proof.
  intros [n O] C H k Hk. unfold is_pure_qpannihilator, either in H. apply bind_ret in H as [v [Hv H]].
  unfold hot. destruct (ocr a); cbn [negb] in *.
  - rewrite andb_false_r in H. apply bind_ret in H as [w [Hw H]]. rewrite andb_true_r in H. apply Ret_inj in H; subst w.
    unfold is_pure_occupied in Hw. destruct (is_null (osp a)); [discriminate|].
    apply bind_ret in Hw as [o [Ho Hw]]. apply vacuum_occupied_ret in Ho as (_ & Ho & _). assert (L := Ret_inj _ _ Hw).
    apply N.leb_le in L. rewrite Ho, O in L. rewrite O. eapply le_ones_sub; eauto.
  - destruct (v && true) eqn:E.
    + rewrite andb_true_r in E. subst v. unfold is_pure_unoccupied in Hv. destruct (is_null (osp a)); [discriminate|].
      apply bind_ret in Hv as [o [Ho Hv]]. apply vacuum_occupied_ret in Ho as (_ & Ho & _). assert (L := Ret_inj _ _ Hv).
      apply N.eqb_eq in L. rewrite Ho in L. rewrite N.ldiff_spec, (within_bit r _ _ C Hk). cbn.
      destruct (N.testbit (vacocc r) k) eqn:E; auto. exfalso. apply (proj1 (land_zero_bits _ _) L k). auto.
    + apply bind_ret in H as [w [Hw H]]. rewrite andb_false_r in H. discriminate.
Qed.

Lemma pure_right r b :
  occupied_first r -> within r (osp b) -> is_pure_qpcreator r b = Ret true ->
  forall k, N.testbit (sty (osp b)) k = true -> N.testbit (hot r (negb (ocr b))) k = true.
Proof.
  intros [n O] C H k Hk. unfold is_pure_qpcreator, either in H. apply bind_ret in H as [v [Hv H]].
  unfold hot. destruct (ocr b); cbn [negb] in *.
  - rewrite andb_false_r in H. apply bind_ret in H as [w [Hw H]]. rewrite andb_true_r in H. apply Ret_inj in H; subst w.
    unfold is_pure_unoccupied in Hw. destruct (is_null (osp b)); [discriminate|].
    apply bind_ret in Hw as [o [Ho Hw]]. apply vacuum_occupied_ret in Ho as (_ & Ho & _). assert (L := Ret_inj _ _ Hw).
    apply N.eqb_eq in L. rewrite Ho in L. rewrite N.ldiff_spec, (within_bit r _ _ C Hk). cbn.
    destruct (N.testbit (vacocc r) k) eqn:E; auto. exfalso. apply (proj1 (land_zero_bits _ _) L k). auto.
  - destruct (v && true) eqn:E.
    + rewrite andb_true_r in E. subst v. unfold is_pure_occupied in Hv. destruct (is_null (osp b)); [discriminate|].
      apply bind_ret in Hv as [o [Ho Hv]]. apply vacuum_occupied_ret in Ho as (_ & Ho & _). assert (L := Ret_inj _ _ Hv).
      apply N.leb_le in L. rewrite Ho, O in L. rewrite O. eapply le_ones_sub; eauto.
    + apply bind_ret in H as [w [Hw H]]. rewrite andb_false_r in H. discriminate.
Qed.

Definition delta (x y : state) : nat := if state_eqb x y then 1%nat else 0%nat.

Lemma state_eqb_sym x y : state_eqb x y = state_eqb y x.
Proof.
  destruct (state_eqb x y) eqn:E1; destruct (state_eqb y x) eqn:E2; auto.
  - apply state_eqb_eq in E1. subst. rewrite state_eqb_refl in E2. discriminate.
  - apply state_eqb_eq in E2. subst. rewrite state_eqb_refl in E1. discriminate.
Qed.

Lemma delta_sym x y : delta x y = delta y x.
Proof. unfold delta. rewrite state_eqb_sym. reflexivity. Qed.

Lemma delta_neq x y : x <> y -> delta x y = 0%nat.
Proof. intros H. unfold delta. destruct (state_eqb x y) eqn:E; auto. apply state_eqb_eq in E. contradiction. Qed.

Lemma delta_refl x : delta x x = 1%nat.
Proof. unfold delta. rewrite state_eqb_refl. reflexivity. Qed.

Definition within_c (c : space) (x y : state) : nat := if existsb (state_eqb x) (states c) then delta x y else 0%nat.

Lemma sum_one n : sum [n] = n.
Proof. cbn. lia. Qed.

Lemma sum_ext {X} (F G : X -> nat) l : (forall z, F z = G z) -> sum (map F l) = sum (map G l).
Proof. intros H. f_equal. apply map_ext. exact H. Qed.

Lemma sum_within_l c x y : sum (map (fun l => delta l y * (delta x l * 1))%nat (states c)) = within_c c x y.
Proof.
  rewrite (sum_pick _ x); [|apply states_nodup|].
  - unfold within_c. rewrite delta_refl. destruct (existsb _ _); lia.
  - intros z Hz. rewrite (delta_neq x z) by congruence. lia.
Qed.

Lemma sum_within_r c x y : sum (map (fun r => delta x r * (delta r y * 1))%nat (states c)) = within_c c x y.
Proof.
  rewrite (sum_pick _ x); [|apply states_nodup|].
  - unfold within_c. rewrite delta_refl. destruct (existsb _ _); lia.
  - intros z Hz. rewrite (delta_neq x z) by congruence. lia.
Qed.

Lemma sum_within_lr c x y :
  sum (map (fun l => sum (map (fun r => delta l r * (delta x l * (delta r y * 1)))%nat (states c))) (states c)) = within_c c x y.
Proof.
  rewrite (sum_pick _ x); [|apply states_nodup|].
  - rewrite (sum_pick _ x); [|apply states_nodup|].
    + unfold within_c. rewrite !delta_refl. destruct (existsb _ _); lia.
    + intros z Hz. rewrite (delta_neq x z) by congruence. lia.
  - intros z Hz. apply sum_zero. intros w _. rewrite (delta_neq x z) by congruence. lia.
Qed.

Definition shape (left_ann lp rp : bool) (c : space) : list factor :=
  let li := if lp then ILeft else INewLeft c in
  let ri := if rp then IRight else INewRight c in
  let bra := if left_ann then ILeft else IRight in
  let ket := if left_ann then IRight else ILeft in
  let bra_pure := if left_ann then lp else rp in
  let ket_pure := if left_ann then rp else lp in
  let bra_q := if left_ann then li else ri in
  let ket_q := if left_ann then ri else li in
  Overlap bra_q ket_q ::
    (if bra_pure then [] else [Kronecker bra bra_q]) ++
    (if ket_pure then [] else [Kronecker ket_q ket]).

Lemma shape_value left_ann lp rp c x y :
  value (shape left_ann lp rp c) x y = if lp && rp then delta x y else within_c c x y.
Proof.
  destruct left_ann, lp, rp; unfold value, shape, left_range, right_range;
    cbn [flat_map factor_idx app map factor_val idx_val prod fold_right andb];
    fold (delta x y); rewrite ?sum_one.
  - fold (delta x y). lia.
  - etransitivity; [|apply sum_within_r]. apply sum_ext. intros r. unfold delta. reflexivity.
  - etransitivity; [|apply sum_within_l]. apply sum_ext. intros l. rewrite sum_one. reflexivity.
  - etransitivity; [|apply sum_within_lr]. apply sum_ext. intros l. apply sum_ext. intros r. reflexivity.
  - rewrite state_eqb_sym. fold (delta x y). lia.
  - etransitivity; [|apply sum_within_r]. apply sum_ext. intros r.
    rewrite (state_eqb_sym r x), (state_eqb_sym y r). unfold delta. lia.
  - etransitivity; [|apply sum_within_l]. apply sum_ext. intros l. rewrite sum_one.
    rewrite (state_eqb_sym y l), (state_eqb_sym l x). unfold delta. lia.
  - etransitivity; [|apply sum_within_lr]. apply sum_ext. intros l. apply sum_ext. intros r.
    rewrite (state_eqb_sym r l), (state_eqb_sym l x), (state_eqb_sym y r). fold (delta l r) (delta x l) (delta r y). lia.
Qed.

Lemma contract_value r a b fs x y :
  unambiguous r -> proper r -> occupied_first r ->
  registered r (osp a) -> registered r (osp b) -> within r (osp a) -> within r (osp b) ->
  contract r a b = Ret fs -> in_space x (osp a) -> in_space y (osp b) ->
  value fs x y = vev (vacocc r) (ocr a) (ocr b) x y.
Proof.
  intros W P O Ha Hb Ca Cb H Ix Iy. unfold contract in H. apply bind_ret in H as [ok [Hok H]].
  destruct ok; cbn [negb] in H; [|discriminate].
  assert (EX := proj1 (can_contract_ret r a b true W P Ha Hb Ca Cb Hok) eq_refl).
  assert (OP : ocr b = negb (ocr a)).
  { destruct EX as [z (_ & _ & Hz)]. unfold vev in Hz. destruct (state_eqb z z); [|discriminate].
    destruct (ocr a), (ocr b); try discriminate; reflexivity. }
  apply bind_ret in H as [lp [Hlp H]]. apply bind_ret in H as [rp [Hrp H]]. apply bind_ret in H as [c [Hc H]].
  destruct (negb (negb (ocr a) || negb (ocr b))); [discriminate|]. apply Ret_inj in H.
  fold (shape (negb (ocr a)) lp rp c) in H. subst fs. rewrite shape_value.
  assert (HOT : hot r (negb (ocr b)) = hot r (ocr a)) by (rewrite OP, negb_involutive; reflexivity).
  (* the expectation value is the delta restricted to the hot subspaces *)
  assert (V : vev (vacocc r) (ocr a) (ocr b) x y = if N.testbit (hot r (ocr a)) (fst x) then delta x y else 0%nat).
  { assert (C : N.testbit (complete r) (fst x) = true) by (eapply within_bit; [exact Ca|apply Ix]).
    unfold vev, delta, hot. rewrite OP. destruct (state_eqb x y); [|destruct (N.testbit (if ocr a then _ else _) (fst x)); reflexivity].
    destruct (ocr a); cbn [negb]; rewrite ?N.ldiff_spec, ?C; cbn; destruct (N.testbit (vacocc r) (fst x)); reflexivity. }
  rewrite V. clear V.
  destruct (lp && rp) eqn:EP.
  - apply andb_prop in EP as [-> ->]. rewrite (pure_left r a O Ca Hlp (fst x)) by apply Ix. reflexivity.
  - assert (HH : negb lp || negb rp = true) by (destruct lp, rp; auto). rewrite HH in Hc.
    apply bind_ret in Hc as [u [Hu Hc]]. apply bind_ret in Hc as [v [Hv Hc]].
    unfold can_contract in Hok. apply bind_ret in Hok as [p1 [Hp1 Hok]]. destruct p1; cbn [negb] in Hok; [|discriminate].
    apply bind_ret in Hok as [p2 [Hp2 Hok]]. destruct p2; cbn [negb] in Hok; [|discriminate].
    apply is_qpannihilator_ret in Hp1. symmetry in Hp1. apply negb_true_iff, N.eqb_neq in Hp1.
    apply is_qpcreator_ret in Hp2. symmetry in Hp2. apply negb_true_iff, N.eqb_neq in Hp2.
    rewrite Hu in Hok. cbn [bind] in Hok. rewrite Hv in Hok. cbn [bind] in Hok. rewrite Hc in Hok. cbn [bind] in Hok.
    apply Ret_inj in Hok. apply negb_true_iff in Hok.
    destruct (common_ret r a b u v c W P Ha Hb Hu Hv Hp1 Hp2 Hc) as [C1 _].
    destruct (C1 Hok) as (T & _ & Q & _). rewrite HOT in T.
    unfold within_c. destruct (state_eqb x y) eqn:E.
    + apply state_eqb_eq in E. subst y. destruct (existsb (state_eqb x) (states c)) eqn:E2.
      * apply existsb_states in E2 as [E2 _]. rewrite T, !N.land_spec, !andb_true_iff in E2.
        destruct E2 as [[_ ->] _]. reflexivity.
      * destruct (N.testbit (hot r (ocr a)) (fst x)) eqn:E3; auto. exfalso.
        assert (in_space x c).
        { split.
          - rewrite T, !N.land_spec, E3. destruct Ix as [-> _], Iy as [-> _]. reflexivity.
          - rewrite Q. apply Ix. }
        apply existsb_states in H. congruence.
    + unfold delta. rewrite E. destruct (existsb _ _), (N.testbit _ _); reflexivity.
Qed.
