(** Construction and adjoint of tensors. *)
From Coq Require Import ZArith List Arith Bool Permutation Lia.
From Verif Require Import Tsr_Model Tsr_Spec Tsr_Proofs1 Tsr_Proofs3.
Import ListNotations.

Lemma no_empty_iff b : forall k, (forall c, In c (columns b k) -> c <> (None, None)) -> no_empty_column b k = true.
Proof.
  induction b as [|x b IH]; intros [|y k] H; cbn; auto. apply andb_true_iff. split.
  - specialize (H (slot x, slot y) (or_introl eq_refl)). unfold slot in H.
    destruct (ix_null x), (ix_null y); cbn; auto.
  - apply IH. intros c Hc. apply H. cbn. right. auto.
Qed.

Lemma opts_fst_ket cs : opts fst (filter ket_only cs) = [].
Proof. induction cs as [|([x|], [y|]) cs IH]; cbn; auto. Qed.
Lemma opts_snd_bra cs : opts snd (filter bra_only cs) = [].
Proof. induction cs as [|([x|], [y|]) cs IH]; cbn; auto. Qed.

Lemma net_cbra cs : cols_ok cs -> net_rank (cbra cs) = length (filter paired cs) + length (filter bra_only cs).
Proof.
  intros O. rewrite (net_rank_columns (cbra cs) (cket cs)), columns_canon by auto.
  rewrite !opts_app, opts_fst_ket, !app_length, paired_fst, bra_only_fst. cbn. lia.
Qed.
Lemma net_cket cs : cols_ok cs -> net_rank (cket cs) = length (filter paired cs) + length (filter ket_only cs).
Proof.
  intros O. rewrite (net_rank_columns' (cbra cs) (cket cs)), columns_canon by auto.
  rewrite !opts_app, opts_snd_bra, !app_length, paired_snd, ket_only_snd. cbn. lia.
Qed.
Lemma len_cbra cs : length (cbra cs) = length (filter paired cs) + length (filter bra_only cs).
Proof. unfold cbra. rewrite app_length, paired_fst, bra_only_fst. auto. Qed.
Lemma len_cket cs : length (cket cs) = length (filter paired cs) + length (filter bra_only cs) + length (filter ket_only cs).
Proof. unfold cket. rewrite !app_length, paired_snd, ket_only_snd, map_length. lia. Qed.

Lemma ket_only_nn cs : cols_ok cs -> existsb ix_null (opts snd (filter ket_only cs)) = false.
Proof.
  intros O. destruct (existsb ix_null (opts snd (filter ket_only cs))) eqn:E; auto.
  apply existsb_exists in E. destruct E as (x & Hx & Nx). unfold opts in Hx. apply in_flat_map in Hx.
  destruct Hx as (c & Hc & Hx). apply filter_In in Hc. destruct Hc as (Hc & _). destruct (O _ Hc) as (_ & _ & O2).
  destruct (snd c) as [y|] eqn:Y; [|inversion Hx]. destruct Hx as [<-|[]]. specialize (O2 _ eq_refl).
  unfold nn in O2. rewrite Nx in O2. discriminate.
Qed.

Lemma cols_ok_perm cs ds : Permutation cs ds -> cols_ok cs -> cols_ok ds.
Proof. intros P O c Hc. apply O. eapply Permutation_in; [apply Permutation_sym; exact P|auto]. Qed.

Lemma wf_canon t : wf t -> wf (canonicalize_slots t).
Proof.
  intros W. destruct (is_nonsymm (t_symm t) && is_colsymm (t_col t) && have_empty t) eqn:E.
  2: { rewrite canon_slots_keep; auto. }
  apply andb_true_iff in E. destruct E as (E & E3). apply andb_true_iff in E. destruct E as (E1 & E2).
  assert (NS : t_symm t = Nonsymm) by (destruct (t_symm t); auto; discriminate).
  pose proof (valid_cols _ W NS) as O. rewrite canon_slots_eq; auto. set (cs := columns (t_bra t) (t_ket t)) in *.
  pose proof (split_perm _ O) as P. pose proof (columns_canon _ O) as CC.
  split; [|split; [symmetry; apply net_cbra; auto|split; [symmetry; apply net_cket; auto|cbn; rewrite E2, orb_true_r; auto]]].
  destruct W as (V & _). unfold validate_indices in *. cbn [t_symm t_bra t_ket t_aux] in *. rewrite NS in *. cbn [is_nonsymm negb] in *.
  rewrite !andb_true_iff in V. destruct V as (((((V1 & V2) & V3) & V4) & V5) & V6).
  rewrite !andb_true_iff. repeat apply conj; auto.
  - apply no_empty_iff. rewrite CC. intros c Hc. apply (cols_ok_perm _ _ P O c Hc).
  - cbv zeta. rewrite len_cbra, len_cket.
    destruct (Nat.eqb_spec (length (filter paired cs) + length (filter bra_only cs)) (length (filter paired cs) + length (filter bra_only cs) + length (filter ket_only cs))) as [L|L]; [rewrite skipn_nil; auto|].
    destruct (Nat.ltb_spec (length (filter paired cs) + length (filter bra_only cs) + length (filter ket_only cs)) (length (filter paired cs) + length (filter bra_only cs))); [lia|].
    rewrite Nat.min_l by lia. unfold cket. rewrite app_assoc.
    replace (length (filter paired cs) + length (filter bra_only cs)) with (length (opts snd (filter paired cs) ++ map (fun _ : option index * option index => null_index) (filter bra_only cs)))
      by (rewrite app_length, paired_snd, map_length; auto).
    rewrite skipn_app, skipn_all, Nat.sub_diag. cbn. rewrite ket_only_nn; auto.
  - apply negb_true_iff. apply has_dup_spec. apply negb_true_iff in V4. apply has_dup_spec in V4.
    eapply Permutation_NoDup; [|exact V4]. apply Permutation_map.
    rewrite (bra_of_columns (t_bra t) (t_ket t)), (bra_of_columns (cbra cs) (cket cs)). apply opts_perm. rewrite CC. exact P.
  - apply negb_true_iff. apply has_dup_spec. apply negb_true_iff in V5. apply has_dup_spec in V5.
    eapply Permutation_NoDup; [|exact V5]. apply Permutation_map.
    rewrite (ket_of_columns (t_bra t) (t_ket t)), (ket_of_columns (cbra cs) (cket cs)). apply opts_perm. rewrite CC. exact P.
Qed.

(** no empty slots: all slots hold an index *)
Lemma net_le l : net_rank l <= length l.
Proof. unfold net_rank. induction l as [|x l IH]; cbn; auto. destruct (negb (ix_null x)); cbn; lia. Qed.
Lemma net_full l : length l = net_rank l -> forall x, In x l -> nn x = true.
Proof.
  unfold net_rank. induction l as [|x l IH]; cbn; [tauto|]. unfold nn.
  pose proof (net_le l) as N. unfold net_rank in N. destruct (ix_null x) eqn:X; cbn; intros L; [lia|].
  intros y [<-|Hy]; [rewrite X; auto|]. apply IH; auto.
Qed.
Lemma full_net l : (forall x, In x l -> nn x = true) -> net_rank l = length l.
Proof.
  unfold net_rank. induction l as [|x l IH]; cbn; auto. intros H. specialize (IH (fun y Hy => H y (or_intror Hy))).
  pose proof (H x (or_introl eq_refl)) as X. unfold nn in X. rewrite X. cbn. auto.
Qed.

Lemma order_full b k : (forall x, In x b -> nn x = true) -> (forall x, In x k -> nn x = true) -> in_slot_order (columns b k).
Proof.
  unfold in_slot_order. revert k. induction b as [|x b IH]; intros k B K.
  - cbn. induction k as [|y k IHk]; cbn; auto. rewrite (slot_nn y) by (apply K; left; auto). cbn.
    rewrite IHk at 1 by (intros; apply K; right; auto).
    assert (P : forall k, filter paired (map (fun k0 : index => (@None index, slot k0)) k) = []).
    { clear. induction k as [|y k IHk]; cbn; auto. }
    assert (Q : forall k, filter bra_only (map (fun k0 : index => (@None index, slot k0)) k) = []).
    { clear. induction k as [|y k IHk]; cbn; auto. }
    rewrite P, Q. auto.
  - destruct k as [|y k].
    + assert (G : forall b, (forall x, In x b -> nn x = true) -> columns b [] = filter paired (columns b []) ++ filter bra_only (columns b []) ++ filter ket_only (columns b [])).
      { clear. intros b. rewrite columns_nil_r.
        assert (P : forall k, filter paired (map (fun k0 : index => (slot k0, @None index)) k) = []).
        { clear. induction k as [|y k IHk]; cbn; auto. destruct (slot y); auto. }
        assert (Q : forall k, filter ket_only (map (fun k0 : index => (slot k0, @None index)) k) = []).
        { clear. induction k as [|y k IHk]; cbn; auto. destruct (slot y); auto. }
        intros H. rewrite P, Q. cbn. rewrite app_nil_r. induction b as [|y b IHb]; cbn; auto.
        rewrite (slot_nn y) by (apply H; left; auto). cbn. f_equal. apply IHb. intros; apply H; right; auto. }
      apply G. auto.
    + cbn. rewrite (slot_nn x) by (apply B; left; auto). rewrite (slot_nn y) by (apply K; left; auto). cbn. f_equal.
      apply IH; intros; [apply B|apply K]; right; auto.
Qed.

Lemma have_empty_full t : wf t -> have_empty t = false ->
  (forall x, In x (t_bra t) -> nn x = true) /\ (forall x, In x (t_ket t) -> nn x = true).
Proof.
  intros (_ & N1 & N2 & _) H. unfold have_empty in H. apply orb_false_iff in H. destruct H as (H1 & H2).
  apply negb_false_iff, Nat.eqb_eq in H1. apply negb_false_iff, Nat.eqb_eq in H2.
  split; apply net_full; congruence.
Qed.

Lemma filter_idem {A} (f : A -> bool) l : filter f (filter f l) = filter f l.
Proof. induction l as [|x l IH]; cbn; auto. destruct (f x) eqn:E; cbn; rewrite ?E, ?IH; auto. Qed.
Lemma filter_none {A} (f g : A -> bool) l : (forall x, f x = true -> g x = true -> False) -> filter g (filter f l) = [].
Proof. intros H. induction l as [|x l IH]; cbn; auto. destruct (f x) eqn:E; cbn; auto. destruct (g x) eqn:G; auto. exfalso. eauto. Qed.

Lemma order_split cs ds : ds = filter paired cs ++ filter bra_only cs ++ filter ket_only cs ->
  filter paired ds = filter paired cs /\ filter bra_only ds = filter bra_only cs /\ filter ket_only ds = filter ket_only cs.
Proof.
  intros ->. rewrite !filter_app, !filter_idem.
  assert (D : forall f g, In (f, g) [(paired, bra_only); (paired, ket_only); (bra_only, paired); (bra_only, ket_only); (ket_only, paired); (ket_only, bra_only)] ->
    filter g (filter f cs) = []).
  { intros f g H. apply filter_none. intros ([x|], [y|]); cbn in H;
      destruct H as [[= <- <-]|[[= <- <-]|[[= <- <-]|[[= <- <-]|[[= <- <-]|[[= <- <-]|[]]]]]]]; cbn; congruence. }
  repeat (rewrite D by (cbn; tauto)). rewrite !app_nil_r, ?app_nil_l. auto.
Qed.

Lemma canon_columns t : wf t -> t_symm t = Nonsymm -> t_col t = ColSymm ->
  let cs := columns (t_bra t) (t_ket t) in
  columns (t_bra (canonicalize_slots t)) (t_ket (canonicalize_slots t)) = filter paired cs ++ filter bra_only cs ++ filter ket_only cs.
Proof.
  intros W S C cs. pose proof (valid_cols _ W S) as O. destruct (have_empty t) eqn:E.
  - rewrite canon_slots_eq; auto; try (rewrite ?S, ?C; auto; fail). cbn [t_bra t_ket]. apply columns_canon. auto.
  - rewrite canon_slots_keep by (rewrite E, !andb_false_r; auto). destruct (have_empty_full _ W E) as (B & K).
    apply (order_full _ _ B K).
Qed.

(* ---------- made tensors ---------- *)

Definition ready (t : tensor) : Prop :=
  wf t /\ (t_symm t = Nonsymm -> t_col t = ColSymm ->
           in_slot_order (columns (t_bra t) (t_ket t)) /\
           (have_empty t = true -> t_bra t = cbra (columns (t_bra t) (t_ket t)) /\ t_ket t = cket (columns (t_bra t) (t_ket t)))).

Lemma canon_fields t : t_label (canonicalize_slots t) = t_label t /\ t_aux (canonicalize_slots t) = t_aux t /\
  t_symm (canonicalize_slots t) = t_symm t /\ t_bk (canonicalize_slots t) = t_bk t /\ t_col (canonicalize_slots t) = t_col t.
Proof.
  unfold canonicalize_slots. destruct (_ && _); auto.
  destruct (take_pairs (t_bra t) (t_ket t)) as ((cb, ck), (rb, rk)). cbn. auto.
Qed.

Lemma ready_canon t : wf t -> ready (canonicalize_slots t).
Proof.
  intros W. split; [apply wf_canon; auto|]. destruct (canon_fields t) as (_ & _ & -> & _ & ->). intros S C.
  pose proof (canon_columns _ W S C) as CC. cbv zeta in CC.
  destruct (order_split _ _ CC) as (F1 & F2 & F3).
  split.
  - unfold in_slot_order. rewrite F1, F2, F3. exact CC.
  - intros E. unfold cbra, cket. rewrite F1, F2, F3. destruct (have_empty t) eqn:E'.
    + rewrite canon_slots_eq; auto; rewrite ?S, ?C; auto.
    + rewrite canon_slots_keep in E by (rewrite E', !andb_false_r; auto). congruence.
Qed.

Lemma swap_ready t : wf t -> exists t', swap_bra_ket t = Some t' /\ t' = canonicalize_slots (swapped t) /\ ready t'.
Proof.
  intros W. exists (canonicalize_slots (swapped t)). unfold swap_bra_ket. fold (swapped t).
  rewrite validate_swapped. destruct W as (V & W). rewrite V. split; auto. split; auto. apply ready_canon. apply wf_swapped. split; auto.
Qed.

Definition relabel (t : tensor) (l : list Z) : tensor :=
  mktensor l (t_bra t) (t_ket t) (t_aux t) (t_symm t) (t_bk t) (t_col t) (t_bra_net t) (t_ket_net t).
Definition adjoint_label_of (t : tensor) : list Z :=
  match t_bk t with BKNonsymm => toggle_adjoint (t_label t) | _ => t_label t end.

Lemma relabel_same t : relabel t (t_label t) = t.
Proof. destruct t; auto. Qed.

Lemma adjoint_eq t : wf t -> adjoint t = Some (relabel (canonicalize_slots (swapped t)) (adjoint_label_of t)).
Proof.
  intros W. destruct (swap_ready t W) as (t' & E & -> & _). unfold adjoint. rewrite E. f_equal.
  destruct (canon_fields (swapped t)) as (L & _ & _ & B & _). cbn in L, B. unfold adjoint_label_of. rewrite <- B, <- L.
  destruct (t_bk (canonicalize_slots (swapped t))) eqn:K; [symmetry; apply relabel_same|symmetry; apply relabel_same|unfold relabel; rewrite K; auto].
Qed.

Lemma ready_relabel t l : ready t -> ready (relabel t l).
Proof. intros ((V & W) & R). split; [|exact R]. split; [exact V|exact W]. Qed.

Lemma make_ready l b k a s bk c t : make_tensor l b k a s bk c = Some t -> ready t.
Proof.
  unfold make_tensor. set (t0 := mktensor l b k a s bk c (net_rank b) (net_rank k)).
  destruct (validate_indices t0 && (is_nonsymm s || is_colsymm c)) eqn:E; [|discriminate]. intros [= <-].
  apply andb_true_iff in E. destruct E as (V & S). apply ready_canon. split; auto.
Qed.

Lemma made_ready t : made t -> ready t.
Proof.
  induction 1 as [l b k a s bk c t H|t t' M IH H].
  - eapply make_ready; eauto.
  - rewrite adjoint_eq in H by apply IH. injection H as <-. apply ready_relabel. apply ready_canon. apply wf_swapped. apply IH.
Qed.

(* ---------- twice ---------- *)

Lemma flip_split cs : let ds := map flip cs in
  filter paired ds = map flip (filter paired cs) /\ filter bra_only ds = map flip (filter ket_only cs) /\ filter ket_only ds = map flip (filter bra_only cs).
Proof.
  cbv zeta. rewrite !filter_map_flip.
  rewrite (filter_ext _ _ flip_paired), (filter_ext _ _ flip_bra_only), (filter_ext _ _ flip_ket_only). auto.
Qed.
Lemma opts_fst_flip cs : opts fst (map flip cs) = opts snd cs.
Proof. unfold opts. rewrite flat_map_concat_map, map_map, <- flat_map_concat_map. auto. Qed.
Lemma opts_snd_flip cs : opts snd (map flip cs) = opts fst cs.
Proof. unfold opts. rewrite flat_map_concat_map, map_map, <- flat_map_concat_map. auto. Qed.

Lemma wf_relabel t l : wf (relabel t l) <-> wf t.
Proof. unfold wf, validate_indices, relabel. cbn. tauto. Qed.
Lemma canon_relabel t l : canonicalize_slots (relabel t l) = relabel (canonicalize_slots t) l.
Proof.
  unfold canonicalize_slots, relabel. cbn. destruct (_ && _); auto.
  destruct (take_pairs (t_bra t) (t_ket t)) as ((cb, ck), (rb, rk)). auto.
Qed.
Lemma swapped_relabel t l : swapped (relabel t l) = relabel (swapped t) l. Proof. reflexivity. Qed.
Lemma relabel_relabel t l m : relabel (relabel t l) m = relabel t m. Proof. reflexivity. Qed.

Definition twice (t : tensor) : tensor := canonicalize_slots (swapped (canonicalize_slots (swapped t))).

Lemma adjoint_twice t : wf t -> exists t1, adjoint t = Some t1 /\
  adjoint t1 = Some (relabel (twice t) (match t_bk t with BKNonsymm => toggle_adjoint (toggle_adjoint (t_label t)) | _ => t_label t end)).
Proof.
  intros W. rewrite adjoint_eq by auto. eexists. split; [reflexivity|].
  rewrite adjoint_eq by (apply wf_relabel; apply wf_canon; apply wf_swapped; auto).
  rewrite swapped_relabel, canon_relabel, relabel_relabel. unfold twice. do 2 f_equal.
  unfold adjoint_label_of at 1. cbn [t_bk relabel t_label]. destruct (canon_fields (swapped t)) as (_ & _ & _ & B & _). cbn in B. rewrite B.
  unfold adjoint_label_of. destruct (t_bk t); auto.
Qed.

Lemma swapped_swapped t : swapped (swapped t) = t. Proof. destruct t; auto. Qed.

Lemma not_canon t : ~ (t_symm t = Nonsymm /\ t_col t = ColSymm) -> forall u, t_symm u = t_symm t -> t_col u = t_col t -> canonicalize_slots u = u.
Proof.
  intros N u S C. apply canon_slots_keep. rewrite S, C. destruct (t_symm t), (t_col t); cbn; auto. exfalso. auto.
Qed.

Lemma empty_iff t : wf t -> have_empty t = true <-> (exists x, In x (t_bra t ++ t_ket t) /\ ix_null x = true).
Proof.
  intros W. pose proof W as (_ & N1 & N2 & _). split.
  - intros H. unfold have_empty in H. rewrite N1, N2 in H.
    assert (G : forall l, negb (length l =? net_rank l) = true -> exists x, In x l /\ ix_null x = true).
    { intros l. unfold net_rank. induction l as [|x l IH]; cbn; [discriminate|]. destruct (ix_null x) eqn:X; cbn.
      - intros _. exists x. auto.
      - intros E. destruct (IH E) as (y & Hy & Y). exists y. auto. }
    apply orb_true_iff in H. destruct H as [H|H]; apply G in H; destruct H as (x & Hx & X); exists x; split; auto; apply in_or_app; auto.
  - intros (x & Hx & X). destruct (have_empty t) eqn:E; auto. destruct (have_empty_full _ W E) as (B & K).
    apply in_app_or in Hx. unfold nn in *. destruct Hx as [Hx|Hx]; [specialize (B _ Hx)|specialize (K _ Hx)]; rewrite X in *; discriminate.
Qed.

Lemma twice_shape t : ready t -> t_symm t = Nonsymm -> t_col t = ColSymm ->
  columns (t_bra (twice t)) (t_ket (twice t)) = columns (t_bra t) (t_ket t) /\
  (have_empty t = false -> twice t = t) /\
  (have_empty t = true -> filter ket_only (columns (t_bra t) (t_ket t)) <> [] -> twice t = t) /\
  (have_empty t = true -> filter ket_only (columns (t_bra t) (t_ket t)) = [] -> t_ket (twice t) <> t_ket t).
Proof.
  intros (W & R) S C. destruct (R S C) as (Ord & Form). clear R. unfold twice. set (u := canonicalize_slots (swapped t)).
  assert (WS : wf (swapped t)) by (apply wf_swapped; auto). assert (Wu : wf u) by (apply wf_canon; auto).
  destruct (canon_fields (swapped t)) as (Lu & Au & Su & Bu & Cu). cbn in Lu, Au, Su, Bu, Cu. fold u in Lu, Au, Su, Bu, Cu.
  set (cs := columns (t_bra t) (t_ket t)) in *.
  assert (WSu : wf (swapped u)) by (apply wf_swapped; auto).
  (* columns of u and of the second adjoint *)
  pose proof (canon_columns (swapped t) WS) as CC. cbn [t_symm t_col swapped t_bra t_ket] in CC. fold u in CC. specialize (CC S C). cbv zeta in CC.
  rewrite (columns_swap (t_bra t) (t_ket t)) in CC. fold cs in CC.
  destruct (flip_split cs) as (F1 & F2 & F3). rewrite F1, F2, F3 in CC.
  pose proof (canon_columns (swapped u) WSu) as CC2. cbn [t_symm t_col swapped t_bra t_ket] in CC2. rewrite Su, Cu in CC2. specialize (CC2 S C). cbv zeta in CC2.
  rewrite (columns_swap (t_bra u) (t_ket u)) in CC2. rewrite CC in CC2.
  assert (CU : columns (t_ket u) (t_bra u) = filter paired cs ++ filter ket_only cs ++ filter bra_only cs).
  { rewrite (columns_swap (t_bra u) (t_ket u)), CC, !map_app, !map_flip_flip. auto. }
  rewrite !map_app, !map_flip_flip in CC2.
  assert (SP : filter paired (filter paired cs ++ filter ket_only cs ++ filter bra_only cs) = filter paired cs /\
               filter bra_only (filter paired cs ++ filter ket_only cs ++ filter bra_only cs) = filter bra_only cs /\
               filter ket_only (filter paired cs ++ filter ket_only cs ++ filter bra_only cs) = filter ket_only cs).
  { rewrite !filter_app, !filter_idem.
    assert (D : forall f g, In (f, g) [(paired, bra_only); (paired, ket_only); (bra_only, paired); (bra_only, ket_only); (ket_only, paired); (ket_only, bra_only)] ->
      filter g (filter f cs) = []).
    { intros f g H. apply filter_none. intros ([x|], [y|]); cbn in H;
        destruct H as [[= <- <-]|[[= <- <-]|[[= <- <-]|[[= <- <-]|[[= <- <-]|[[= <- <-]|[]]]]]]]; cbn; congruence. }
    repeat (rewrite D by (cbn; tauto)). rewrite !app_nil_r, ?app_nil_l. auto. }
  destruct SP as (SP1 & SP2 & SP3). rewrite SP1, SP2, SP3 in CC2. rewrite <- Ord in CC2.
  split; [exact CC2|].
  assert (HE : have_empty (swapped t) = have_empty t) by (unfold have_empty; cbn; apply orb_comm).
  split; [|].
  - intros E. assert (Eu : u = swapped t) by (unfold u; apply canon_slots_keep; rewrite HE, E, !andb_false_r; auto).
    rewrite Eu, swapped_swapped. apply canon_slots_keep. rewrite E, !andb_false_r. auto.
  - assert (UE : have_empty t = true -> t_bra u = cbra (map flip cs) /\ t_ket u = cket (map flip cs) /\
       t_bra_net u = length (filter paired cs) + length (filter ket_only cs) /\ t_ket_net u = length (filter paired cs) + length (filter bra_only cs)).
    { intros E. unfold u. rewrite canon_slots_eq; cbn [swapped t_symm t_col t_bra t_ket t_bra_net t_ket_net]; try (rewrite ?S, ?C, ?HE; auto; fail).
      rewrite (columns_swap (t_bra t) (t_ket t)). fold cs. rewrite F1, F2, F3, !map_length. auto. }
    assert (HU : have_empty t = true -> have_empty (swapped u) = negb (length (filter ket_only cs) =? 0)).
    { intros E. destruct (UE E) as (U1 & U2 & U3 & U4). unfold have_empty. cbn [swapped t_bra t_ket t_bra_net t_ket_net].
      rewrite U1, U2, U3, U4, len_cbra, len_cket, F1, F2, F3, !map_length.
      destruct (length (filter ket_only cs)) as [|n] eqn:N; cbn.
      - rewrite !Nat.add_0_r, !Nat.eqb_refl. auto.
      - destruct (Nat.eqb_spec (length (filter paired cs) + Datatypes.S n + length (filter bra_only cs)) (length (filter paired cs) + length (filter bra_only cs))); [lia|auto]. }
    destruct W as (V & N1 & N2 & W'). split.
    + intros E K. specialize (HU E). rewrite canon_slots_eq; cbn [swapped t_symm t_col t_bra t_ket t_label t_aux t_bk]; try (rewrite ?Su, ?Cu, ?S, ?C; auto; fail).
      2: { rewrite HU. destruct (filter ket_only cs); [congruence|auto]. }
      rewrite CU. unfold cbra, cket. rewrite SP1, SP2, SP3. destruct (Form E) as (B & K').
      assert (O : cols_ok cs) by (apply valid_cols; auto; split; auto).
      rewrite Lu, Au, Su, Bu, Cu. fold (cbra cs). fold (cket cs). rewrite <- B, <- K'.
      rewrite <- net_cbra, <- net_cket by auto. rewrite <- B, <- K', <- N1, <- N2. destruct t; auto.
    + intros E K. specialize (HU E). rewrite K in HU. cbn in HU.
      rewrite canon_slots_keep by (rewrite HU, !andb_false_r; auto). cbn [swapped t_ket].
      destruct (UE E) as (U1 & _). rewrite U1. intros Q. destruct (Form E) as (B & K').
      assert (LL : length (cbra (map flip cs)) = length (cket cs)) by congruence.
      rewrite len_cbra, len_cket, F1, F2, K, !map_length in LL. cbn in LL.
      assert (LB : filter bra_only cs = []) by (destruct (filter bra_only cs); auto; cbn in LL; lia).
      (* then nothing is empty *)
      apply (proj1 (empty_iff t (conj V (conj N1 (conj N2 W'))))) in E. destruct E as (x & Hx & X).
      assert (O : cols_ok cs) by (apply valid_cols; auto; split; auto).
      rewrite B, K' in Hx. unfold cbra, cket in Hx. rewrite K, LB in Hx. cbn in Hx. rewrite !app_nil_r in Hx.
      assert (G : nn x = true).
      { apply in_app_or in Hx. unfold opts in Hx. destruct Hx as [Hx|Hx]; apply in_flat_map in Hx; destruct Hx as (c & Hc & Hx);
          apply filter_In in Hc; destruct Hc as (Hc & _); destruct (O _ Hc) as (_ & O1 & O2).
        - destruct (fst c) as [z|]; [|inversion Hx]. destruct Hx as [<-|[]]. auto.
        - destruct (snd c) as [z|]; [|inversion Hx]. destruct Hx as [<-|[]]. auto. }
      unfold nn in G. rewrite X in G. discriminate.
Qed.

Lemma twice_other t : wf t -> ~ (t_symm t = Nonsymm /\ t_col t = ColSymm) -> twice t = t.
Proof.
  intros W N. unfold twice. rewrite (not_canon t N (swapped t)) by auto. rewrite swapped_swapped. apply (not_canon t N); auto.
Qed.

Lemma toggle_twice l : ~ (exists l', l = l' ++ [adjoint_char; adjoint_char]) -> toggle_adjoint (toggle_adjoint l) = l.
Proof.
  intros N. unfold toggle_adjoint at 2.
  destruct (rev l) as [|c r] eqn:E.
  - apply (f_equal (@rev Z)) in E. rewrite rev_involutive in E. cbn in E. subst l. reflexivity.
  - apply (f_equal (@rev Z)) in E. rewrite rev_involutive in E. cbn in E. subst l.
    destruct (Z.eqb_spec c adjoint_char) as [->|D].
    + unfold toggle_adjoint. rewrite rev_involutive. destruct r as [|d r]; auto.
      destruct (Z.eqb_spec d adjoint_char) as [->|D]; auto. exfalso. apply N. exists (rev r). cbn. rewrite <- app_assoc. auto.
    + unfold toggle_adjoint. rewrite rev_app_distr. cbn [rev app]. rewrite Z.eqb_refl, rev_involutive. auto.
Qed.
