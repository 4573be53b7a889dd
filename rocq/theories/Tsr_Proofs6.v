(** The two canonicalizers, and the order of tensors. *)
From Coq Require Import ZArith List Arith Bool Permutation Sorted Lia.
From Verif Require Import Tsr_Model Tsr_Spec Tsr_Proofs1 Tsr_Proofs2 Tsr_Proofs3 Tsr_Proofs4 Tsr_Proofs5 Alg_Spec Alg_Model Alg_Proofs1 Alg_Proofs2.
Import ListNotations.

(* ---------- tags ---------- *)

Lemma over_tag S i t : over S i -> over S (with_tag i t).
Proof.
  destruct i as [s o t0 ps]. intros H. cbn. apply over_intro; [apply (over_space _ _ _ _ _ H)|apply (over_proto _ _ _ _ _ H)].
Qed.
Lemma tagged_tag ext i : untagged i -> tagged (tag_index ext i).
Proof.
  destruct i as [s o t ps]. intros H. split; [eexists; reflexivity|]. cbn. apply Forall_forall. eapply untagged_proto; eauto.
Qed.
Lemma identity_tag i t : identity (with_tag i t) = identity i. Proof. destruct i; auto. Qed.
Lemma shape_tag i t : shape (with_tag i t) = shape i. Proof. destruct i; auto. Qed.
Lemma null_tag i t : ix_null (with_tag i t) = ix_null i.
Proof.
  unfold ix_null. destruct (ix_eqb i null_index) eqn:E.
  - apply ix_eqb_spec in E. apply ix_eqb_spec. rewrite identity_tag. auto.
  - destruct (ix_eqb (with_tag i t) null_index) eqn:X; auto. apply ix_eqb_spec in X. rewrite identity_tag in X.
    apply ix_eqb_spec in X. congruence.
Qed.


Lemma clean_slots S t : clean S (t_bra t ++ t_ket t ++ t_aux t) -> untagged_slots t = true.
Proof.
  intros H. apply forallb_forall. intros i Hi. destruct (H i Hi) as (_ & U). rewrite (U i (part_self i)). auto.
Qed.
Lemma untagged_tag_None i : untagged i -> ix_tag i = None.
Proof. intros U. apply U. constructor. Qed.

Lemma related_In t u sg : related t u sg -> forall i, In i (t_bra u ++ t_ket u ++ t_aux u) -> In i (t_bra t ++ t_ket t ++ t_aux t).
Proof.
  unfold related. intros (_ & <- & _ & _ & _ & _ & _ & H) i. rewrite !in_app_iff. destruct (t_col t).
  2: { destruct H as (-> & -> & _). auto. }
  destruct (t_symm t).
  - destruct H as (B & K & _). intros [X|[X|X]]; auto.
    + left. eapply Permutation_in; [apply Permutation_sym; exact B|auto].
    + right; left. eapply Permutation_in; [apply Permutation_sym; exact K|auto].
  - destruct H as (n & m & B & K & _). apply exchanges_perm in B, K. intros [X|[X|X]]; auto.
    + left. eapply Permutation_in; [apply Permutation_sym; exact B|auto].
    + right; left. eapply Permutation_in; [apply Permutation_sym; exact K|auto].
  - destruct H as (b & b' & r & r' & k & k' & q & q' & E1 & E2 & E3 & E4 & L & L' & X & X' & P & Pr & Pq & _).
    assert (Mf : forall (b k : list index), length b = length k -> map fst (combine b k) = b /\ map snd (combine b k) = k).
    { clear. induction b as [|x b IH]; intros [|y k] L; cbn; try discriminate; auto. injection L as L. destruct (IH _ L). split; congruence. }
    destruct (Mf b k L) as (M1 & M2), (Mf b' k' L') as (M3 & M4).
    assert (Pb : Permutation b b') by (rewrite <- M1, <- M3; apply Permutation_map; auto).
    assert (Pk : Permutation k k') by (rewrite <- M2, <- M4; apply Permutation_map; auto).
    rewrite E1, E2, E3, E4, !in_app_iff. intros [[Y|Y]|[[Y|Y]|Y]]; auto.
    + left; left. eapply Permutation_in; [apply Permutation_sym; exact Pb|auto].
    + left; right. eapply Permutation_in; [apply Permutation_sym; exact Pr|auto].
    + right; left; left. eapply Permutation_in; [apply Permutation_sym; exact Pk|auto].
    + right; left; right. eapply Permutation_in; [apply Permutation_sym; exact Pq|auto].
Qed.
Lemma clean_related S t u sg : related t u sg -> clean S (t_bra t ++ t_ket t ++ t_aux t) -> clean S (t_bra u ++ t_ket u ++ t_aux u).
Proof. intros R C i Hi. apply C. eapply related_In; eauto. Qed.

Lemma In_tagged S ext l i : clean S l -> In i (map (tag_index ext) l) -> over S i /\ tagged i.
Proof.
  intros C H. apply in_map_iff in H. destruct H as (x & <- & H). destruct (C x H) as (O & U).
  split; [apply over_tag; auto|apply tagged_tag; auto].
Qed.
Lemma clean_app S l m : clean S (l ++ m) <-> clean S l /\ clean S m.
Proof.
  unfold clean. split.
  - intros H. split; intros i Hi; apply H; rewrite in_app_iff; auto.
  - intros (A & B) i. rewrite in_app_iff. intros [H|H]; auto.
Qed.

(* ---------- the default canonicalizer ---------- *)

Lemma default_agree S ext t : one_registry S -> clean S (t_bra t ++ t_ket t ++ t_aux t) ->
  agree tcmp' tkey tcmp2' tkey2 tensor_less tensor_less_pair (tag_indices ext t).
Proof.
  intros R C. apply clean_app in C. destruct C as (Cb & C). apply clean_app in C. destruct C as (Ck & _).
  split; [|split]; cbn.
  - intros x y X Y. destruct (In_tagged _ _ _ _ Cb X), (In_tagged _ _ _ _ Cb Y). apply (tensor_less_key S); auto. right. auto.
  - intros x y X Y. destruct (In_tagged _ _ _ _ Ck X), (In_tagged _ _ _ _ Ck Y). apply (tensor_less_key S); auto. right. auto.
  - intros p q X Y Z W. destruct (In_tagged _ _ _ _ Cb X), (In_tagged _ _ _ _ Ck Y), (In_tagged _ _ _ _ Cb Z), (In_tagged _ _ _ _ Ck W).
    apply (tensor_less_pair_key S); auto; right; auto.
Qed.

Lemma tkey_inj x y : tkey x = tkey y -> x = y. Proof. intros [= _ _ H]. auto. Qed.
Lemma tkey2_pair p q : tkey2 p = tkey2 q -> tkey (fst p) = tkey (fst q) /\ tkey (snd p) = tkey (snd q).
Proof. intros H. injection H as _ _ _ _ ->. auto. Qed.

Lemma default_form S ext t : one_registry S -> clean S (t_bra t ++ t_ket t ++ t_aux t) ->
  exists u s, default_apply ext t = Some (reset_tags u, s) /\
    canon_core tensor_less tensor_less_pair (tag_indices ext t) = Some (u, s) /\
    form tcmp' tkey tcmp2' tkey2 (tag_indices ext t) u s.
Proof.
  intros R C. destruct (core_form tcmp' tkey TO_tcmp' tcmp2' tkey2 TO_tcmp2' _ _ _ (default_agree S ext t R C)) as (u & s & E & F).
  exists u, s. unfold default_apply. rewrite (clean_slots S t C). cbn [negb]. rewrite E. auto.
Qed.

Lemma NoDup_tag ext l : (forall i, In i l -> ix_tag i = None) -> NoDup l -> NoDup (map (tag_index ext) l).
Proof.
  intros U N. induction N as [|x l X N IH]; cbn; constructor.
  - intros H. apply in_map_iff in H. destruct H as (y & E & Hy). apply X.
    apply (f_equal untag) in E. rewrite !untag_tag in E; [subst; auto|apply U; left; auto|apply U; right; auto].
  - apply IH. intros i Hi. apply U. right. auto.
Qed.

Lemma default_same S ext t u sg : one_registry S -> clean S (t_bra t ++ t_ket t ++ t_aux t) -> related t u sg ->
  exists r s1 s2, default_apply ext t = Some (r, s1) /\ default_apply ext u = Some (r, s2) /\
    ((t_symm t = Antisymm -> NoDup (t_bra t) /\ NoDup (t_ket t)) -> s2 = xorb s1 sg).
Proof.
  intros R C E. pose proof (clean_related _ _ _ _ E C) as C'.
  destruct (default_form S ext t R C) as (t1 & s1 & D1 & _ & F1). destruct (default_form S ext u R C') as (u1 & s2 & D2 & _ & F2).
  pose proof (related_map (tag_index ext) _ _ _ E) as E'. rewrite <- !tag_indices_map in E'.
  exists (reset_tags t1), s1, s2. split; auto. split.
  - rewrite D2. rewrite (form_equal tcmp' tkey TO_tcmp' tcmp2' tkey2 TO_tcmp2' tkey2_pair tkey_inj _ _ _ _ _ _ _ E' F1 F2). auto.
  - intros N. apply (form_sign tcmp' tkey TO_tcmp' tcmp2' tkey2 tkey_inj _ _ _ _ _ _ _ E' F1 F2).
    cbn. intros A. destruct (N A) as (Nb & Nk). apply clean_app in C. destruct C as (Cb & C). apply clean_app in C. destruct C as (Ck & _).
    split; apply NoDup_tag; auto; intros i Hi; apply untagged_tag_None; [apply (Cb i Hi)|apply (Ck i Hi)].
Qed.

Lemma made_nodup t : made t -> t_symm t = Antisymm -> NoDup (t_bra t) /\ NoDup (t_ket t).
Proof.
  intros M A. destruct (made_ready t M) as ((V & _) & _). unfold validate_indices in V. rewrite A in V. cbn [is_nonsymm negb] in V.
  rewrite !andb_true_iff, !negb_true_iff in V. destruct V as (((((V1 & V2) & _) & V3) & V4) & _).
  assert (G : forall l, existsb ix_null l = false -> has_duplicates l = false -> NoDup l).
  { intros l E D. apply has_dup_spec in D. assert (F : filter nn l = l).
    { clear D. induction l as [|x l IH]; cbn in *; auto. apply orb_false_iff in E. destruct E as (E1 & E2).
      unfold nn at 1. rewrite E1. cbn. rewrite IH; auto. }
    rewrite F in D. eapply NoDup_map_inv; eauto. }
  split; apply G; auto.
Qed.

Lemma in_set_ok S ext i : one_registry S -> clean S ext -> over S i -> untagged i -> in_set ext i = true <-> In i ext.
Proof.
  intros R C O U. unfold in_set. rewrite existsb_exists. unfold ix_ltb. split.
  - intros (e & He & H). destruct (C e He) as (Oe & Ue). rewrite !(ix_cmp_untagged S) in H; auto.
    rewrite (proj1 (proj2 TO_tcmp) e i) in H. destruct (tcmp e i) eqn:X; cbn in H; try discriminate. apply TO_tcmp in X. subst. auto.
  - intros H. exists i. split; auto. rewrite (ix_cmp_untagged S); auto. rewrite (TO_refl _ _ TO_tcmp). auto.
Qed.

Lemma sorted_pair {A} (lt : A -> A -> bool) l1 x l2 y l3 : in_sorted_order lt (l1 ++ x :: l2 ++ y :: l3) -> lt y x = false.
Proof.
  unfold in_sorted_order. induction l1 as [|z l1 IH]; cbn; intros H; inversion H as [|? ? H1 H2]; subst; auto.
  rewrite Forall_forall in H2. apply H2. rewrite in_app_iff. cbn. auto.
Qed.
Lemma map_split3 {A B} (f : A -> B) l : forall l1 x l2 y l3, map f l = l1 ++ x :: l2 ++ y :: l3 ->
  exists m1 u m2 v m3, l = m1 ++ u :: m2 ++ v :: m3 /\ f u = x /\ f v = y.
Proof.
  intros l1 x l2 y l3 H. apply map_eq_app in H. destruct H as (m1 & r & -> & _ & H).
  destruct r as [|u r]; [discriminate|]. cbn in H. injection H as E H. apply map_eq_app in H. destruct H as (m2 & r' & -> & _ & H).
  destruct r' as [|v r']; [discriminate|]. cbn in H. injection H as E' H. exists m1, u, m2, v, r'. auto.
Qed.

Lemma external_first S ext l r l1 x l2 y l3 : one_registry S -> clean S ext -> clean S l ->
  Permutation (map (tag_index ext) l) r -> in_sorted_order (key_less tcmp' tkey) r ->
  map untag r = l1 ++ x :: l2 ++ y :: l3 -> shape x = shape y -> In y ext -> In x ext.
Proof.
  intros R Ce C P So E Sh Hy. apply map_split3 in E. destruct E as (m1 & u & m2 & v & m3 & -> & Eu & Ev).
  apply sorted_pair in So.
  assert (G : forall z, In z (m1 ++ u :: m2 ++ v :: m3) -> z = tag_index ext (untag z) /\ over S (untag z) /\ untagged (untag z)).
  { intros z Hz. apply Permutation_sym in P. apply (Permutation_in _ P) in Hz. apply in_map_iff in Hz.
    destruct Hz as (w & <- & Hw). destruct (C w Hw) as (O & U). rewrite untag_tag by (apply untagged_tag_None; auto). auto. }
  destruct (G u) as (Gu & Ou & Uu); [rewrite in_app_iff; cbn; auto|].
  destruct (G v) as (Gv & Ov & Uv); [rewrite in_app_iff; cbn; right; right; rewrite in_app_iff; cbn; auto|].
  rewrite Eu in *. rewrite Ev in *. apply (in_set_ok S); auto. apply (in_set_ok S) in Hy; auto.
  destruct (in_set ext x) eqn:X; auto. exfalso. rewrite Gu, Gv in So. unfold key_less, tcmp', bcmp, tkey, bkey, pcmp in So. cbn [fst snd] in So.
  unfold tag_index in So. rewrite !shape_tag, X, Hy, Sh, (TO_refl _ _ TO_hcmp) in So.
  destruct x, y; cbn in So. discriminate.
Qed.

(* ---------- mapping tags over slots that are rearranged ---------- *)

Definition keeps_null (f : index -> index) : Prop := forall i, ix_null (f i) = ix_null i.
Definition mapc (f : index -> index) (c : option index * option index) := (option_map f (fst c), option_map f (snd c)).

Lemma slot_map f i : keeps_null f -> slot (f i) = option_map f (slot i).
Proof. intros K. unfold slot. rewrite K. destruct (ix_null i); auto. Qed.
Lemma columns_map f b : keeps_null f -> forall k, columns (map f b) (map f k) = map (mapc f) (columns b k).
Proof.
  intros K. induction b as [|x b IH]; intros k; cbn.
  - rewrite !map_map. apply map_ext. intros y. unfold mapc. cbn. rewrite slot_map; auto.
  - destruct k as [|y k]; cbn; unfold mapc at 1; cbn; rewrite !slot_map; auto; f_equal; [apply (IH [])|apply IH].
Qed.
Lemma filter_mapc f p cs : (forall c, p (mapc f c) = p c) -> filter p (map (mapc f) cs) = map (mapc f) (filter p cs).
Proof. intros H. induction cs as [|c cs IH]; cbn; auto. rewrite H. destruct (p c); cbn; rewrite IH; auto. Qed.
Lemma opts_mapc_fst f cs : opts fst (map (mapc f) cs) = map f (opts fst cs).
Proof. unfold opts. induction cs as [|([x|], z) cs IH]; cbn; auto. f_equal. auto. Qed.
Lemma opts_mapc_snd f cs : opts snd (map (mapc f) cs) = map f (opts snd cs).
Proof. unfold opts. induction cs as [|(z, [x|]) cs IH]; cbn; auto. f_equal. auto. Qed.
Lemma mapc_tests f c : paired (mapc f c) = paired c /\ bra_only (mapc f c) = bra_only c /\ ket_only (mapc f c) = ket_only c.
Proof. destruct c as ([x|], [y|]); auto. Qed.

Lemma canon_map f g t : keeps_null f -> keeps_null g -> g null_index = null_index ->
  (forall i, In i (t_bra t ++ t_ket t ++ t_aux t) -> g (f i) = i) ->
  map_slots g (canonicalize_slots (map_slots f t)) = canonicalize_slots t.
Proof.
  intros Kf Kg G I. assert (HE : have_empty (map_slots f t) = have_empty t) by (unfold have_empty; cbn; rewrite !map_length; auto).
  assert (II : map_slots g (map_slots f t) = t) by (rewrite map_slots_map; apply map_slots_id; auto).
  destruct (is_nonsymm (t_symm t) && is_colsymm (t_col t) && have_empty t) eqn:E.
  2: { rewrite !canon_slots_keep; auto. cbn. rewrite HE. auto. }
  apply andb_true_iff in E. destruct E as (E & E3). apply andb_true_iff in E. destruct E as (E1 & E2).
  rewrite (canon_slots_eq (map_slots f t)), (canon_slots_eq t); auto; [|rewrite HE; auto].
  apply (f_equal t_aux) in II as Ia. cbn in Ia.
  assert (Ib : forall i, In i (opts fst (columns (t_bra t) (t_ket t))) -> g (f i) = i).
  { intros i Hi. rewrite <- bra_of_columns in Hi. apply filter_In in Hi. apply I. rewrite in_app_iff. tauto. }
  assert (Ik : forall i, In i (opts snd (columns (t_bra t) (t_ket t))) -> g (f i) = i).
  { intros i Hi. rewrite <- ket_of_columns in Hi. apply filter_In in Hi. apply I. rewrite !in_app_iff. tauto. }
  cbn [map_slots t_label t_bra t_ket t_aux t_symm t_bk t_col t_bra_net t_ket_net]. unfold map_slots at 1.
  cbn [map_slots t_label t_bra t_ket t_aux t_symm t_bk t_col t_bra_net t_ket_net].
  rewrite !columns_map by auto. set (cs := columns (t_bra t) (t_ket t)) in *.
  rewrite !(filter_mapc f) by (intros; apply mapc_tests). rewrite !map_length.
  assert (Sub : forall p, (forall i, In i (opts fst (filter p cs)) -> g (f i) = i) /\ (forall i, In i (opts snd (filter p cs)) -> g (f i) = i)).
  { intros p. split; intros i Hi; unfold opts in *; apply in_flat_map in Hi; destruct Hi as (c & Hc & Hi); apply filter_In in Hc;
      [apply Ib|apply Ik]; apply in_flat_map; exists c; tauto. }
  assert (Mi : forall l, (forall i, In i l -> g (f i) = i) -> map g (map f l) = l).
  { intros l H. rewrite map_map. rewrite (map_ext_in _ (fun i => i)); auto. apply map_id. }
  f_equal; auto.
  - unfold cbra. rewrite !(filter_mapc f) by (intros; apply mapc_tests). rewrite !opts_mapc_fst, map_app, !Mi; auto; apply Sub.
  - unfold cket. rewrite !(filter_mapc f) by (intros; apply mapc_tests). rewrite !opts_mapc_snd, !map_app, !map_map.
    rewrite G. rewrite <- (map_map f g), <- (map_map f g). rewrite !Mi; auto; apply Sub.
Qed.

Lemma no_empty_map f b : keeps_null f -> forall k, no_empty_column (map f b) (map f k) = no_empty_column b k.
Proof. intros K. induction b as [|x b IH]; intros [|y k]; cbn; auto. rewrite !K, IH. auto. Qed.
Lemma existsb_null_map f l : keeps_null f -> existsb ix_null (map f l) = existsb ix_null l.
Proof. intros K. induction l as [|x l IH]; cbn; auto. rewrite K, IH. auto. Qed.
Lemma skipn_map' {A B} (f : A -> B) n : forall l, skipn n (map f l) = map f (skipn n l).
Proof. induction n as [|n IH]; intros [|x l]; cbn; auto. Qed.

Lemma validate_map f t : (forall i, identity (f i) = identity i) -> validate_indices (map_slots f t) = validate_indices t.
Proof.
  intros H. assert (K : keeps_null f).
  { intros i. unfold ix_null. destruct (ix_eqb i null_index) eqn:E.
    - apply ix_eqb_spec in E. apply ix_eqb_spec. rewrite H. auto.
    - destruct (ix_eqb (f i) null_index) eqn:X; auto. apply ix_eqb_spec in X. rewrite H in X. apply ix_eqb_spec in X. congruence. }
  assert (D : forall l, has_duplicates (map f l) = has_duplicates l).
  { intros l. assert (F : map identity (filter nn (map f l)) = map identity (filter nn l)).
    { induction l as [|x l IH]; cbn; auto. replace (nn (f x)) with (nn x) by (unfold nn; rewrite K; auto).
      destruct (nn x); cbn; rewrite ?IH, ?H; auto. }
    destruct (has_duplicates l) eqn:E.
    - destruct (has_duplicates (map f l)) eqn:E'; auto. apply has_dup_spec in E'. rewrite F in E'. apply has_dup_spec in E'. congruence.
    - apply has_dup_spec in E. rewrite <- F in E. apply has_dup_spec in E. auto. }
  unfold validate_indices. cbn [map_slots t_symm t_bra t_ket t_aux]. rewrite !D, !existsb_null_map, no_empty_map, !map_length by auto.
  cbv zeta. do 5 f_equal.
  assert (L : existsb ix_null (skipn (Nat.min (length (t_bra t)) (length (t_ket t)))
              (if length (t_bra t) =? length (t_ket t) then [] else if length (t_ket t) <? length (t_bra t) then map f (t_bra t) else map f (t_ket t)))
            = existsb ix_null (skipn (Nat.min (length (t_bra t)) (length (t_ket t)))
              (if length (t_bra t) =? length (t_ket t) then [] else if length (t_ket t) <? length (t_bra t) then t_bra t else t_ket t))).
  { destruct (length (t_bra t) =? length (t_ket t)); auto.
    destruct (length (t_ket t) <? length (t_bra t)); rewrite skipn_map', existsb_null_map; auto. }
  rewrite L. auto.
Qed.

(* ---------- the canonicalizer of blocks ---------- *)

Lemma keeps_tag ext : keeps_null (tag_index ext). Proof. intros i. apply null_tag. Qed.
Lemma keeps_untag : keeps_null untag. Proof. intros i. apply null_tag. Qed.

Lemma swap_tags ext t : untagged_slots t = true ->
  swap_bra_ket (tag_indices ext t) = if validate_indices t then Some (canonicalize_slots (map_slots (tag_index ext) (swapped t))) else None.
Proof.
  intros U. unfold swap_bra_ket. change (mktensor (t_label (tag_indices ext t)) _ _ _ _ _ _ _ _) with (map_slots (tag_index ext) (swapped t)).
  rewrite validate_map by (intros; apply identity_tag). rewrite validate_swapped. auto.
Qed.
Lemma swap_tags_reset ext t : untagged_slots t = true ->
  reset_tags (canonicalize_slots (map_slots (tag_index ext) (swapped t))) = canonicalize_slots (swapped t).
Proof.
  intros U. rewrite reset_tags_map. apply canon_map; [apply keeps_tag|apply keeps_untag|auto|].
  intros i Hi. apply untag_tag. apply (untagged_slots_In t U). cbn in Hi. rewrite !in_app_iff in *. tauto.
Qed.

Lemma block_related sort ext t t' sg : block_apply sort ext t = Some (t', sg) ->
  related t t' sg \/
  (t_bk t = BKSymm /\ validate_indices t = true /\ related (canonicalize_slots (swapped t)) t' sg).
Proof.
  unfold block_apply. intros H. destruct (untagged_slots t) eqn:U; [|discriminate]. cbn [negb] in H.
  assert (A : forall t3, option_map (fun r : tensor * bool => (reset_tags (fst r), snd r)) (canon_core block_less block_less_pair t3) = Some (t', sg) ->
     related (reset_tags t3) t' sg).
  { intros t3 E. destruct (canon_core block_less block_less_pair t3) as [(u, s)|] eqn:X; [|discriminate].
    injection E as <- <-. apply core_related in X. apply (related_map untag) in X. auto. }
  destruct (t_bk t) eqn:K.
  - destruct (wants_swap sort (tag_indices ext t)).
    + rewrite swap_tags in H by auto. destruct (validate_indices t) eqn:V; [|discriminate].
      right. apply A in H. rewrite swap_tags_reset in H by auto. auto.
    + left. apply A in H. rewrite reset_tag in H by auto. auto.
  - left. apply A in H. rewrite reset_tag in H by auto. auto.
  - left. apply A in H. rewrite reset_tag in H by auto. auto.
Qed.

Lemma valid_cols' t : validate_indices t = true -> t_symm t = Nonsymm -> cols_ok (columns (t_bra t) (t_ket t)).
Proof.
  intros V N. set (t0 := mktensor (t_label t) (t_bra t) (t_ket t) (t_aux t) (t_symm t) (t_bk t) (t_col t) (net_rank (t_bra t)) (net_rank (t_ket t))).
  apply (valid_cols t0); auto. split; [exact V|]. cbn. rewrite N. auto.
Qed.

Lemma canon_value {R} (opp : R -> R) V t : validate_indices t = true -> respects opp (t_symm t) V ->
  V (t_bra (canonicalize_slots t)) (t_ket (canonicalize_slots t)) = V (t_bra t) (t_ket t).
Proof.
  intros Va HV. destruct (is_nonsymm (t_symm t) && is_colsymm (t_col t) && have_empty t) eqn:E.
  2: { rewrite canon_slots_keep; auto. }
  apply andb_true_iff in E. destruct E as (E & E3). apply andb_true_iff in E. destruct E as (E1 & E2).
  assert (N : t_symm t = Nonsymm) by (destruct (t_symm t); auto; discriminate).
  pose proof (valid_cols' t Va N) as O. rewrite canon_slots_eq; auto. cbn. unfold respects in HV. rewrite N in HV. apply HV.
  rewrite columns_canon by auto. apply Permutation_sym. apply split_perm. auto.
Qed.

Lemma block_value {R} (opp : R -> R) V sort ext t t' sg : block_apply sort ext t = Some (t', sg) ->
  respects opp (t_symm t) V -> (t_bk t = BKSymm -> forall b k, V b k = V k b) ->
  V (t_bra t) (t_ket t) = if sg then opp (V (t_bra t') (t_ket t')) else V (t_bra t') (t_ket t').
Proof.
  intros H HV HS. destruct (block_related _ _ _ _ _ H) as [E|(K & Va & E)].
  - apply (related_value opp V t t' sg E HV).
  - rewrite (HS K). change (V (t_ket t) (t_bra t)) with (V (t_bra (swapped t)) (t_ket (swapped t))).
    rewrite <- (canon_value opp V (swapped t)); [|rewrite validate_swapped; auto|auto].
    apply related_value; auto. destruct (canon_fields (swapped t)) as (_ & _ & -> & _). auto.
Qed.

(** comparing blocks when equal shapes are tagged alike *)
Lemma block_less_key' S i j : one_registry S -> over S i -> over S j -> (shape i = shape j -> same_style i j) ->
  block_less i j = key_less bcmp bkey i j.
Proof.
  intros R O O' T. unfold block_less, block_compare, key_less, bcmp, bkey, pcmp. cbn [fst snd].
  rewrite (compare_spaces_key S); auto. rewrite zof_0. destruct (hcmp (shape i) (shape j)) eqn:E; cbn [cthen]; auto.
  apply TO_hcmp in E. rewrite compare_tags_key by (apply T; auto). rewrite zof_neg. auto.
Qed.
Lemma block_less_pair_key' S p q : one_registry S -> over S (fst p) -> over S (fst q) -> over S (snd p) -> over S (snd q) ->
  (shape (fst p) = shape (fst q) -> same_style (fst p) (fst q)) -> (shape (snd p) = shape (snd q) -> same_style (snd p) (snd q)) ->
  block_less_pair p q = key_less bcmp2 bkey2 p q.
Proof.
  intros R O1 O2 O3 O4 T1 T2. unfold block_less_pair, block_compare_pair, key_less, bcmp2, bkey2, pcmp. cbn [fst snd].
  rewrite !(compare_spaces_key S); auto. rewrite !zof_0.
  destruct (hcmp (shape (fst p)) (shape (fst q))) eqn:E1; cbn [negb cthen]; auto.
  destruct (hcmp (shape (snd p)) (shape (snd q))) eqn:E2; cbn [negb cthen]; auto.
  apply TO_hcmp in E1. apply TO_hcmp in E2.
  rewrite (compare_tags_key (fst p) (fst q)) by (apply T1; auto). rewrite (compare_tags_key (snd p) (snd q)) by (apply T2; auto).
  rewrite !zof_0, ?zof_neg.
  destruct (ocmp Z.compare (ix_tag (fst p)) (ix_tag (fst q))); cbn [negb cthen]; auto.
  destruct (ocmp Z.compare (ix_tag (snd p)) (ix_tag (snd q))); cbn [negb cthen]; auto.
Qed.
