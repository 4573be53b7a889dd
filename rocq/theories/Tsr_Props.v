(** What is proved about comparing indices, the slots of tensors, and canonicalizing one tensor. *)
From Coq Require Import ZArith List Arith Bool Permutation Sorted Lia.
From Verif Require Import Tsr_Model Tsr_Spec Tsr_Proofs1 Tsr_Proofs2 Tsr_Proofs3 Tsr_Proofs4 Tsr_Proofs5 Tsr_Proofs6 Tsr_Proofs7 Alg_Spec Alg_Model.
Import ListNotations.

(** ** C76: equality and order of indices *)

Theorem C76_equality : forall i j, ix_eqb i j = true <-> identity i = identity j.
Proof. intros. apply ix_eqb_spec. Qed.

Theorem C76_order_untagged : forall S, one_registry S ->
  total_order (fun i => over S i /\ untagged i) ix_cmp /\
  (forall i j, over S i -> untagged i -> over S j -> untagged j -> (ix_cmp i j = Eq <-> ix_eqb i j = true)).
Proof.
  intros S R. split; [split; [|split]|].
  - intros x y (O & U) (O' & U'). rewrite (ix_cmp_untagged S); auto. apply TO_tcmp.
  - intros x y (O & U) (O' & U'). rewrite !(ix_cmp_untagged S); auto. apply TO_tcmp.
  - intros x y z (O & U) (O' & U') (O'' & U''). rewrite !(ix_cmp_untagged S); auto. apply TO_tcmp.
  - intros i j O U O' U'. rewrite (ix_cmp_untagged S), ix_eqb_spec, !identity_untagged; auto. apply TO_tcmp.
Qed.

Theorem C76_order_tagged : forall S, one_registry S ->
  total_order (fun i => over S i /\ tagged i) ix_cmp /\
  (forall i j, over S i -> tagged i -> over S j -> tagged j ->
     (ix_cmp i j = Eq <-> ix_eqb i j = true /\ ix_tag i = ix_tag j)).
Proof.
  intros S R. split; [split; [|split]|].
  - intros x y (O & U) (O' & U'). rewrite (ix_cmp_tagged S); auto. apply TO_tcmp.
  - intros x y (O & U) (O' & U'). rewrite !(ix_cmp_tagged S); auto. apply TO_tcmp.
  - intros x y z (O & U) (O' & U') (O'' & U''). rewrite !(ix_cmp_tagged S); auto. apply TO_tcmp.
  - intros i j O U O' U'. rewrite (ix_cmp_tagged S); auto. rewrite (proj1 TO_tcmp i j). split.
    + intros <-. split; auto. apply ix_eqb_spec. auto.
    + intros (E & T). apply (uniform_eq i j); auto. right. auto.
Qed.

(** ** C77: order of labels *)

Theorem C77_label_order : forall S, one_registry S ->
  strict_weak_on (over S) label_less (fun i j => ix_space i = ix_space j /\ ix_ord i = ix_ord j).
Proof.
  intros S R.
  assert (K : forall i j, over S i -> over S j -> label_less i j = key_less (pcmp scmp (ocmp Nat.compare)) (fun i => (ix_space i, ix_ord i)) i j).
  { intros [s o t ps] [s' o' t' ps'] O O'. unfold label_less, key_less, pcmp. cbn [fst snd ix_space ix_ord].
    rewrite space_eqb_scmp, (space_ltb_reg S s s'); auto; try (exact (over_space _ _ _ _ _ O)); try (exact (over_space _ _ _ _ _ O')).
    destruct (scmp s s'); cbn; auto. apply opt_ltb_cmp. }
  assert (C : TO (pcmp scmp (ocmp Nat.compare))) by (apply TO_pair; [apply TO_space|apply TO_opt, TO_nat]).
  destruct (on_set (over S) _ _ _ C K) as (A & B & D & E). split; [|split; [|split]]; auto.
  intros x y X Y. rewrite E; auto. split; [intros [= -> ->]; auto|intros (-> & ->); auto].
Qed.

Theorem C77_full_label_order : forall S, one_registry S ->
  strict_weak_on (over S) full_label_less (fun i j => ix_eqb i j = true).
Proof.
  intros S R. destruct (on_set (over S) _ _ full_label_less TO_tcmp (full_label_key S R)) as (A & B & D & E).
  split; [|split; [|split]]; auto. intros x y X Y. rewrite E, ix_eqb_spec; tauto.
Qed.

(** The comparison as the code has it. *)
Theorem C77_full_label_recursion : forall i j, full_label_less i j =
  if negb (space_eqb (ix_space i) (ix_space j)) then space_ltb (ix_space i) (ix_space j)
  else if negb (opt_eqb (ix_ord i) (ix_ord j)) then opt_ltb (ix_ord i) (ix_ord j)
  else lex_less full_label_less (ix_protos i) (ix_protos j).
Proof. apply full_label_recursion. Qed.

(** ** C78: the comparers of the canonicalizers *)

Theorem C78_index_order : forall S, one_registry S ->
  strict_weak_on (fun i => over S i /\ tagged i) tensor_less eq /\
  strict_weak_on (fun i => over S i /\ untagged i) tensor_less eq.
Proof.
  intros S R.
  assert (G : forall U : index -> Prop, (forall i j, U i -> U j -> over S i /\ over S j /\ uniform i j) -> strict_weak_on U tensor_less eq).
  { intros U H. destruct (on_set U tcmp' tkey tensor_less TO_tcmp') as (A & B & D & E).
    - intros x y X Y. destruct (H _ _ X Y) as (O & O' & V). apply (tensor_less_key S); auto.
    - split; [|split; [|split]]; auto. intros x y X Y. rewrite E; auto. split; [apply tkey_inj|intros ->; auto]. }
  split; apply G.
  - intros i j (O & T) (O' & T'). split; auto. split; auto. right. auto.
  - intros i j (O & T) (O' & T'). split; auto. split; auto. left. auto.
Qed.

Theorem C78_pair_order : forall S, one_registry S ->
  strict_weak_on (fun p => (over S (fst p) /\ tagged (fst p)) /\ over S (snd p) /\ tagged (snd p)) tensor_less_pair eq.
Proof.
  intros S R. destruct (on_set (fun p => (over S (fst p) /\ tagged (fst p)) /\ over S (snd p) /\ tagged (snd p)) tcmp2' tkey2 tensor_less_pair TO_tcmp2') as (A & B & D & E).
  - intros x y ((O1 & T1) & O2 & T2) ((O3 & T3) & O4 & T4). apply (tensor_less_pair_key S); auto; right; auto.
  - split; [|split; [|split]]; auto. intros x y X Y. rewrite E; auto. split; [intros [= _ _ _ _ H]; auto|intros ->; auto].
Qed.

Theorem C78_block_order : forall S, one_registry S ->
  strict_weak_on (fun i => over S i /\ tagged i) block_less (fun i j => shape i = shape j /\ ix_tag i = ix_tag j) /\
  strict_weak_on (fun p => (over S (fst p) /\ tagged (fst p)) /\ over S (snd p) /\ tagged (snd p)) block_less_pair
    (fun p q => shape (fst p) = shape (fst q) /\ shape (snd p) = shape (snd q) /\ ix_tag (fst p) = ix_tag (fst q) /\ ix_tag (snd p) = ix_tag (snd q)).
Proof.
  intros S R. assert (Y : forall i j, tagged i -> tagged j -> same_style i j) by (intros i j T T'; apply uniform_style; right; auto). split.
  - destruct (on_set (fun i => over S i /\ tagged i) bcmp bkey block_less TO_bcmp) as (A & B & D & E).
    + intros x y (O & T) (O' & T'). apply (block_less_key S); auto.
    + split; [|split; [|split]]; auto. intros x y X Z. rewrite E; auto. unfold bkey. split; [intros [= H1 H2]; auto|intros (-> & ->); auto].
  - destruct (on_set (fun p => (over S (fst p) /\ tagged (fst p)) /\ over S (snd p) /\ tagged (snd p)) bcmp2 bkey2 block_less_pair TO_bcmp2) as (A & B & D & E).
    + intros x y ((O1 & T1) & O2 & T2) ((O3 & T3) & O4 & T4). apply (block_less_pair_key S); auto.
    + split; [|split; [|split]]; auto. intros x y X Z. rewrite E; auto. unfold bkey2. split; [intros [= H1 H2 H3 H4]; auto|intros (-> & -> & -> & ->); auto].
Qed.

(** ** C79: slots and the adjoint *)

Theorem C79_constructor : forall l b k a s bk c t, make_tensor l b k a s bk c = Some t ->
  (t_label t, t_aux t, t_symm t, t_bk t, t_col t) = (l, a, s, bk, c) /\
  Permutation (columns b k) (columns (t_bra t) (t_ket t)) /\
  (s = Nonsymm -> c = ColSymm -> in_slot_order (columns (t_bra t) (t_ket t)) /\
     forall class, In class [paired; bra_only; ket_only] ->
       filter class (columns (t_bra t) (t_ket t)) = filter class (columns b k)) /\
  (s <> Nonsymm \/ c <> ColSymm \/ (forall i, In i (b ++ k) -> slot i <> None) -> t_bra t = b /\ t_ket t = k) /\
  t_bra_net t = length (filter (fun i => negb (ix_null i)) b) /\ t_ket_net t = length (filter (fun i => negb (ix_null i)) k).
Proof.
  intros l b k a s bk c t H. unfold make_tensor in H. set (t0 := mktensor l b k a s bk c (net_rank b) (net_rank k)) in *.
  destruct (validate_indices t0 && (is_nonsymm s || is_colsymm c)) eqn:E; [|discriminate]. injection H as <-.
  apply andb_true_iff in E. destruct E as (V & Sc).
  assert (W : wf t0) by (split; [exact V|]; split; [reflexivity|]; split; [reflexivity|exact Sc]).
  destruct (canon_fields t0) as (F1 & F2 & F3 & F4 & F5). split; [rewrite F1, F2, F3, F4, F5; auto|].
  pose proof (canon_columns t0 W) as CC. cbn [t0 t_symm t_col t_bra t_ket] in CC. fold t0 in CC.
  pose proof (wf_canon t0 W) as (_ & N1 & N2 & _).
  assert (P : Permutation (columns b k) (columns (t_bra (canonicalize_slots t0)) (t_ket (canonicalize_slots t0)))).
  { destruct s; try (rewrite canon_slots_keep by auto; apply Permutation_refl). destruct c; [|rewrite canon_slots_keep by auto; apply Permutation_refl].
    rewrite (CC eq_refl eq_refl). apply split_perm. apply (valid_cols t0); auto. }
  split; auto. split; [|split].
  - intros -> ->. cbv zeta in CC. specialize (CC eq_refl eq_refl). destruct (order_split _ _ CC) as (O1 & O2 & O3). split.
    + unfold in_slot_order. rewrite O1, O2, O3. exact CC.
    + intros f [<-|[<-|[<-|[]]]]; auto.
  - intros D. rewrite canon_slots_keep; auto. cbn [t0 t_symm t_col]. destruct s; auto. destruct c; auto. cbn [is_nonsymm is_colsymm andb].
    destruct D as [D|[D|D]]; try congruence.
    assert (G : forall m, (forall i, In i m -> slot i <> None) -> net_rank m = length m).
    { intros m Hm. apply full_net. intros x Hx. specialize (Hm x Hx). unfold slot, nn in *. destruct (ix_null x); cbn in *; congruence. }
    unfold have_empty. cbn [t0 t_bra t_ket t_bra_net t_ket_net]. rewrite !G, !Nat.eqb_refl; auto; intros i Hi; apply D; rewrite in_app_iff; auto.
  - rewrite N1, N2. rewrite (net_rank_columns (t_bra (canonicalize_slots t0)) (t_ket (canonicalize_slots t0))).
    rewrite (net_rank_columns' (t_bra (canonicalize_slots t0)) (t_ket (canonicalize_slots t0))).
    rewrite <- (Permutation_length (opts_perm fst _ _ P)), <- (Permutation_length (opts_perm snd _ _ P)).
    rewrite <- bra_of_columns, <- ket_of_columns. auto.
Qed.

Theorem C79_adjoint : forall t, made t -> exists t', adjoint t = Some t' /\ made t' /\
  (t_aux t', t_symm t', t_bk t', t_col t') = (t_aux t, t_symm t, t_bk t, t_col t) /\
  t_label t' = (match t_bk t with BKNonsymm => toggle_adjoint (t_label t) | _ => t_label t end) /\
  Permutation (columns (t_bra t') (t_ket t')) (map flip (columns (t_bra t) (t_ket t))) /\
  (t_symm t = Nonsymm -> t_col t = ColSymm -> in_slot_order (columns (t_bra t') (t_ket t'))) /\
  (t_symm t <> Nonsymm \/ t_col t <> ColSymm \/ full t -> t_bra t' = t_ket t /\ t_ket t' = t_bra t) /\
  t_bra_net t' = t_ket_net t /\ t_ket_net t' = t_bra_net t.
Proof.
  intros t M. destruct (made_ready t M) as (W & _). rewrite (adjoint_eq t W).
  eexists. split; [reflexivity|]. split; [eapply made_adjoint; [exact M|apply adjoint_eq; auto]|].
  pose proof (wf_swapped t W) as W'. destruct (canon_fields (swapped t)) as (F1 & F2 & F3 & F4 & F5).
  unfold relabel. cbn [t_label t_bra t_ket t_aux t_symm t_bk t_col t_bra_net t_ket_net]. rewrite F2, F3, F4, F5. cbn [swapped t_aux t_symm t_bk t_col].
  split; auto. split; [reflexivity|].
  assert (P : Permutation (columns (t_bra (canonicalize_slots (swapped t))) (t_ket (canonicalize_slots (swapped t)))) (map flip (columns (t_bra t) (t_ket t)))).
  { rewrite <- columns_swap. destruct (is_nonsymm (t_symm t) && is_colsymm (t_col t) && have_empty (swapped t)) eqn:E.
    2: { rewrite canon_slots_keep by auto. apply Permutation_refl. }
    apply andb_true_iff in E. destruct E as (E & _). apply andb_true_iff in E. destruct E as (E1 & E2).
    assert (NS : t_symm t = Nonsymm) by (destruct (t_symm t); auto; discriminate).
    assert (CS : t_col t = ColSymm) by (destruct (t_col t); auto; discriminate).
    rewrite (canon_columns (swapped t)); auto. apply Permutation_sym. apply (split_perm (columns (t_ket t) (t_bra t))). apply (valid_cols (swapped t)); auto. }
  split; auto. split; [|split].
  - intros NS CS. pose proof (canon_columns (swapped t) W' NS CS) as CC. cbv zeta in CC.
    destruct (order_split _ _ CC) as (O1 & O2 & O3). unfold in_slot_order. rewrite O1, O2, O3. exact CC.
  - intros D. assert (K : canonicalize_slots (swapped t) = swapped t); [|rewrite K; auto].
    destruct D as [D|[D|D]].
    + apply canon_slots_keep. cbn. destruct (t_symm t); auto; congruence.
    + apply canon_slots_keep. cbn. destruct (t_col t); try congruence. rewrite andb_false_r. auto.
    + apply full_not_rebuilt; [|apply W'|apply W'].
      intros i. cbn. rewrite in_app_iff. intros H. apply D. rewrite in_app_iff. tauto.
  - destruct (wf_canon _ W') as (_ & N1 & N2 & _). rewrite N1, N2.
    rewrite (net_rank_columns (t_bra (canonicalize_slots (swapped t))) (t_ket (canonicalize_slots (swapped t)))).
    rewrite (net_rank_columns' (t_bra (canonicalize_slots (swapped t))) (t_ket (canonicalize_slots (swapped t)))).
    rewrite (Permutation_length (opts_perm fst _ _ P)), (Permutation_length (opts_perm snd _ _ P)).
    rewrite opts_fst_flip, opts_snd_flip, <- net_rank_columns, <- net_rank_columns'. destruct W as (_ & N3 & N4 & _). auto.
Qed.

Theorem C79_adjoint_twice : forall t, made t ->
  (t_bk t = BKNonsymm -> ~ exists l, t_label t = l ++ [adjoint_char; adjoint_char]) ->
  exists t1 t2, adjoint t = Some t1 /\ adjoint t1 = Some t2 /\
    columns (t_bra t2) (t_ket t2) = columns (t_bra t) (t_ket t) /\
    (t_label t2, t_aux t2, t_symm t2, t_bk t2, t_col t2, t_bra_net t2, t_ket_net t2) =
    (t_label t, t_aux t, t_symm t, t_bk t, t_col t, t_bra_net t, t_ket_net t) /\
    (t2 = t <-> ~ padded t).
Proof.
  intros t M L. pose proof (made_ready t M) as Rd. pose proof Rd as (W & Rd'). destruct (adjoint_twice t W) as (t1 & A1 & A2).
  eexists t1, _. split; [exact A1|]. split; [exact A2|].
  assert (LL : match t_bk t with BKNonsymm => toggle_adjoint (toggle_adjoint (t_label t)) | _ => t_label t end = t_label t).
  { destruct (t_bk t); auto. apply toggle_twice. auto. }
  rewrite LL. clear A1 A2 LL L.
  assert (FT : t_aux (twice t) = t_aux t /\ t_symm (twice t) = t_symm t /\ t_bk (twice t) = t_bk t /\ t_col (twice t) = t_col t /\ t_label (twice t) = t_label t).
  { unfold twice. destruct (canon_fields (swapped (canonicalize_slots (swapped t)))) as (F1 & F2 & F3 & F4 & F5).
    destruct (canon_fields (swapped t)) as (G1 & G2 & G3 & G4 & G5). cbn in *. repeat split; congruence. }
  assert (RL : relabel (twice t) (t_label t) = twice t).
  { destruct FT as (_ & _ & _ & _ & FL). rewrite <- FL. apply relabel_same. }
  rewrite RL.
  assert (NET : columns (t_bra (twice t)) (t_ket (twice t)) = columns (t_bra t) (t_ket t) -> t_bra_net (twice t) = t_bra_net t /\ t_ket_net (twice t) = t_ket_net t).
  { intros E. assert (W2 : wf (twice t)) by (unfold twice; apply wf_canon, wf_swapped, wf_canon, wf_swapped; auto).
    destruct W2 as (_ & N1 & N2 & _), W as (_ & N3 & N4 & _). rewrite N1, N2, N3, N4.
    rewrite (net_rank_columns (t_bra (twice t)) (t_ket (twice t))), (net_rank_columns' (t_bra (twice t)) (t_ket (twice t))), E.
    rewrite <- net_rank_columns, <- net_rank_columns'. auto. }
  assert (CASE : (t_symm t = Nonsymm /\ t_col t = ColSymm) \/ ~ (t_symm t = Nonsymm /\ t_col t = ColSymm)).
  { destruct (t_symm t), (t_col t); try (right; intros (? & ?); discriminate). left. auto. }
  destruct CASE as [(NS & CS)|N].
  - destruct (twice_shape t Rd NS CS) as (C1 & C2 & C3 & C4). destruct (NET C1) as (K1 & K2).
    split; auto. split; [destruct FT as (-> & -> & -> & -> & ->); rewrite K1, K2; auto|].
    split.
    + intros E (_ & _ & (x & Hx & X) & KO). assert (HE : have_empty t = true) by (apply (empty_iff t W); exists x; rewrite in_app_iff; auto).
      apply (C4 HE KO). rewrite E. auto.
    + intros NP. destruct (have_empty t) eqn:HE; auto. apply C3; auto. intros KO. apply NP. split; auto. split; auto. split; auto.
      apply (empty_iff t W) in HE as H. destruct H as (x & Hx & X). exists x. split; auto. rewrite in_app_iff in Hx. destruct Hx as [Hx|Hx]; auto. exfalso.
      destruct (Rd' NS CS) as (_ & Fo). destruct (Fo eq_refl) as (B & _). rewrite B in Hx. unfold cbra in Hx.
      assert (G : forall p, In x (opts fst (filter p (columns (t_bra t) (t_ket t)))) -> False).
      { intros p H. apply In_opts in H. destruct H as (c & Hc & Ec). apply filter_In in Hc. destruct Hc as (Hc & _).
        destruct (columns_slot _ _ _ Hc) as (S1 & _). specialize (S1 _ Ec). unfold nn in S1. rewrite X in S1. discriminate. }
      apply in_app_or in Hx. destruct Hx as [Hx|Hx]; eapply G; eauto.
  - rewrite (twice_other t W N). split; auto. split; auto. split; auto. intros _ (A & B & _). tauto.
Qed.

(** ** C80: the default canonicalizer *)

(** Whatever comparers are set: if the sorts end, the result differs from the argument only by the
    permutations that the declared symmetry allows, and the sign is theirs; so the value is kept. *)
Theorem C80_value : forall (idxcmp : index -> index -> bool) (paircmp : index * index -> index * index -> bool) t t' sg,
  canon_core idxcmp paircmp t = Some (t', sg) ->
  related t t' sg /\
  forall R (opp : R -> R) V, respects opp (t_symm t) V ->
    V (t_bra t) (t_ket t) = if sg then opp (V (t_bra t') (t_ket t')) else V (t_bra t') (t_ket t').
Proof.
  intros ic pc t t' sg H. apply core_related in H. split; auto. intros R opp V HV. apply related_value; auto.
Qed.

Theorem C80_default_value : forall ext t t' sg, default_apply ext t = Some (t', sg) ->
  related t t' sg /\
  forall R (opp : R -> R) V, respects opp (t_symm t) V ->
    V (t_bra t) (t_ket t) = if sg then opp (V (t_bra t') (t_ket t')) else V (t_bra t') (t_ket t').
Proof.
  intros ext t t' sg H. apply default_related in H. split; auto. intros R opp V HV. apply related_value; auto.
Qed.

(** Tensors that are the same up to the declared symmetry have the same canonical form, and their
    signs differ as they do. *)
Theorem C80_canonical : forall S ext t u sg, one_registry S -> made t -> clean S (slots t) -> related t u sg ->
  exists r s, default_apply ext t = Some (r, s) /\ default_apply ext u = Some (r, xorb s sg).
Proof.
  intros S ext t u sg R M C E. destruct (default_same S ext t u sg R C E) as (r & s1 & s2 & A & B & D).
  exists r, s1. split; auto. rewrite B. rewrite D; auto. apply made_nodup. auto.
Qed.

Theorem C80_idempotent : forall S ext t r s, one_registry S -> made t -> clean S (slots t) ->
  default_apply ext t = Some (r, s) -> default_apply ext r = Some (r, false).
Proof.
  intros S ext t r s R M C H. pose proof (default_related _ _ _ _ H) as E.
  destruct (C80_canonical S ext t r s R M C E) as (r' & s' & A & B). rewrite H in A. injection A as <- <-.
  rewrite B, xorb_nilpotent. auto.
Qed.

(** In a symmetric or antisymmetric bundle, among indices of one kind the external ones come
    first. *)
Theorem C80_external_first : forall S ext t r s, one_registry S -> clean S ext -> clean S (slots t) ->
  default_apply ext t = Some (r, s) -> t_col t = ColSymm -> t_symm t <> Nonsymm ->
  forall bundle l1 x l2 y l3, bundle = t_bra r \/ bundle = t_ket r ->
    bundle = l1 ++ x :: l2 ++ y :: l3 -> shape x = shape y -> In y ext -> In x ext.
Proof.
  intros S ext t r s R Ce C H Cs Sy bundle l1 x l2 y l3 Hb E Sh Hy.
  destruct (default_form S ext t R C) as (u & s' & D & _ & F). rewrite H in D. injection D as -> ->.
  destruct F as (_ & F). cbn [tag_indices t_col t_symm t_bra t_ket] in F. rewrite Cs in F.
  unfold slots in C. apply clean_app in C. destruct C as (Cb & C). apply clean_app in C. destruct C as (Ck & _).
  assert (G : Permutation (map (tag_index ext) (t_bra t)) (t_bra u) /\ in_sorted_order (key_less tcmp' tkey) (t_bra u) /\
              Permutation (map (tag_index ext) (t_ket t)) (t_ket u) /\ in_sorted_order (key_less tcmp' tkey) (t_ket u)).
  { destruct (t_symm t); [tauto|tauto|congruence]. }
  destruct G as (P1 & S1 & P2 & S2). destruct Hb as [-> | ->]; cbn in E.
  - eapply (external_first S ext (t_bra t) (t_bra u)); eauto.
  - eapply (external_first S ext (t_ket t) (t_ket u)); eauto.
Qed.

(** ** C81: the canonicalizer of blocks *)

Theorem C81_value : forall sort ext t t' sg, block_apply sort ext t = Some (t', sg) ->
  forall R (opp : R -> R) V, respects opp (t_symm t) V -> (t_bk t = BKSymm -> forall b k, V b k = V k b) ->
    V (t_bra t) (t_ket t) = if sg then opp (V (t_bra t') (t_ket t')) else V (t_bra t') (t_ket t').
Proof. intros. eapply block_value; eauto. Qed.

(** Without the symmetry, bra and ket are never exchanged. *)
Theorem C81_no_exchange : forall sort ext t t' sg, block_apply sort ext t = Some (t', sg) -> t_bk t <> BKSymm -> related t t' sg.
Proof. intros sort ext t t' sg H N. destruct (block_related _ _ _ _ _ H) as [E|(K & _)]; auto. congruence. Qed.

(** Tensors that are the same up to the declared permutational symmetry have the same block, however
    the sort orders equal elements. *)
Theorem C81_block : forall S sort sort' ext t u sg, one_registry S -> S null_space ->
  sorts (over S) space_less sort -> sorts (over S) space_less sort' ->
  made t -> made u -> clean S (slots t) -> null_ok (t_bra t ++ t_ket t) -> related t u sg ->
  exists t1 s1 u1 s2, block_apply sort ext t = Some (t1, s1) /\ block_apply sort' ext u = Some (u1, s2) /\ block t1 = block u1.
Proof.
  intros S sort sort' ext t u sg R N So So' M M' C O E. eapply block_same; eauto; [apply (made_ready t M)|apply (made_ready u M')].
Qed.

(** So have a tensor and its mirror image, if bra and ket differ in their spaces. *)
Theorem C81_mirror : forall S sort sort' ext t u, one_registry S -> S null_space ->
  sorts (over S) space_less sort -> sorts (over S) space_less sort' ->
  made t -> made u -> mirror t u -> clean S (slots t) -> null_ok (t_bra t ++ t_ket t) -> full t -> t_bk t = BKSymm ->
  ~ Permutation (map shape (t_bra t)) (map shape (t_ket t)) ->
  exists t1 s1 u1 s2, block_apply sort ext t = Some (t1, s1) /\ block_apply sort' ext u = Some (u1, s2) /\ block t1 = block u1.
Proof.
  intros S sort sort' ext t u R N So So' M M' Mi C O F K NP. destruct (made_ready t M) as (W & _), (made_ready u M') as (W' & _).
  destruct (block_mirror S sort sort' ext t R N So So' C O W F K NP) as (v & t1 & s1 & u1 & s2 & E & Eb & Ek & A & B & D).
  assert (V : v = u).
  { destruct (swap_ready t W) as (v' & Ev & -> & (Wv & _)). rewrite E in Ev. injection Ev as Ev.
    destruct (canon_fields (swapped t)) as (F1 & F2 & F3 & F4 & F5). rewrite <- Ev in *. cbn in F1, F2, F3, F4, F5.
    destruct Mi as (G1 & G2 & G3 & G4 & G5 & G6 & G7). destruct Wv as (_ & N1 & N2 & _), W' as (_ & N3 & N4 & _).
    destruct u, v; cbn in *. subst. auto. }
  subst v. exists t1, s1, u1, s2. auto.
Qed.

(** The bra of the result never comes before its ket. *)
Theorem C81_oriented : forall S sort sort' ext t r s, one_registry S -> sorts (over S) space_less sort -> sorts (over S) space_less sort' ->
  made t -> clean S (slots t) -> full t -> t_bk t = BKSymm ->
  block_apply sort ext t = Some (r, s) -> lex_less space_less (sort' (t_bra r)) (sort' (t_ket r)) = false.
Proof.
  intros S sort sort' ext t r s R So So' M C F K H. destruct (made_ready t M) as (W & _).
  apply (block_oriented S sort sort' ext t r s R So So' C W F K H).
Qed.

(** ** C82: order of tensors *)

Theorem C82_order : forall S hash (U : tensor -> Prop), one_registry S ->
  (forall t, U t -> clean S (slots t)) ->
  (forall t u, U t -> U u -> hash (t_bra t) = hash (t_bra u) -> t_bra t = t_bra u) ->
  strict_weak_on U (tensor_ltb hash)
    (fun t u => t_label t = t_label u /\ t_bra t = t_bra u /\ t_ket t = t_ket u /\ t_aux t = t_aux u).
Proof.
  intros S hash U R C H. destruct (on_set U ocmp7 okey (tensor_ltb hash) TO_ocmp7) as (A & B & D & E).
  - intros x y X Y. apply (tensor_order_key S); auto; apply C; auto.
  - split; [|split; [|split]]; auto. intros x y X Y. rewrite E; auto. unfold okey. split.
    + intros [= H1 H2 H3 H4 H5 H6 H7]. auto.
    + intros (-> & -> & -> & ->). auto.
Qed.

Theorem C82_equality : forall t u, tensor_eqb t u = true <->
  t_label t = t_label u /\ map identity (t_bra t) = map identity (t_bra u) /\
  map identity (t_ket t) = map identity (t_ket u) /\ map identity (t_aux t) = map identity (t_aux u) /\
  t_symm t = t_symm u /\ t_bk t = t_bk u /\ t_col t = t_col u.
Proof.
  assert (L : forall l m, str_eqb l m = true <-> l = m).
  { induction l as [|x l IH]; intros [|y m]; cbn; try (split; congruence).
    rewrite andb_true_iff, Z.eqb_eq, IH. split; [intros (-> & ->); auto|intros [= -> ->]; auto]. }
  intros t u. unfold tensor_eqb. rewrite !andb_true_iff, !list_eqb_spec, L.
  assert (A : symm_eqb (t_symm t) (t_symm u) = true <-> t_symm t = t_symm u) by (destruct (t_symm t), (t_symm u); cbn; split; congruence).
  assert (B : bk_eqb (t_bk t) (t_bk u) = true <-> t_bk t = t_bk u) by (destruct (t_bk t), (t_bk u); cbn; split; congruence).
  assert (C : col_eqb (t_col t) (t_col u) = true <-> t_col t = t_col u) by (destruct (t_col t), (t_col u); cbn; split; congruence).
  tauto.
Qed.

(** ** Cases that meet the hypotheses, and refutations *)

Module TsrExample.

(** Occupied and virtual orbitals. *)
Definition occ : space := mkspace 1 1 10.
Definition vir : space := mkspace 1 2 11.
Definition act : space := mkspace 1 4 12.
Definition reg (s : space) : Prop := In s [null_space; occ; vir; act].

Lemma reg_one : one_registry reg.
Proof. intros s s' H H'. cbn in H, H'. intuition subst; cbn in *; congruence. Qed.

Definition o (n : nat) : index := Idx occ (Some n) None [].
Definition v (n : nat) : index := Idx vir (Some n) None [].
Definition c (n : nat) : index := Idx act (Some n) None [].
(** a virtual orbital of a pair of occupied ones *)
Definition w (n a b : nat) : index := Idx vir (Some n) None [o a; o b].
Definition tg (i : index) (z : Z) : index := with_tag i (Some z).

Lemma part_leaf x s n t : part x (Idx s n t []) -> x = Idx s n t [].
Proof. intros H. inversion H as [|i p Hp Hx]; subst; auto. destruct Hp. Qed.
Lemma over_leaf s n t : reg s -> over reg (Idx s n t []).
Proof. intros R x H. apply part_leaf in H. subst. auto. Qed.
Lemma untagged_leaf s n : untagged (Idx s n None []).
Proof. intros x H. apply part_leaf in H. subst. auto. Qed.
Lemma reg_occ : reg occ. Proof. cbn; auto. Qed.
Lemma reg_vir : reg vir. Proof. cbn; auto. Qed.
Lemma reg_act : reg act. Proof. cbn; auto. Qed.
Lemma reg_null : reg null_space. Proof. cbn; auto. Qed.

Lemma clean_o n : over reg (o n) /\ untagged (o n). Proof. split; [apply over_leaf, reg_occ|apply untagged_leaf]. Qed.
Lemma clean_v n : over reg (v n) /\ untagged (v n). Proof. split; [apply over_leaf, reg_vir|apply untagged_leaf]. Qed.
Lemma clean_c n : over reg (c n) /\ untagged (c n). Proof. split; [apply over_leaf, reg_act|apply untagged_leaf]. Qed.
Lemma clean_null : over reg null_index /\ untagged null_index. Proof. split; [apply over_leaf, reg_null|apply untagged_leaf]. Qed.
Lemma clean_w n a b : over reg (w n a b) /\ untagged (w n a b).
Proof.
  split.
  - apply over_intro; [apply reg_vir|]. constructor; [apply clean_o|constructor; [apply clean_o|constructor]].
  - apply untagged_intro. constructor; [apply clean_o|constructor; [apply clean_o|constructor]].
Qed.
Lemma tagged_of i z : untagged i -> tagged (tg i z).
Proof. destruct i as [s n t ps]. intros U. split; [cbn; eauto|]. cbn. apply Forall_forall. eapply untagged_proto; eauto. Qed.
Ltac cl := repeat match goal with
  | |- clean _ _ => intros i Hi; cbn in Hi
  | H : _ \/ _ |- _ => destruct H as [<-|H]
  | H : False |- _ => destruct H
  end; auto using clean_o, clean_v, clean_c, clean_w, clean_null.

(** C76 *)
Example C76_case : ix_cmp (o 2) (v 1) = Lt /\ ix_cmp (w 1 1 2) (w 1 1 3) = Lt /\ ix_cmp (v 2) (w 2 1 1) = Lt /\
  over reg (w 1 1 2) /\ untagged (w 1 1 2) /\ ix_cmp (tg (v 1) 0) (tg (o 1) 1) = Lt /\ tagged (tg (v 1) 0).
Proof. repeat split; try reflexivity; try apply clean_w; try apply tagged_of; try apply clean_v. Qed.

(** Indices some of which have tags are not ordered: i_1 (tag 2) < i_2 < i_3 (tag 1) < i_1 (tag 2). *)
Theorem C76_mixed_tags_refuted : exists S i j k, one_registry S /\ over S i /\ over S j /\ over S k /\
  ix_cmp i j = Lt /\ ix_cmp j k = Lt /\ ix_cmp k i = Lt.
Proof.
  exists reg, (tg (o 1) 2), (o 2), (tg (o 3) 1). split; [apply reg_one|].
  split; [apply over_leaf, reg_occ|]. split; [apply over_leaf, reg_occ|]. split; [apply over_leaf, reg_occ|]. repeat split; reflexivity.
Qed.

(** Spaces that differ in their keys only: the indices are different and neither is less. *)
Definition occ' : space := mkspace 1 1 13.
Theorem C76_keys_refuted : exists i j, untagged i /\ untagged j /\ ix_eqb i j = false /\ ix_cmp i j = Eq.
Proof. exists (o 1), (Idx occ' (Some 1) None []). repeat split; try reflexivity; apply untagged_leaf. Qed.

(** C77 *)
Example C77_case : label_less (o 1) (o 2) = true /\ label_less (w 1 1 2) (w 1 1 3) = false /\ full_label_less (w 1 1 2) (w 1 1 3) = true /\
  full_label_less (v 1) (w 1 1 2) = true.
Proof. repeat split; reflexivity. Qed.

(** Neither of i_1 and i'_1 is less, neither of i'_1 and i_2 is less, but i_1 is less than i_2. *)
Theorem C77_keys_refuted : exists i j k, untagged i /\ untagged j /\ untagged k /\ forall lt, lt = label_less \/ lt = full_label_less ->
  lt i j = false /\ lt j i = false /\ lt j k = false /\ lt k j = false /\ lt i k = true.
Proof.
  exists (o 1), (Idx occ' (Some 1) None []), (o 2). repeat (split; [apply untagged_leaf|]).
  intros lt [-> | ->]; repeat split; reflexivity.
Qed.

(** C78 *)
Example C78_case : tensor_less (tg (o 5) 1) (tg (v 1) 0) = true /\ tensor_less (tg (o 5) 0) (tg (o 1) 1) = true /\
  block_less (tg (o 1) 0) (tg (o 2) 0) = false /\ tensor_less (tg (o 1) 0) (tg (o 2) 0) = true /\
  block_less (tg (w 1 1 2) 0) (tg (v 1) 0) = true /\ tensor_less_pair (tg (o 1) 0, tg (v 2) 0) (tg (o 1) 0, tg (v 3) 0) = true.
Proof. repeat split; reflexivity. Qed.

(** Spaces that differ in their keys only: each index compares greater than the other. *)
Theorem C78_keys_refuted : exists i j, compare_spaces i j = 1%Z /\ compare_spaces j i = 1%Z.
Proof. exists (o 1), (Idx occ' (Some 1) None []). repeat split; reflexivity. Qed.

(** C79 *)
Definition mk s bk b k := make_tensor [103%Z] b k [] s bk ColSymm.
Definition get (x : option tensor) : tensor := match x with Some t => t | None => mktensor [] [] [] [] Symm BKSymm ColSymm 0 0 end.

Lemma get_made l s bk b k : make_tensor l b k [] s bk ColSymm <> None -> made (get (make_tensor l b k [] s bk ColSymm)).
Proof. intros H. destruct (make_tensor l b k [] s bk ColSymm) as [t|] eqn:E; [|congruence]. cbn. eapply made_ctor. exact E. Qed.
Ltac md := apply get_made; vm_compute; discriminate.

Definition t1 := get (mk Nonsymm BKNonsymm [o 1; null_index; o 2] [null_index; v 1; v 2]).
Example C79_case : made t1 /\ t_bra t1 = [o 2; o 1] /\ t_ket t1 = [v 2; null_index; v 1] /\
  match adjoint t1 with Some t' => t_bra t' = [v 2; v 1] /\ t_ket t' = [o 2; null_index; o 1] | None => False end /\ ~ padded t1.
Proof.
  split; [md|]. repeat split; try reflexivity. intros (_ & _ & _ & H). vm_compute in H. discriminate.
Qed.

(** The adjoint of the adjoint of a padded tensor is another tensor. *)
Definition padded1 := get (mk Nonsymm BKNonsymm [o 1; o 2] [v 1; null_index]).
Theorem C79_adjoint_twice_refuted : exists t t' t'', made t /\ adjoint t = Some t' /\ adjoint t' = Some t'' /\ tensor_eqb t'' t = false.
Proof.
  exists padded1. eexists _, _. split; [md|]. repeat split; try reflexivity.
Qed.

(** The same columns can be represented by two tensors that are not equal. *)
Theorem C79_representation_refuted : exists t u, made t /\ made u /\ t_label t = t_label u /\
  columns (t_bra t) (t_ket t) = columns (t_bra u) (t_ket u) /\ tensor_eqb t u = false.
Proof.
  exists padded1, (get (mk Nonsymm BKNonsymm [o 1; o 2] [v 1])).
  split; [md|]. split; [md|]. repeat split; reflexivity.
Qed.

(** The adjoint of the adjoint of a tensor whose label ends with two adjoint marks has another label. *)
Theorem C79_label_refuted : exists t t' t'', made t /\ adjoint t = Some t' /\ adjoint t' = Some t'' /\ t_label t'' <> t_label t.
Proof.
  exists (get (make_tensor [97; adjoint_char; adjoint_char]%Z [o 1] [v 1] [] Nonsymm BKNonsymm ColSymm)). eexists _, _.
  split; [md|]. repeat split; try reflexivity. vm_compute. discriminate.
Qed.

(** Replacing the bra leaves the number of bra indices as it was. *)
Theorem C79_set_bra_refuted : exists t l, made t /\ validate_indices (set_bra t l) = true /\
  t_bra_net (set_bra t l) <> length (filter (fun i => negb (ix_null i)) (t_bra (set_bra t l))) /\
  ~ in_slot_order (columns (t_bra (canonicalize_slots (set_bra t l))) (t_ket (canonicalize_slots (set_bra t l)))).
Proof.
  exists (get (mk Nonsymm BKNonsymm [o 1; o 2] [v 1; v 2])), [null_index; o 2].
  split; [md|]. split; [reflexivity|]. split; vm_compute; discriminate.
Qed.

(** C80 *)
Definition g1 := get (mk Antisymm BKConjugate [o 2; o 1] [v 1; v 2]).
Definition g2 := get (mk Antisymm BKConjugate [o 1; o 2] [v 1; v 2]).
Example C80_case : made g1 /\ made g2 /\ clean reg (slots g1) /\ related g1 g2 true /\
  default_apply [] g1 = Some (g2, true) /\ default_apply [o 2] g1 = Some (g1, false) /\ default_apply [o 2] g2 = Some (g1, true).
Proof.
  split; [md|]. split; [md|]. split; [cl|].
  split; [|repeat split; reflexivity].
  unfold related. cbn. do 7 (split; [reflexivity|]). exists 1, 0. repeat split; [|constructor].
  apply (ex_swap 0 [] (o 2) [] (o 1) []). constructor.
Qed.
Definition h1 := get (mk Nonsymm BKConjugate [o 2; o 1; o 3] [v 1; v 3]).
Definition h2 := get (mk Nonsymm BKConjugate [o 1; o 2; o 3] [v 3; v 1]).
Example C80_columns_case : made h1 /\ clean reg (slots h1) /\ default_apply [] h1 = Some (h2, false).
Proof. split; [md|]. split; [cl|reflexivity]. Qed.
Example C80_proto_case : default_apply [] (get (mk Antisymm BKConjugate [w 1 1 2; w 1 1 1] [o 1; o 2])) =
  Some (get (mk Antisymm BKConjugate [w 1 1 1; w 1 1 2] [o 1; o 2]), true).
Proof. reflexivity. Qed.

(** The documentation says that the external indices come before the internal ones. Across spaces
    they need not. *)
Theorem C80_external_first_refuted : exists S ext t r s x y, one_registry S /\ clean S ext /\ clean S (slots t) /\ made t /\
  t_symm t = Antisymm /\ default_apply ext t = Some (r, s) /\ t_bra r = [x; y] /\ In y ext /\ ~ In x ext.
Proof.
  exists reg, [v 1], (get (mk Antisymm BKConjugate [v 1; o 1] [v 2; v 3])). eexists _, _, (o 1), (v 1).
  split; [apply reg_one|]. split; [cl|]. split; [cl|]. split; [md|]. split; [reflexivity|]. split; [reflexivity|].
  split; [reflexivity|]. split; [cbn; auto|]. intros [H|[]]. discriminate.
Qed.

(** The canonical form of a tensor with empty slots need not have its slots in the order that the
    constructor makes. *)
Theorem C80_slot_order_refuted : exists S t r s, one_registry S /\ clean S (slots t) /\ made t /\
  in_slot_order (columns (t_bra t) (t_ket t)) /\ default_apply [] t = Some (r, s) /\ ~ in_slot_order (columns (t_bra r) (t_ket r)).
Proof.
  exists reg, (get (mk Nonsymm BKNonsymm [o 2; o 1] [o 3; null_index])). eexists _, _.
  split; [apply reg_one|]. split; [cl|]. split; [md|]. split; [reflexivity|]. split; [reflexivity|]. vm_compute. discriminate.
Qed.

(** C81 *)
(** A sort that is a sort. *)
Definition bsort (l : list index) : list index := match bubble_sort space_less l with Some (r, _) => r | None => l end.
Lemma bsort_sorts : forall S, one_registry S -> sorts (over S) space_less bsort.
Proof.
  intros S R l F. unfold bsort. rewrite Forall_forall in F. rewrite (bubble_ext space_less (key_less hcmp shape)).
  2: { intros x y X Y. apply (compare_spaces_shape S); auto. }
  destruct (key_bubble hcmp shape TO_hcmp l) as (r & E & P & So). rewrite E. split; auto.
  eapply sorted_ext; [|exact So]. intros x y X Y. symmetry. apply (compare_spaces_shape S); auto; apply F;
    (eapply Permutation_in; [apply Permutation_sym; exact P|auto]).
Qed.

Definition x1 := get (mk Nonsymm BKSymm [o 2; o 1] [v 1; o 3]).
Definition x2 := get (mk Nonsymm BKSymm [v 1; o 3] [o 2; o 1]).
Lemma null_ok_reg l : (forall i, In i l -> exists s n, i = Idx s (Some n) None [] /\ s <> null_space) -> null_ok l.
Proof. intros H i Hi E. destruct (H i Hi) as (s & n & -> & N). cbn in E. injection E as E. contradiction. Qed.
Example C81_case : made x1 /\ made x2 /\ mirror x1 x2 /\ clean reg (slots x1) /\ full x1 /\ null_ok (t_bra x1 ++ t_ket x1) /\
  ~ Permutation (map shape (t_bra x1)) (map shape (t_ket x1)) /\
  option_map fst (block_apply bsort [] x1) = Some (get (mk Nonsymm BKSymm [o 3; v 1] [o 1; o 2])) /\
  option_map fst (block_apply bsort [] x2) = Some (get (mk Nonsymm BKSymm [o 3; v 1] [o 1; o 2])).
Proof.
  split; [md|]. split; [md|]. split; [repeat split|]. split; [cl|].
  split. { intros i Hi. cbn in Hi. repeat destruct Hi as [<-|Hi]; try discriminate; destruct Hi. }
  split. { apply null_ok_reg. intros i Hi. cbn in Hi. repeat destruct Hi as [<-|Hi]; try (eexists _, _; split; [reflexivity|discriminate]); destruct Hi. }
  split. { intros P. assert (I : In (shape (v 1)) (map shape (t_bra x1))).
           { eapply Permutation_in; [apply Permutation_sym; exact P|cbn; auto]. }
           cbn in I. destruct I as [I|[I|[]]]; discriminate. }
  split; reflexivity.
Qed.

(** A tensor and its mirror image can have different blocks if their bra and ket have the same
    spaces: columns (a, b), (b, c), (c, a). *)
Definition y1 := get (mk Nonsymm BKSymm [o 1; v 1; c 1] [v 2; c 2; o 2]).
Definition y2 := get (mk Nonsymm BKSymm [v 2; c 2; o 2] [o 1; v 1; c 1]).
Theorem C81_mirror_refuted : exists S sort t u a b s1 s2, one_registry S /\ sorts (over S) space_less sort /\ made t /\ made u /\ mirror t u /\
  clean S (slots t) /\ full t /\ t_bk t = BKSymm /\
  block_apply sort [] t = Some (a, s1) /\ block_apply sort [] u = Some (b, s2) /\ block a <> block b.
Proof.
  exists reg, bsort, y1, y2. eexists _, _, _, _. split; [apply reg_one|]. split; [apply bsort_sorts, reg_one|].
  split; [md|]. split; [md|]. split; [repeat split|]. split; [cl|].
  split. { intros i Hi. cbn in Hi. repeat destruct Hi as [<-|Hi]; try discriminate; destruct Hi. }
  split; [reflexivity|]. split; [reflexivity|]. split; [reflexivity|]. vm_compute. discriminate.
Qed.

(** An empty slot at the end of the ket changes the orientation. *)
Theorem C81_padding_refuted : exists S sort t u a b s1 s2, one_registry S /\ sorts (over S) space_less sort /\ made t /\ made u /\
  clean S (slots t) /\ clean S (slots u) /\ t_bk t = BKSymm /\ t_bk u = BKSymm /\
  columns (t_bra t) (t_ket t) = columns (t_bra u) (t_ket u) /\
  block_apply sort [] t = Some (a, s1) /\ block_apply sort [] u = Some (b, s2) /\
  Permutation (t_bra a) (t_ket t) /\ Permutation (t_bra b) (t_bra u).
Proof.
  exists reg, bsort, (get (mk Nonsymm BKSymm [o 1; o 2] [v 1])), (get (mk Nonsymm BKSymm [o 1; o 2] [v 1; null_index])).
  eexists _, _, _, _. split; [apply reg_one|]. split; [apply bsort_sorts, reg_one|].
  split; [md|]. split; [md|]. split; [cl|]. split; [cl|].
  do 3 (split; [reflexivity|]). split; [reflexivity|]. split; [reflexivity|]. split.
  - apply Permutation_refl.
  - constructor.
Qed.

(** C82 *)
Definition u1 := get (mk Nonsymm BKNonsymm [o 1] [v 1]).
Definition u2 := get (mk Nonsymm BKNonsymm [o 1] [v 2]).
Example C82_case : tensor_ltb (fun _ => 0%Z) u1 u2 = true /\ clean reg (slots u1) /\ clean reg (slots u2).
Proof. split; [reflexivity|]. split; cl. Qed.

(** Tensors that differ in symmetry only are different and neither is less. *)
Theorem C82_symmetry_refuted : exists t u, made t /\ made u /\ tensor_eqb t u = false /\
  forall hash, tensor_ltb hash t u = false /\ tensor_ltb hash u t = false.
Proof.
  exists (get (mk Nonsymm BKNonsymm [o 1; o 2] [v 1; v 2])), (get (mk Antisymm BKNonsymm [o 1; o 2] [v 1; v 2])).
  split; [md|]. split; [md|]. split; [reflexivity|].
  intros hash. pose (h := hash [o 1; o 2]).
  split; (transitivity (if negb (h =? h)%Z then lex_less ix_ltb [o 1; o 2] [o 1; o 2] else false); [reflexivity|rewrite Z.eqb_refl; reflexivity]).
Qed.

(** If two bras have the same hash value, the order can have cycles. *)
Theorem C82_collision_refuted : exists hash t u x, made t /\ made u /\ made x /\
  tensor_ltb hash t u = true /\ tensor_ltb hash u x = true /\ tensor_ltb hash x t = true.
Proof.
  exists (fun l => match l with Idx _ (Some 2) _ _ :: _ => 1%Z | _ => 0%Z end).
  exists (get (mk Nonsymm BKNonsymm [o 1] [v 2])), (get (mk Nonsymm BKNonsymm [o 2] [v 1])), (get (mk Nonsymm BKNonsymm [o 3] [v 1])).
  split; [md|]. split; [md|]. split; [md|]. repeat split; reflexivity.
Qed.

End TsrExample.
