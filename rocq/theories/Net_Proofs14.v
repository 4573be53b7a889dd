(** Canonicalization always succeeds: all steps together. *)
From Coq Require Import ZArith List Arith Bool Permutation Sorted Lia.
From Verif Require Import Alg_Model Alg_Spec Alg_Proofs1 Alg_Proofs2 Tsr_Model Tsr_Spec Tsr_Proofs1 Tsr_Proofs2 Tsr_Proofs3 Tsr_Proofs4 Tsr_Proofs5 Tsr_Proofs6 Tsr_Proofs7.
From Verif Require Import Net_Model Net_Spec Net_Proofs1 Net_Proofs2 Net_Proofs3 Net_Proofs4 Net_Proofs5 Net_Proofs6 Net_Proofs12 Net_Proofs13.
Import ListNotations.

Lemma map_opt_keys {A B C} (f : A -> option B) (k : B -> C) (h : A -> C) (P : B -> Prop) l :
  (forall x, In x l -> exists y, f x = Some y /\ k y = h x /\ P y) -> exists m, map_opt f l = Some m /\ map k m = map h l /\ Forall P m.
Proof.
  induction l as [|x l IH]; intros H; cbn; [exists []; auto|]. destruct (H x) as (y & -> & E & Py); [left; auto|].
  destruct IH as (m & -> & Em & Fm); [intros; apply H; right; auto|]. exists (y :: m). cbn. split; [auto|]. split; [congruence|auto].
Qed.

Section Lex.
  Variable S : space -> Prop.
  Hypothesis R : one_registry S.
  Notation plain := (plain S).
  Notation proper := (proper S).
  Notation good := (good S).

  Lemma good_clean t : good t -> clean S (t_bra t ++ t_ket t ++ t_aux t).
  Proof. intros ((F & _) & _). apply plain_clean. auto. Qed.
  Lemma good_tag_form named t : good t -> exists u s, canon_core block_less block_less_pair (tag_indices named t) = Some (u, s) /\ bform (tag_indices named t) u s.
  Proof.
    intros G. apply (core_form bcmp bkey TO_bcmp bcmp2 bkey2 TO_bcmp2 _ _ (tag_indices named t) (styled_agree S _ R (styled_tag S named t (good_clean t G)))).
  Qed.

  (** A tensor that [block_apply] has made. *)
  Definition blocked (named : list index) (t : tensor) : Prop :=
    good t /\ exists u s t0, t = reset_tags u /\ good t0 /\ bform (tag_indices named t0) u s.
  Lemma block_total sort named t : good t -> exists u s, block_apply sort named t = Some (u, s) /\ blocked named u.
  Proof.
    intros G. pose proof (good_clean t G) as C. assert (U : untagged_slots t = true) by (eapply clean_slots; eauto).
    assert (H : exists t0, good t0 /\ (match t_bk t with BKSymm => if wants_swap sort (tag_indices named t) then swap_bra_ket (tag_indices named t) else Some (tag_indices named t) | _ => Some (tag_indices named t) end) = Some (tag_indices named t0)).
    { destruct (t_bk t); eauto. destruct (wants_swap sort (tag_indices named t)); eauto. exists (swapped t). split; [apply swapped_good; auto|].
      rewrite swap_tags by auto. rewrite good_valid with (S := S) by auto. rewrite proper_keep; [reflexivity| |];
      cbn; rewrite map_length; apply G. }
    destruct H as (t0 & G0 & E). destruct (good_tag_form named t0 G0) as (u & s & X & F).
    assert (B : block_apply sort named t = Some (reset_tags u, s)). { unfold block_apply. rewrite U. cbn [negb]. cbv zeta. rewrite E, X. reflexivity. }
    exists (reset_tags u), s. split; auto. split; [|exists u, s, t0; auto].
    apply block_related in B. destruct B as [B|(_ & _ & B)]; [eapply related_good; eauto|].
    rewrite proper_keep in B by apply (proj1 (swapped_good S t G)). eapply related_good; eauto. apply swapped_good; auto.
  Qed.
  Lemma plain_shape_space i j : plain i -> plain j -> ix_space i = ix_space j -> shape i = shape j.
  Proof. intros (s & o & -> & _)%plain_shape (s' & o' & -> & _)%plain_shape. cbn. intros ->. auto. Qed.
  Lemma in_set_plain named i : Forall plain named -> plain i -> in_set named i = true <-> In i named.
  Proof. intros F P. apply (in_set_ok S); auto; [apply plain_clean; auto|apply plain_over; auto|apply (plain_untagged S); auto]. Qed.
  Lemma retag named f i : Forall plain named -> plain i -> plain (f i) -> ix_space (f i) = ix_space i -> (In (f i) named <-> In i named) ->
    bkey (tag_index named (f i)) = bkey (tag_index named i).
  Proof.
    intros F P Q E Iff. unfold bkey, tag_index. rewrite !shape_tag, (plain_shape_space (f i) i) by auto. f_equal.
    assert (X : in_set named (f i) = in_set named i).
    { pose proof (in_set_plain named i F P). pose proof (in_set_plain named (f i) F Q).
      destruct (in_set named (f i)), (in_set named i); auto; exfalso; [assert (false = true) by tauto|assert (false = true) by tauto]; discriminate. }
    rewrite X. destruct i, (f _); reflexivity.
  Qed.

  Lemma bkey_spaces l m : map bkey l = map bkey m -> map ix_space l = map ix_space m.
  Proof.
    assert (K : forall x, map ix_space x = map (fun p : index * option Z => ix_space (fst p)) (map bkey x)).
    { intros x. rewrite map_map. apply map_ext. intros []. auto. }
    intros E. rewrite !K, E. auto.
  Qed.
  Lemma untag_spaces l : map ix_space (map untag l) = map ix_space l.
  Proof. rewrite map_map. apply map_ext. intros []. auto. Qed.
  Lemma tag_spaces named l : map ix_space (map (tag_index named) l) = map ix_space l.
  Proof. rewrite map_map. apply map_ext. intros []. auto. Qed.
  Lemma map_lengths {A B} (f : A -> B) l m : map f l = map f m -> length l = length m.
  Proof. intros E. rewrite <- (map_length f l), E, map_length. auto. Qed.

  Lemma retag_sig labels named f t : Forall plain named -> blocked named t ->
    (forall i, In i (slots t) -> plain (f i) /\ ix_space (f i) = ix_space i /\ (In (f i) named <-> In i named)) ->
    (forall i j, In i (slots t) -> In j (slots t) -> f i = f j -> i = j) ->
    exists w s, default_apply named (renamed f t) = Some (w, s) /\ sig_of labels w = sig_of labels t /\ good w.
  Proof.
    intros Fn (G & u & s0 & t0 & -> & G0 & Fo) H Inj. set (t := reset_tags u) in *.
    assert (G' : good (renamed f t)) by (apply renamed_good; auto; intros i I; apply H; auto).
    destruct (default_form S named (renamed f t) R (good_clean _ G')) as (w & s & D & _ & Fw).
    exists (reset_tags w), s. split; auto. split.
    2: { apply default_related in D. eapply related_good; eauto. }
    set (v := tag_indices named (renamed f t)) in *.
    destruct (form_perm _ _ _ Fo) as (Pb & Pk).
    assert (K : forall l l0, Permutation (map (tag_index named) l0) l -> (forall x, In x l0 -> plain x) -> (forall i, In i (map untag l) -> In i (slots t)) ->
               map bkey (map (tag_index named) (map f (map untag l))) = map bkey l).
    { intros l l0 P Pl Sub. rewrite !map_map. apply map_ext_in. intros x X. apply (in_map untag) in X as Xu. apply Sub in Xu.
      apply (Permutation_in _ (Permutation_sym P)), in_map_iff in X. destruct X as (y & <- & Y). apply Pl in Y.
      rewrite untag_tag in * by apply Y. apply retag; auto; apply H; auto. }
    assert (P0 : forall x, In x (slots t0) -> plain x). { destruct G0 as ((F0 & _) & _). rewrite Forall_forall in F0. auto. }
    assert (Kb : map bkey (t_bra v) = map bkey (t_bra u)).
    { apply (K (t_bra u) (t_bra t0)); [exact Pb|intros; apply P0; unfold slots; rewrite in_app_iff; auto|intros i I; unfold slots, t; cbn; rewrite !in_app_iff; auto]. }
    assert (Kk : map bkey (t_ket v) = map bkey (t_ket u)).
    { apply (K (t_ket u) (t_ket t0)); [exact Pk|intros; apply P0; unfold slots; rewrite !in_app_iff; auto|intros i I; unfold slots, t; cbn; rewrite !in_app_iff; auto]. }
    assert (Sv : settled v).
    { apply (settled_keys u); auto. eapply form_settled; eauto. }
    destruct (settled_form v Sv) as (s1 & F1). destruct (form_weaken _ _ _ Fw) as (s2 & F2).
    destruct (form_same bcmp bkey TO_bcmp bcmp2 bkey2 TO_bcmp2 bkey2_pair _ _ _ _ _ _ _ (related_refl v) F1 F2) as ((E1 & E2 & _) & Eb & Ek).
    assert (Ea : map ix_space (t_aux (reset_tags w)) = map ix_space (t_aux t)).
    { cbn [reset_tags t_aux]. rewrite untag_spaces, <- E2. unfold v. cbn [tag_indices renamed t_aux]. rewrite tag_spaces.
      rewrite map_map. apply map_ext_in. intros i I. apply H. unfold slots. rewrite !in_app_iff. auto. }
    assert (Eb' : map ix_space (t_bra (reset_tags w)) = map ix_space (t_bra t)).
    { cbn [reset_tags t_bra]. unfold t. cbn [reset_tags t_bra]. rewrite !untag_spaces. apply bkey_spaces. congruence. }
    assert (Ek' : map ix_space (t_ket (reset_tags w)) = map ix_space (t_ket t)).
    { cbn [reset_tags t_ket]. unfold t. cbn [reset_tags t_ket]. rewrite !untag_spaces. apply bkey_spaces. congruence. }
    assert (El : t_label (reset_tags w) = t_label t) by (cbn [reset_tags t_label]; rewrite <- E1; reflexivity).
    unfold sig_of. rewrite El, Eb', Ek', Ea. repeat rewrite (map_lengths _ _ _ Eb'). repeat rewrite (map_lengths _ _ _ Ek'). repeat rewrite (map_lengths _ _ _ Ea). auto.
  Qed.

  Lemma individually_total f ts (P : tensor -> Prop) : (forall t, In t ts -> exists u s, f t = Some (u, s) /\ P u) ->
    exists ts' s, individually f ts = Some (ts', s) /\ Forall P ts' /\ length ts' = length ts.
  Proof.
    intros H. unfold individually. destruct (map_opt_keys f (fun _ => tt) (fun _ => tt) (fun p => P (fst p)) ts) as (m & E & L & F).
    { intros t T. destruct (H t T) as (u & s & -> & Pu). exists (u, s). auto. }
    rewrite E. cbn. eexists _, _. split; [reflexivity|]. split; [rewrite Forall_map; auto|].
    apply map_opt_length in E. rewrite map_length. auto.
  Qed.
  Lemma good_indices ts t i : In t ts -> In i (slots t) -> In i (indices ts).
  Proof. intros T I. apply in_flat_map. eauto. Qed.
  Lemma rename_good named is m ts : Forall plain named -> Forall good ts -> NoDup is ->
    (forall i, In i is <-> In i (indices ts) /\ ~ In i named) -> make_replacements named [] is = Some m ->
    map_opt (apply_replacements m) ts = Some (map (renamed (rho m)) ts) /\ Forall good (map (renamed (rho m)) ts) /\
    (forall i, In i (indices ts) -> plain (rho m i) /\ ix_space (rho m i) = ix_space i /\ (In (rho m i) named <-> In i named)) /\
    (forall i j, In i (indices ts) -> In j (indices ts) -> rho m i = rho m j -> i = j).
  Proof.
    intros Fn Fp ND Iff H. pose proof (good_plain S ts Fp) as Ft.
    assert (Fi : Forall plain is). { apply Forall_forall. intros i I. apply Iff in I. rewrite Forall_forall in Ft. apply Ft. tauto. }
    destruct (rename_equivalent S R named is m ts Fn Ft Fi ND Iff H) as (A & B & C & D & E & F & G & J).
    assert (Pl : forall i, In i (indices ts) -> plain (rho m i)). { rewrite D, Forall_map, Forall_forall in C. auto. }
    split; [auto|]. split; [|split; auto].
    - apply Forall_forall. intros t' T. apply in_map_iff in T. destruct T as (t & <- & T). rewrite Forall_forall in Fp. apply renamed_good; auto.
      + intros i j I I'. apply J; eapply good_indices; eauto.
      + intros i I. apply Pl. eapply good_indices; eauto.
    - intros i I. split; auto. split; auto. split.
      + intros N. destruct (in_dec index_eq_dec i named); auto. destruct (F i I n N).
      + intros N. rewrite E; auto.
  Qed.

  Lemma graph_total bliss named ig ts : Forall plain named -> Forall good ts ->
    exists ts2 ords s, canonicalize_graph bliss named ig ts = Some (ts2, ords, s) /\ Forall good ts2.
  Proof.
    intros Fn Fp. unfold canonicalize_graph. destruct (init_edges_total S R ts Fp) as (info & I). rewrite I.
    pose proof (good_plain S ts Fp) as Ft. apply (init_edges_spec S R) in I; auto. destruct I as ((O & In1 & _) & _). rewrite refs_fst in In1.
    assert (Fe : Forall plain (map e_idx (ei_edges info))).
    { apply Forall_forall. intros j J. apply In1 in J. rewrite Forall_forall in Ft. auto. }
    set (p := bliss _). set (order := stable_sort _ _).
    assert (Po : Permutation (map e_idx (ei_edges info)) order) by apply stable_perm.
    set (is := filter (fun i => negb (named_in named i)) order).
    assert (Fo : Forall plain order) by (apply (Permutation_Forall Po); auto).
    assert (Iff : forall i, In i is <-> In i (indices ts) /\ ~ In i named).
    { intros i. unfold is. rewrite (filter_negb_In S R); auto. rewrite <- In1.
      split; intros (X & Y); split; auto; [apply (Permutation_in _ (Permutation_sym Po))|apply (Permutation_in _ Po)]; auto. }
    destruct (make_total S R named is []) as (m & M); auto.
    { unfold is. apply Forall_forall. intros i X. apply filter_In in X. rewrite Forall_forall in Fo. apply Fo. tauto. }
    rewrite M. destruct (rename_good named is m ts Fn Fp) with (3 := M) as (-> & G1 & _); auto.
    { unfold is. apply NoDup_filter. apply (Permutation_NoDup Po). apply (ordered_nodup S R); auto. }
    set (ts1 := map (renamed (rho m)) ts) in *.
    destruct (map_opt_keys (fun nt => permute_tensor p (fst nt) (snd nt)) (fun _ => tt) (fun _ => tt) (fun r => good (fst r)) (number ts1)) as (r & -> & _ & Fr).
    { intros (n, t) X. unfold number in X. apply in_combine_r in X. rewrite Forall_forall in G1.
      destruct (permute_total S p n t (G1 t X)) as (u & s & E & Gu). exists (u, s). auto. }
    destruct (sort_via_total no_tensor (fun a => p (VCore a)) (map fst r)) as (ts2 & ords & E). rewrite E. eexists _, _, _. split; [reflexivity|].
    apply sort_via_spec in E. destruct E as (o' & k & _ & Pm & [= -> _]). apply (pick_perm no_tensor) in Pm.
    apply (Permutation_Forall (Permutation_sym Pm)). rewrite Forall_map. auto.
  Qed.

  Lemma lex_total sort hash labels given named0 ts ords :
    Forall plain (match given with Some l => l | None => [] end) -> Forall plain named0 -> ordered named0 -> Forall good ts -> length ords = length ts ->
    named_ok given named0 ts -> (forall i, In i named0 -> In i (indices ts)) ->
    exists ts' ords' s, canonicalize_lex sort hash labels given named0 (ts, ords) = Some (ts', ords', s) /\ Forall good ts'.
  Proof.
    intros Fg Fn On Fp Lo Ok Occ. unfold canonicalize_lex. cbn [fst snd].
    destruct (individually_total (block_apply sort named0) ts (blocked named0)) as (ts1 & s1 & I1 & B1 & L1).
    { intros t T. apply block_total. rewrite Forall_forall in Fp; auto. }
    rewrite I1. assert (P1 : Forall good ts1) by (eapply Forall_impl; [|exact B1]; intros t (X & _); auto).
    assert (X1 : Permutation (indices ts) (indices ts1)).
    { apply (individually_steps S) in I1.
      - destruct I1 as (us & St & -> & _). apply (steps_spec S named0 ts us St).
      - intros t u sg T. apply block_step. rewrite Forall_forall in Fp. apply (Fp t T). }
    assert (Bs : exists sorted k, bubble_sort (fun a b : tensor * nat => canonical_less labels block_cmp (fst a) (fst b)) (combine ts1 ords) = Some (sorted, k) /\
               Permutation (combine ts1 ords) sorted /\ in_sorted_order (key_less sig_cmp (fun a : tensor * nat => sig_of labels (fst a))) sorted).
    { rewrite (bubble_ext _ (key_less sig_cmp (fun a : tensor * nat => sig_of labels (fst a)))).
      - destruct (bubble_ok _ (key_sw sig_cmp (fun a : tensor * nat => sig_of labels (fst a)) TO_sig) (combine ts1 ords)) as (r & -> & P & So & _). eauto.
      - intros (a, na) (b, nb) A B. apply in_combine_l in A, B. rewrite Forall_forall in P1. apply (canonical_key S R); apply P1; auto. }
    destruct Bs as (sorted & k & -> & B & So). apply (Permutation_map fst) in B. rewrite combine_fst_len in B by congruence. set (ts2 := map fst sorted) in *.
    assert (P2 : Forall good ts2) by (apply (Permutation_Forall B); auto).
    assert (B2 : Forall (blocked named0) ts2) by (apply (Permutation_Forall B); auto).
    destruct (init_edges_total S R ts2 P2) as (info & I2). rewrite I2.
    pose proof (indices_perm _ _ B) as X2. assert (X : Permutation (indices ts) (indices ts2)) by (etransitivity; eauto).
    pose proof (good_plain S ts2 P2) as F2.
    assert (Nm : named_of given info = named0).
    { destruct (named_of_spec S R given info ts2 Fg F2 I2) as (A1 & A2 & A3). apply (ordered_unique S R); auto.
      intros i. destruct given as [l|]; cbn in *.
      - rewrite A3, Ok. tauto.
      - rewrite A3, Ok, (count_perm _ _ i X). tauto. }
    rewrite Nm. apply (init_edges_spec S R) in I2; auto. destruct I2 as ((O & In1 & _) & _). rewrite refs_fst in In1.
    assert (Fe : Forall plain (map e_idx (ei_edges info))).
    { apply Forall_forall. intros j J. apply In1 in J. rewrite Forall_forall in F2. auto. }
    pose proof (ordered_nodup S R _ Fe O) as ND.
    destruct (stable_split (fun e => named_in named0 (e_idx e))
       (fun a b => if Bool.eqb (named_in named0 (e_idx a)) (named_in named0 (e_idx b)) then edge_ltb a b else named_in named0 (e_idx a))
       (ei_edges info)) as (N & A & Es & PN & PA).
    { intros x y. split; intros -> ->; auto. }
    rewrite Es.
    assert (LN : length N = length named0).
    { rewrite <- (map_length e_idx). apply Permutation_length. apply NoDup_Permutation.
      - apply (Permutation_NoDup (Permutation_map e_idx PN)). clear - ND. induction (ei_edges info) as [|e es IH]; cbn; [constructor|].
        inversion ND; subst. destruct (named_in named0 (e_idx e)); cbn; auto. constructor; auto.
        intros Y. apply H1. apply in_map_iff in Y. destruct Y as (e' & <- & Y). apply filter_In in Y. apply in_map. tauto.
      - apply (ordered_nodup S R); auto.
      - intros i. split.
        + intros Y. apply (Permutation_in _ (Permutation_map e_idx (Permutation_sym PN))) in Y. apply in_map_iff in Y. destruct Y as (e & <- & Y).
          apply filter_In in Y. destruct Y as (Y & Z). apply (named_in_spec S R) in Z; auto. rewrite Forall_forall in Fe. apply Fe. apply in_map; auto.
        + intros Y. apply (Permutation_in _ (Permutation_map e_idx PN)). pose proof (Occ i Y) as Z. apply (Permutation_in _ X) in Z. apply In1 in Z.
          apply in_map_iff in Z. destruct Z as (e & <- & Z). apply in_map. apply filter_In. split; auto. apply (named_in_spec S R); auto.
          rewrite Forall_forall in Fn. auto. }
    rewrite skipn_app, <- LN, skipn_all, Nat.sub_diag, skipn_O. cbn [app].
    assert (Ex : existsb (named_in named0) (map e_idx A) = false).
    { apply existsb_false. intros i Y. apply in_map_iff in Y. destruct Y as (e & <- & Y). apply (Permutation_in _ (Permutation_sym PA)), filter_In in Y.
      apply negb_true_iff. tauto. }
    rewrite Ex.
    assert (Iff : forall i, In i (map e_idx A) <-> In i (indices ts2) /\ ~ In i named0).
    { intros i. split.
      - intros Y. apply (Permutation_in _ (Permutation_map e_idx (Permutation_sym PA))) in Y. apply in_map_iff in Y. destruct Y as (e & <- & Y).
        apply filter_In in Y. destruct Y as (Y & Z). apply negb_true_iff in Z. apply (named_in_false S R) in Z; auto.
        + split; auto. apply In1. apply in_map; auto.
        + rewrite Forall_forall in Fe. apply Fe. apply in_map; auto.
      - intros (Y & Z). apply (Permutation_in _ (Permutation_map e_idx PA)). apply In1 in Y. apply in_map_iff in Y. destruct Y as (e & <- & Y).
        apply in_map. apply filter_In. split; auto. apply negb_true_iff. apply (named_in_false S R); auto.
        rewrite Forall_forall in Fe. apply Fe. apply in_map; auto. }
    destruct (make_total S R named0 (map e_idx A) []) as (m & M); auto.
    { apply Forall_forall. intros i Y. apply Iff in Y. rewrite Forall_forall in F2. apply F2. tauto. }
    rewrite M. destruct (rename_good named0 (map e_idx A) m ts2 Fn P2) with (3 := M) as (-> & P3 & Q1 & Q2); auto.
    { apply (Permutation_NoDup (Permutation_map e_idx PA)). clear - ND. induction (ei_edges info) as [|e es IH]; cbn; [constructor|].
      inversion ND; subst. destruct (named_in named0 (e_idx e)); cbn; auto. constructor; auto.
      intros Y. apply H1. apply in_map_iff in Y. destruct Y as (e' & <- & Y). apply filter_In in Y. apply in_map. tauto. }
    unfold individually. set (f := rho m) in *.
    destruct (map_opt_keys (fun t => default_apply named0 (renamed f t)) (fun r => sig_of labels (fst r)) (sig_of labels) (fun r => good (fst r)) ts2) as (us & Eu & Ku & Gu).
    { intros t T. rewrite Forall_forall in B2. destruct (retag_sig labels named0 f t Fn (B2 t T)) as (w & s & E & Ew & Gw).
      - intros i I. apply Q1. eapply good_indices; eauto.
      - intros i j I J. apply Q2; eapply good_indices; eauto.
      - exists (w, s). auto. }
    assert (Mo : map_opt (default_apply named0) (map (renamed f) ts2) = Some us).
    { rewrite <- Eu. clear. induction ts2 as [|t l IH]; cbn; auto. rewrite IH. auto. }
    rewrite Mo. cbn [option_map].
    assert (G4 : Forall good (map fst us)) by (rewrite Forall_map; auto).
    assert (Srt : is_sorted (canonical_less labels block_cmp) (map fst us) = true).
    { apply is_sorted_ok. assert (Sk : in_sorted_order (key_less sig_cmp (sig_of labels)) (map fst us)).
      { revert So. apply sorted_keys. rewrite map_map, Ku. unfold ts2. rewrite map_map. reflexivity. }
      clear - Sk G4 R. revert Sk G4. generalize (map fst us) as l. intros l Sk. induction Sk as [|x l Sk IH F]; intros G4; [constructor|]; inversion G4 as [|x0 l0 Gx Gl]; subst; constructor; [apply IH; auto|].
      rewrite Forall_forall in F, Gl |- *. intros y Y. rewrite (canonical_key S R); [apply F; auto|apply (proj1 (Gl y Y))|apply (proj1 Gx)]. }
    rewrite Srt. cbn [negb]. eexists _, _, _. split; [reflexivity|].
    refine (Permutation_Forall _ G4). apply stable_perm.
  Qed.

  Lemma canonicalize_total bliss sort hash labels opts ts : Forall good ts ->
    Forall plain (named_indices (o_named opts) ts) -> (o_lexicographic opts = true -> forall i, In i (named_indices (o_named opts) ts) -> In i (indices ts)) ->
    exists ts' ords s, canonicalize bliss sort hash labels opts ts = Some (ts', ords, s) /\ Forall good ts'.
  Proof.
    intros Fp Fn Occ. unfold canonicalize. destruct (init_edges_total S R ts Fp) as (info & I). rewrite I.
    pose proof (good_plain S ts Fp) as Ft.
    assert (Fg : Forall plain (match o_named opts with Some l => l | None => [] end)) by (unfold named_indices in Fn; destruct (o_named opts); auto).
    destruct (named_of_spec S R (o_named opts) info ts Fg Ft I) as (O & F & Ok). set (named := named_of (o_named opts) info) in *. clearbody named. clear I.
    assert (Same : forall i, In i named <-> In i (named_indices (o_named opts) ts)).
    { intros i. unfold named_indices, named_ok in *. destruct (o_named opts); [apply Ok|]. rewrite externals_spec. apply Ok. }
    assert (G : forall ts1 o1 s1, Forall good ts1 -> length o1 = length ts1 ->
       (forall i, In i named -> (In i (indices ts1) <-> In i (indices ts))) ->
       ((forall i, In i named <-> count_occ index_eq_dec (indices ts) i = 1) -> same_once ts ts1) ->
       exists ts' ords s, (if o_lexicographic opts
          then option_map (fun r : list tensor * list nat * bool => (fst r, xorb s1 (snd r))) (canonicalize_lex sort hash labels (o_named opts) named (ts1, o1))
          else Some (ts1, o1, s1)) = Some (ts', ords, s) /\ Forall good ts').
    { intros ts1 o1 s1 P L N C. destruct (o_lexicographic opts) eqn:Lx.
      - destruct (lex_total sort hash labels (o_named opts) named ts1 o1) as (ts2 & o2 & s2 & -> & P2); auto.
        + unfold named_ok in *. destruct (o_named opts); auto. intros i. rewrite (Ok i). apply (C Ok).
        + intros i Ni. apply N; auto. apply Occ; auto. apply Same; auto.
        + cbn. eauto.
      - eauto. }
    destruct (o_topological opts).
    - destruct (graph_total bliss named (o_ignore_labels opts) ts F Fp) as (ts1 & o1 & s1 & X & P1). rewrite X.
      apply (graph_sound S R) in X; auto.
      + destruct X as (A & B & -> & C & D). apply G; auto. apply seq_length.
      + eapply Forall_impl; [|exact Fp]. intros t (Y & _). auto.
    - apply G; auto; [apply seq_length|tauto|]. intros _ i. tauto.
  Qed.
End Lex.
