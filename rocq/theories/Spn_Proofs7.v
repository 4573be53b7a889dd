(** Spin tracing by summation over spin cases. *)
From Coq Require Import ZArith NArith QArith Qcanon List Arith Bool Permutation Sorted Lia Ring.
From Verif Require Import Alg_Model Alg_Spec Alg_Proofs1 Alg_Proofs2 Spn_Model Spn_Spec Spn_Proofs1 Spn_Proofs2 Spn_Proofs3 Spn_Proofs4 Spn_Proofs5 Spn_Proofs6.
Import ListNotations.
Local Open Scope nat_scope.

Definition lab {O} (b : nat -> O) (i : index) : O * bool := (b (fst i), spin_value (snd i)).
Definition all_spin (l : list index) : Prop := forall i, In i l -> snd i <> any.
Definition labelled (t : tensor) : Prop :=
  length (t_bra t) = length (t_ket t) /\ NoDup (t_bra t) /\ NoDup (t_ket t) /\ all_spin (t_bra t ++ t_ket t).

Lemma conserving_lab {O} (b : nat -> O) : forall q k, all_spin (q ++ k) -> conserves_spin (map (lab b) q) (map (lab b) k) = ms_conserving_columns q k.
Proof.
  induction q as [|i q IH]; intros [|j k] H; auto. unfold conserves_spin, ms_conserving_columns in *. cbn [map combine forallb fst snd lab].
  f_equal.
  - assert (H1 : snd i <> any) by (apply H; left; auto). assert (H2 : snd j <> any) by (apply H; cbn; right; apply in_app_iff; right; left; auto).
    destruct (snd i), (snd j); cbn; auto; try (destruct H1; reflexivity); destruct H2; reflexivity.
  - apply IH. intros x Hx. apply H. cbn. right. apply in_app_iff in Hx. apply in_app_iff. cbn. tauto.
Qed.
Lemma conserves_count {O} : forall (b k : list (O * bool)), length b = length k -> conserves_spin b k = true -> length (filter snd b) = length (filter snd k).
Proof.
  induction b as [|x b IH]; intros [|y k] L H; cbn in L; try discriminate; auto. unfold conserves_spin in *. cbn in H. apply andb_true_iff in H. destruct H as (H1 & H2).
  apply eqb_prop in H1. cbn. rewrite H1. destruct (snd y); cbn; auto.
Qed.
Lemma alpha_count {O} (b : nat -> O) l : all_spin l -> length (filter snd (map (lab b) l)) = length (filter is_alpha l).
Proof.
  induction l as [|i l IH]; intros H; auto. cbn [map filter].
  assert (E : snd (lab b i) = is_alpha i) by (specialize (H i (or_introl eq_refl)); unfold is_alpha, lab; cbn; destruct (snd i); cbn; auto; destruct H; auto).
  rewrite E. destruct (is_alpha i); cbn [length]; rewrite IH; auto; intros x Hx; apply H; right; auto.
Qed.
Lemma NoDup_app_intro {X} (l m : list X) : NoDup l -> NoDup m -> (forall x, In x l -> ~ In x m) -> NoDup (l ++ m).
Proof.
  intros N1 N2. induction N1 as [|x l Hx N1 IH]; intros D; cbn; auto. constructor.
  - rewrite in_app_iff. intros [H|H]; auto. apply (D x); auto. left. auto.
  - apply IH. intros y Hy. apply D. right. auto.
Qed.
Lemma filter_perm {X} (f : X -> bool) l m : Permutation l m -> Permutation (filter f l) (filter f m).
Proof. induction 1; cbn; auto; [destruct (f x); auto|destruct (f x), (f y); auto; apply perm_swap|eapply Permutation_trans; eauto]. Qed.

Section Trace.
  Context {K : qalg} {O : Type}.
  Local Open Scope q_scope.
  Add Ring Kring15 : (qring K).
  Variable range : nat -> list O.
  Variable vars : nat -> K.
  Variable T : nat -> list (O * bool) -> list (O * bool) -> list (O * bool) -> K.
  Hypothesis CS : column_symmetric T.
  Hypothesis SC : spin_conserving T.
  Variable lt : index -> index -> bool.
  Hypothesis TO : total_order lt.

  Lemma labelled_vanishing t b : all_spin (t_bra t ++ t_ket t) -> vanishing T t (lab b).
  Proof.
    intros H _ n q k _ P1 P2 E. apply SC. rewrite conserving_lab; auto.
    intros i Hi. apply H. apply in_app_iff in Hi. apply in_app_iff.
    destruct Hi as [Hi|Hi]; [left; eapply Permutation_in; [apply Permutation_sym, P1|]|right; eapply Permutation_in; [apply Permutation_sym, P2|]]; auto.
  Qed.

  Lemma can_expand_ok t : labelled t -> can_expand t = Some (Nat.eqb (length (filter is_alpha (t_bra t))) (length (filter is_alpha (t_ket t)))).
  Proof.
    intros (L & _ & _ & H). unfold can_expand. rewrite L, Nat.eqb_refl. cbn [andb].
    assert (E : forallb has_spin (t_bra t ++ t_ket t) = true).
    { apply forallb_forall. intros i Hi. specialize (H i Hi). unfold has_spin. destruct (snd i); auto. }
    rewrite E. reflexivity.
  Qed.
  Lemma not_expandable_zero t n b : labelled t -> can_expand t = Some false -> tensor_value T n t (lab b) = 0.
  Proof.
    intros H E. rewrite (can_expand_ok t H) in E. injection E as E. apply Nat.eqb_neq in E. destruct H as (L & N1 & N2 & H).
    assert (H1 : all_spin (t_bra t)) by (intros i Hi; apply H, in_app_iff; auto). assert (H2 : all_spin (t_ket t)) by (intros i Hi; apply H, in_app_iff; auto).
    assert (Z : forall q, Permutation (map (lab b) (t_bra t)) q -> T n q (map (lab b) (t_ket t)) (map (lab b) (t_aux t)) = 0).
    { intros q P. apply SC. destruct (conserves_spin q (map (lab b) (t_ket t))) eqn:Ec; auto. destruct E.
      rewrite <- (alpha_count b) by auto. rewrite <- (alpha_count b (t_ket t)) by auto.
      rewrite (Permutation_length (filter_perm snd _ _ P)). apply conserves_count; auto. rewrite <- (Permutation_length P), !map_length. auto. }
    unfold tensor_value. destruct (t_symm t); try (apply Z; auto). apply sum_zero. intros (s & q) Hq. cbn [fst snd].
    rewrite Z; [ring|]. destruct (signed_perms_exchanges _ _ _ Hq) as (j & Ej & _). eapply exchanges_perm; eauto.
  Qed.

  Definition traced_to (t t' : tensor) : Prop := expands_to false t t' /\ can_expand t = Some true.

  Lemma all_expandable_ok ts : (forall t, In t ts -> labelled t) ->
    (all_expandable ts = Some true /\ forall t, In t ts -> can_expand t = Some true) \/
    (all_expandable ts = Some false /\ exists t, In t ts /\ can_expand t = Some false).
  Proof.
    induction ts as [|t ts IH]; intros H; [left; split; auto; intros t []|]. cbn [all_expandable].
    destruct (can_expand t) as [[|]|] eqn:E.
    - destruct IH as [(H1 & H2)|(H1 & t' & H2 & H3)]; [intros; apply H; right; auto|left|right].
      + split; auto. intros t' [<-|Ht]; auto.
      + split; auto. exists t'. split; auto. right. auto.
    - right. split; auto. exists t. split; auto. left. auto.
    - rewrite (can_expand_ok t) in E by (apply H; left; auto). discriminate.
  Qed.
  Lemma tensors_of_In fs t : In t (tensors_of fs) <-> In (Ten t) fs.
  Proof.
    unfold tensors_of. rewrite in_flat_map. split.
    - intros ([t'|v] & H1 & H2); cbn in H2; [destruct H2 as [<-|[]]; auto|destruct H2].
    - intros H. exists (Ten t). cbn. auto.
  Qed.
  Lemma prod_zero {X} (f : X -> K) l x : In x l -> f x = 0 -> prod f l = 0.
  Proof. intros H E. unfold prod. induction l as [|y l IH]; [destruct H|]. cbn. destruct H as [->|H]; [rewrite E; ring|rewrite IH by auto; ring]. Qed.

  Lemma opfree_label fs t : filter is_operator fs = [] -> In (Ten t) fs -> exists n, t_label t = L_named n.
  Proof.
    intros H Ht. assert (E : is_operator (Ten t) = false).
    { destruct (is_operator (Ten t)) eqn:E; auto. assert (H' : In (Ten t) (filter is_operator fs)) by (apply filter_In; auto). rewrite H in H'. destruct H'. }
    cbn in E. destruct (t_label t); try discriminate. eauto.
  Qed.

  Lemma spintrace_product_ok tm : filter is_operator (factors tm) = [] -> (forall t, In (Ten t) (factors tm) -> labelled t) ->
    exists e, spintrace_product lt tm = Some e /\
      (forall tm', In tm' e -> Forall2 (factor_rel traced_to) (factors tm) (factors tm') /\ filter is_operator (factors tm') = []) /\
      forall b, expr_value T vars e (lab b) = term_value T vars tm (lab b).
  Proof.
    intros Ho H. unfold spintrace_product.
    destruct (all_expandable_ok (tensors_of (factors tm))) as [(-> & Ha)|(-> & t & Ht & E)].
    { intros t Ht. apply H. apply tensors_of_In. auto. }
    - destruct (expand_factors_shape (spintrace_tensor lt) traced_to (factors tm)) as (e & Ee & He).
      { intros t Ht. assert (Ht' : can_expand t = Some true) by (apply Ha; apply tensors_of_In; auto).
        unfold spintrace_tensor. rewrite Ht'. destruct (H t Ht) as (L & N1 & N2 & _). destruct (expand_tensor_ok T CS lt TO false t L N1 N2) as (s & E & Hs & _).
        exists s. split; auto. intros b t' Hin. split; auto. eapply Hs; eauto. }
      assert (Eop : forall tm' : term, Forall2 (factor_rel traced_to) (factors tm) (factors tm') -> filter is_operator (factors tm') = []).
      { intros tm' Hf. clear - Ho Hf. revert Ho Hf. generalize (factors tm) (factors tm'). intros fs0 fs0' Ho Hf. revert Ho. induction Hf as [|x y fs fs' Hx Hf IH]; cbn [filter]; auto. destruct (is_operator x) eqn:Ex; [discriminate|]. intros Ho.
        assert (Ey : is_operator y = false).
        { destruct x as [u|v], y as [u'|v']; cbn in Hx; try contradiction; auto. destruct Hx as ((E1 & _) & _). cbn in *. rewrite E1. auto. }
        rewrite Ey. apply IH. auto. }
      rewrite Ee. eexists. split; [reflexivity|]. split.
      + intros tm' Hin. apply in_map_iff in Hin. destruct Hin as (tm1 & <- & Hin). cbn [factors]. split; auto.
      + intros b. unfold expr_value, rescale. rewrite sum_map. unfold term_value at 2. rewrite (ops_none _ _ Ho).
        rewrite <- (expand_factors_value T vars (spintrace_tensor lt) (factors tm) (lab b)) with (e := e); auto.
        * rewrite <- sum_mul_l. apply sum_ext. intros tm' Hin. rewrite term_value_plain by auto. rewrite rat_mul. ring.
        * intros t s Ht Es b' t' Hin. unfold spintrace_tensor in Es. rewrite (Ha t) in Es by (apply tensors_of_In; auto).
          destruct (H t Ht) as (L & N1 & N2 & _). destruct (expand_tensor_ok T CS lt TO false t L N1 N2) as (s' & E & Hs & _). rewrite Es in E. injection E as <-. apply (Hs b' t' Hin).
        * intros t s Ht Es Hop. assert (Hin : In (Ten t) (filter is_operator (factors tm))) by (apply filter_In; auto). rewrite Ho in Hin. destruct Hin.
        * intros t s n Ht Es Hn. unfold spintrace_tensor in Es. rewrite (Ha t) in Es by (apply tensors_of_In; auto).
          destruct (H t Ht) as (L & N1 & N2 & Hsp). destruct (expand_tensor_ok T CS lt TO false t L N1 N2) as (s' & E & _ & Hs). rewrite Es in E. injection E as <-.
          apply Hs. intros q k P1 P2 Ea Hc. exact (labelled_vanishing t b Hsp Ea n q k Hn P1 P2 Hc).
    - apply tensors_of_In in Ht. exists []. split; auto. split; [intros tm' []|]. intros b. unfold term_value. rewrite (ops_none _ _ Ho). unfold product_value.
      rewrite (prod_zero _ _ (Ten t) Ht); [unfold expr_value, sum; cbn; ring|]. destruct (opfree_label _ _ Ho Ht) as (n & En). cbn [factor_value]. rewrite En.
      apply not_expandable_zero; auto.
  Qed.

  (** ** One spin case *)
  Lemma rename_labelled f t : good_tensor t -> (forall i, fst (f i) = fst i) -> (forall i, In i (t_bra t ++ t_ket t) -> snd (f i) <> any) -> labelled (rename_tensor f t).
  Proof.
    intros (L & N1 & N2 & A) Hf Hs. unfold labelled. cbn. split; [rewrite !map_length; auto|].
    assert (G : forall l, NoDup l -> spin_any l -> NoDup (map f l)).
    { intros l N A'. apply (NoDup_map_inv fst). rewrite map_map, (map_ext _ fst Hf). apply names_NoDup; auto. }
    split; [apply G; auto; intros i Hi; apply A, in_app_iff; auto|]. split; [apply G; auto; intros i Hi; apply A; rewrite !in_app_iff; auto|].
    intros i Hi. rewrite <- map_app in Hi. apply in_map_iff in Hi. destruct Hi as (j & <- & Hj). auto.
  Qed.

  Lemma case_term_value gs c tm s0 b : filter is_operator (factors tm) = [] -> length gs <= 63 -> NoDup (concat gs) -> spin_any (concat gs) ->
    (forall i, In i (used_indices (factors tm)) -> In i (concat gs) \/ (~ In (fst i) (names (concat gs)) /\ spin_value (snd i) = s0 (fst i))) ->
    term_value T vars (rename_term (lookup (case_map lt gs c)) tm) (lab b) = term_value T vars tm (fun i => (b (fst i), assign (bits c) (map names gs) s0 (fst i))).
  Proof.
    intros Ho L N A H. unfold rename_term. rewrite term_value_plain by (apply rename_nonops; auto). unfold term_value. rewrite (ops_none _ _ Ho). f_equal.
    rewrite PV_rename. apply PV_ext_in. intros i Hi. unfold lab. rewrite (case_fst lt TO) by auto. f_equal. apply case_spin; auto.
  Qed.

  Lemma mem_In i l : mem i l = true <-> In i l.
  Proof. unfold mem. rewrite existsb_exists. split; [intros (j & H & E); apply index_eqb_eq in E; subst; auto|intros H; exists i; split; auto; apply index_eqb_refl]. Qed.
  Lemma mem_notIn i l : negb (mem i l) = true <-> ~ In i l.
  Proof. rewrite <- mem_In. destruct (mem i l); cbn; split; intros H; try discriminate; try contradiction; auto; congruence. Qed.

  Lemma used_any fs : (forall t, In (Ten t) fs -> good_tensor t) -> spin_any (used_indices fs).
  Proof. intros H i Hi. unfold used_indices in Hi. apply in_flat_map in Hi. destruct Hi as ([t|v] & H1 & H2); [|destruct H2]. apply (H t H1). auto. Qed.

  (** The internal indices. *)
  Lemma internal_ok groups used : internal_indices lt groups used = set_of lt (filter (fun i => negb (mem i (concat groups))) used) /\
    NoDup (internal_indices lt groups used) /\ forall i, In i (internal_indices lt groups used) <-> In i used /\ ~ In i (concat groups).
  Proof.
    split; auto. unfold internal_indices. destruct (set_of_ok lt TO (filter (fun i => negb (mem i (concat groups))) used)) as (_ & N & H). split; auto.
    intros i. rewrite H, filter_In, mem_notIn. tauto.
  Qed.
  Lemma internal_names groups used : spin_any used -> spin_any (concat groups) ->
    Permutation (names (internal_indices lt groups used)) (summed (names (concat groups)) (names used)).
  Proof.
    intros A1 A2. destruct (internal_ok groups used) as (_ & N & H). apply NoDup_Permutation.
    - apply names_NoDup; auto. intros i Hi. apply H in Hi. apply A1. tauto.
    - apply NoDup_nodup.
    - intros x. unfold summed. rewrite nodup_In, filter_In, negb_true_iff, existsb_notIn. unfold names. rewrite !in_map_iff. split.
      + intros (i & E & Hi). apply H in Hi. destruct Hi as (H1 & H2). split; [eauto|]. intros (j & E' & Hj). apply H2.
        apply spin_any_names; auto. rewrite E, <- E'. apply in_map. auto.
      + intros ((i & E & Hi) & Hn). exists i. split; auto. apply H. split; auto. intros Hi'. apply Hn. exists i. auto.
  Qed.
  Lemma names_used fs : names (used_indices fs) = all_indices fs.
  Proof.
    unfold names, used_indices, all_indices. induction fs as [|x fs IH]; cbn [flat_map map]; auto. rewrite map_app. f_equal; auto. destruct x; auto.
  Qed.
  Lemma no_aux_indices fs : no_aux fs -> all_indices fs = orbital_indices fs.
  Proof.
    unfold all_indices, orbital_indices. induction fs as [|x fs IH]; intros H; cbn; auto. rewrite IH by (intros t Ht; apply H; right; auto). f_equal.
    destruct x as [t|v]; auto. rewrite (H t (or_introl eq_refl)), app_nil_r. reflexivity.
  Qed.

  Lemma singles_concat {X} (l : list X) : concat (map (fun i => [i]) l) = l.
  Proof. induction l; cbn; f_equal; auto. Qed.
  Lemma singles_names l : map names (map (fun i => [i]) l) = map (fun i => [i]) (names l).
  Proof. unfold names. rewrite !map_map. reflexivity. Qed.

  Lemma conserving_counts_small t : labelled t -> length (t_bra t) <= 1 -> can_expand t = Some true -> ms_conserving_columns (t_bra t) (t_ket t) = true.
  Proof.
    intros H Hl E. rewrite (can_expand_ok t H) in E. injection E as E. apply Nat.eqb_eq in E. destruct H as (L & _ & _ & A).
    destruct (t_bra t) as [|i [|]], (t_ket t) as [|j [|]]; cbn in *; try lia; auto. unfold ms_conserving_columns. cbn. rewrite andb_true_r.
    unfold is_alpha in E. assert (H1 : snd i <> any) by (apply A; left; auto). assert (H2 : snd j <> any) by (apply A; right; left; auto).
    destruct (snd i), (snd j); cbn in *; auto; try lia; try (destruct H1; reflexivity); destruct H2; reflexivity.
  Qed.

  Definition spin_pure (t : tensor) : Prop := t_symm t <> Antisymm /\ all_spin (t_bra t ++ t_ket t) /\ ms_conserving_columns (t_bra t) (t_ket t) = true.

  Lemma resp_value tm b : resp (fun s => term_value T vars tm (fun i : index => (b (fst i) : O, s (fst i)))).
  Proof. intros s1 s2 E. apply term_value_ext. intros i. rewrite E. reflexivity. Qed.
  Lemma resp_lab tm : resp (fun b => term_value T vars tm (lab b)).
  Proof. intros b1 b2 E. apply term_value_ext. intros i. unfold lab. rewrite E. reflexivity. Qed.

  Definition term_trace (gn : list (list nat)) (tm : term) (b : nat -> O) : K :=
    index_sum range (summed (concat gn) (all_indices (factors tm)))
      (fun b' => spin_sum (map (fun i => [i]) (summed (concat gn) (orbital_indices (factors tm))) ++ gn)
                   (fun s => term_value T vars tm (fun i => (b' (fst i), s (fst i)))) (fun _ => true)) b.

  Lemma trace_product_ok groups tm : filter is_operator (factors tm) = [] -> (forall t, In (Ten t) (factors tm) -> good_tensor t) -> no_aux (factors tm) ->
    good_groups groups -> length (summed (names (concat groups)) (orbital_indices (factors tm))) + length groups <= 63 ->
    exists e, trace_product lt false groups tm = Some e /\
      (forall tm', In tm' e -> filter is_operator (factors tm') = [] /\
         ((forall t, In (Ten t) (factors tm) -> t_symm t = Antisymm \/ length (t_bra t) <= 1) -> forall t', In (Ten t') (factors tm') -> spin_pure t')) /\
      forall b, spin_labelled_value range vars T (names (concat groups)) e b = term_trace (map names groups) tm b.
  Proof.
    intros Ho Hg Hx (Ng & Ag) Hs. unfold trace_product.
    pose proof (used_any _ Hg) as Au. destruct (internal_ok groups (used_indices (factors tm))) as (_ & Ni & Hi).
    pose proof (internal_names groups (used_indices (factors tm)) Au Ag) as Pi. rewrite names_used, (no_aux_indices _ Hx) in Pi.
    set (ints := internal_indices lt groups (used_indices (factors tm))) in *.
    set (gs := map (fun i => [i]) ints ++ groups).
    assert (Lg : length gs <= 63).
    { unfold gs. rewrite app_length, map_length. apply Permutation_length in Pi. assert (E : length (names ints) = length ints) by apply map_length. lia. }
    assert (Cg : concat gs = ints ++ concat groups) by (unfold gs; rewrite concat_app, singles_concat; auto).
    assert (Ng' : NoDup (concat gs)).
    { rewrite Cg. apply NoDup_app_intro; auto. intros x H1 H2. apply Hi in H1. tauto. }
    assert (Ag' : spin_any (concat gs)).
    { rewrite Cg. intros i H. apply in_app_iff in H. destruct H as [H|H]; auto. apply Hi in H. apply Au. tauto. }
    assert (Hin : forall i, In i (used_indices (factors tm)) -> In i (concat gs)).
    { intros i H. rewrite Cg. apply in_app_iff. destruct (mem i (concat groups)) eqn:E; [right; apply mem_In; auto|left]. apply Hi. split; auto. apply mem_notIn. rewrite E. auto. }
    rewrite (spincases_ok lt gs Lg).
    assert (Hc : forall c, exists e, spintrace_product lt (rename_term (lookup (case_map lt gs c)) tm) = Some e /\
      (forall tm', In tm' e -> Forall2 (factor_rel traced_to) (map (rename_factor (lookup (case_map lt gs c))) (factors tm)) (factors tm') /\ filter is_operator (factors tm') = []) /\
      forall b, expr_value T vars e (lab b) = term_value T vars tm (fun i => (b (fst i), assign (bits c) (map names gs) (fun _ => true) (fst i)))).
    { intros c. destruct (spintrace_product_ok (rename_term (lookup (case_map lt gs c)) tm)) as (e & He & H1 & H2).
      - apply rename_nonops. auto.
      - intros t Ht. cbn in Ht. apply in_map_iff in Ht. destruct Ht as (x & E & Hx'). destruct x as [t0|v]; [|discriminate]. cbn in E. injection E as <-.
        apply rename_labelled; auto.
        + intros i. apply (case_fst lt TO); auto.
        + intros i Hi'. rewrite (case_lookup lt TO gs c i (fun _ => true)) by auto.
          assert (Hm : mem i (concat gs) = true).
          { apply mem_In, Hin. unfold used_indices. apply in_flat_map. exists (Ten t0). split; auto. rewrite !in_app_iff. apply in_app_iff in Hi'. tauto. }
          rewrite Hm. cbn. destruct (assign _ _ _ _); discriminate.
      - exists e. split; auto. split; [exact H1|]. intros b. rewrite H2. apply case_term_value; auto. }
    assert (Hch : exists ce : nat -> expr, forall c, spintrace_product lt (rename_term (lookup (case_map lt gs c)) tm) = Some (ce c)).
    { exists (fun c => match spintrace_product lt (rename_term (lookup (case_map lt gs c)) tm) with Some e => e | None => [] end).
      intros c. destruct (Hc c) as (e & -> & _). auto. }
    destruct Hch as (ce & Hce).
    assert (Hc' : forall c, (forall tm', In tm' (ce c) -> Forall2 (factor_rel traced_to) (map (rename_factor (lookup (case_map lt gs c))) (factors tm)) (factors tm') /\ filter is_operator (factors tm') = []) /\
      forall b, expr_value T vars (ce c) (lab b) = term_value T vars tm (fun i => (b (fst i), assign (bits c) (map names gs) (fun _ => true) (fst i)))).
    { intros c. destruct (Hc c) as (e & E & H). rewrite (Hce c) in E. injection E as <-. auto. }
    clear Hc.
    assert (Em : concat_mapM (fun m => option_map (fun e => e) (spintrace_product lt (rename_term (lookup m) tm))) (map (case_map lt gs) (seq 0 (2 ^ length gs)))
               = Some (flat_map ce (seq 0 (2 ^ length gs)))).
    { unfold concat_mapM. assert (E : mapM (fun m => option_map (fun e => e) (spintrace_product lt (rename_term (lookup m) tm))) (map (case_map lt gs) (seq 0 (2 ^ length gs))) = Some (map ce (seq 0 (2 ^ length gs)))).
      { generalize (seq 0 (2 ^ length gs)). induction l as [|c l IH]; cbn [map mapM]; auto. rewrite (Hce c), IH. reflexivity. }
      etransitivity; [exact (f_equal (option_map (@concat _)) E)|]. cbn. rewrite flat_map_concat_map. reflexivity. }
    exists (flat_map ce (seq 0 (2 ^ length gs))). split; [exact Em|]. split.
    - intros tm' Hin'. apply in_flat_map in Hin'. destruct Hin' as (c & _ & Hin'). destruct (Hc' c) as (H1 & _). destruct (H1 tm' Hin') as (Hf & Hop). split; auto.
      intros Hsy t' Ht'.
      assert (Hrel : forall fs fs' t', Forall2 (factor_rel traced_to) fs fs' -> In (Ten t') fs' -> exists t, In (Ten t) fs /\ traced_to t t').
      { clear. intros fs fs' t' H. induction H as [|x y fs fs' Hx H IH]; intros Hin; [destruct Hin|]. destruct Hin as [->|Hin].
        - destruct x as [t|v]; cbn in Hx; [|contradiction]. exists t. split; auto. left. auto.
        - destruct (IH Hin) as (t & H1 & H2). exists t. split; auto. right. auto. }
      destruct (Hrel _ _ _ Hf Ht') as (t & Ht & (E1 & E2 & P1 & P2 & S1 & S2 & S3) & Ec).
      apply in_map_iff in Ht. destruct Ht as (x & E & Hx'). destruct x as [t0|v]; [|discriminate]. cbn in E. injection E as <-.
      assert (Hlab : labelled (rename_tensor (lookup (case_map lt gs c)) t0)).
      { apply rename_labelled; auto; [intros i; apply (case_fst lt TO); auto|].
        intros i Hi'. rewrite (case_lookup lt TO gs c i (fun _ => true)) by auto.
        assert (Hm : mem i (concat gs) = true).
        { apply mem_In, Hin. unfold used_indices. apply in_flat_map. exists (Ten t0). split; auto. rewrite !in_app_iff. apply in_app_iff in Hi'. tauto. }
        rewrite Hm. cbn. destruct (assign _ _ _ _); discriminate. }
      assert (Asp : all_spin (t_bra t' ++ t_ket t')).
      { destruct Hlab as (_ & _ & _ & A). intros i Hi'. apply A. apply in_app_iff in Hi'. apply in_app_iff.
        destruct Hi' as [Hi'|Hi']; [left; eapply Permutation_in; [apply Permutation_sym, P1|auto]|right; eapply Permutation_in; [apply Permutation_sym, P2|auto]]. }
      unfold spin_pure. destruct (le_lt_dec (length (t_bra t0)) 1) as [Hl|Hl].
      + destruct S1 as (B1 & B2 & B3); [cbn; rewrite map_length; auto|]. split; [congruence|]. split; auto.
        rewrite B1, B2. apply conserving_counts_small; auto. cbn. rewrite map_length. auto.
      + destruct (Hsy t0 Hx') as [Hsy'|]; [|lia]. destruct S3 as [(B1 & B2)|(B1 & _)]; [cbn; rewrite map_length; auto|auto|split; [congruence|auto]|discriminate].
    - intros b. unfold spin_labelled_value. rewrite sum_flat_map.
      assert (Eall : forall c tm', In tm' (ce c) -> Permutation (summed (names (concat groups)) (all_indices (factors tm'))) (summed (names (concat groups)) (all_indices (factors tm)))).
      { intros c tm' Hin'. destruct (Hc' c) as (H1 & _). destruct (H1 tm' Hin') as (Hf & _). apply summed_perm. apply Permutation_sym.
        rewrite <- (all_indices_rename (lookup (case_map lt gs c)) (factors tm)) by (intros i; apply (case_fst lt TO); auto).
        apply (all_indices_rel traced_to); auto. intros t t' ((E1 & E2 & P1 & P2 & _) & _). split; auto. }
      unfold term_trace. rewrite concat_names.
      rewrite (index_sum_ext _ _ (fun b' => spin_sum (map (fun i => [i]) (summed (names (concat groups)) (orbital_indices (factors tm))) ++ map names groups) _ _)
                (fun b' => spin_sum (map names gs) (fun s => term_value T vars tm (fun i => (b' (fst i), s (fst i)))) (fun _ => true))).
      2:{ intros b'. symmetry. apply spin_sum_perm.
          - unfold gs. rewrite map_app, singles_names. apply Permutation_app_tail. apply Permutation_map. exact Pi.
          - rewrite concat_names. apply names_NoDup; auto.
          - apply resp_value. }
      rewrite index_spin_sum by (intros; apply resp_value). rewrite map_length. apply sum_ext. intros c _.
      destruct (Hc' c) as (_ & H2).
      rewrite (index_sum_ext _ _ _ (fun b' => sum (fun tm' => term_value T vars tm' (lab b')) (ce c))) by (intros b'; rewrite <- H2; reflexivity).
      rewrite index_sum_sum. apply sum_ext. intros tm' Hin'. apply index_sum_perm; [apply Eall with (c := c); auto|]. apply resp_lab.
  Qed.
End Trace.
