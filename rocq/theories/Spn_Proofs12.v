(** Closed-shell spin tracing: the theorem; removal of spin labels. *)
From Coq Require Import ZArith NArith QArith Qcanon List Arith Bool Permutation Sorted Relations Lia Ring.
From Verif Require Import Alg_Model Alg_Spec Alg_Proofs1 Alg_Proofs2 Alg_Proofs3 Spn_Model Spn_Spec Spn_Proofs1 Spn_Proofs2 Spn_Proofs3 Spn_Proofs4 Spn_Proofs5 Spn_Proofs6 Spn_Proofs7 Spn_Proofs8 Spn_Proofs9 Spn_Proofs10 Spn_Proofs11.
Import ListNotations.
Local Open Scope nat_scope.

Lemma mapM_total' {X Y} (f : X -> option Y) (d : X -> Y) l : (forall x, In x l -> exists y, f x = Some y) ->
  mapM f l = Some (map (fun x => match f x with Some y => y | None => d x end) l).
Proof.
  induction l as [|x l IH]; intros H; cbn; auto. destruct (H x (or_introl eq_refl)) as (y & E). rewrite E, IH by (intros; apply H; right; auto). auto.
Qed.

Lemma no_find L fs : existsb (has_label L) fs = false -> find_tensor L fs = None.
Proof. induction fs as [|[t|v] fs IH]; cbn; auto. destruct (label_eqb (t_label t) L); cbn; [discriminate|auto]. Qed.

Lemma shape_summed groups fs fs' : shape groups fs fs' -> (forall Sy, In (Ten Sy) fs' -> t_label Sy = L_S -> t_aux Sy = []) ->
  summed (names (concat groups)) (all_indices fs') = summed (names (concat groups)) (all_indices fs) /\
  summed (names (concat groups)) (orbital_indices fs') = summed (names (concat groups)) (orbital_indices fs).
Proof.
  intros Hs Hx. destruct Hs as [|Sy El NS LS AS HS]; auto.
  assert (Hin : forall x, In x (map fst (t_bra Sy ++ t_ket Sy)) -> In x (names (concat groups))).
  { intros x Hx'. apply in_map_iff in Hx'. destruct Hx' as (i & <- & Hi). apply in_map. apply in_concat.
    apply in_app_iff in Hi. destruct Hi as [Hi|Hi]; apply In_nth_error in Hi; destruct Hi as (j & Hj).
    - destruct (nth_error (t_ket Sy) j) as [i'|] eqn:Ej; [|apply nth_error_None in Ej; rewrite <- LS in Ej; assert (j < length (t_bra Sy))%nat by (apply nth_error_Some; rewrite Hj; discriminate); lia].
      assert (Hc : In (i, i') (combine (t_bra Sy) (t_ket Sy))) by exact (nth_error_In _ j (combine_nth_error' _ _ j _ _ Hj Ej)).
      destruct (HS _ _ Hc) as [H|H]; eexists; (split; [exact H|cbn; auto]).
    - destruct (nth_error (t_bra Sy) j) as [i'|] eqn:Ej; [|apply nth_error_None in Ej; rewrite LS in Ej; assert (j < length (t_ket Sy))%nat by (apply nth_error_Some; rewrite Hj; discriminate); lia].
      assert (Hc : In (i', i) (combine (t_bra Sy) (t_ket Sy))) by exact (nth_error_In _ j (combine_nth_error' _ _ j _ _ Ej Hj)).
      destruct (HS _ _ Hc) as [H|H]; eexists; (split; [exact H|cbn; auto]). }
  unfold summed. split.
  - change (all_indices (Ten Sy :: fs)) with (map fst (t_bra Sy ++ t_ket Sy ++ t_aux Sy) ++ all_indices fs). rewrite (Hx Sy (or_introl eq_refl) El), app_nil_r.
    rewrite filter_app, summed_nil; auto.
  - change (orbital_indices (Ten Sy :: fs)) with (map fst (t_bra Sy ++ t_ket Sy) ++ orbital_indices fs). rewrite filter_app, summed_nil; auto.
Qed.

Lemma orbital_indices_rel (R : tensor -> tensor -> Prop) fs fs' : (forall t t', R t t' -> same_indices t t') -> Forall2 (factor_rel R) fs fs' -> Permutation (orbital_indices fs) (orbital_indices fs').
Proof.
  intros HR H. induction H as [|x y fs fs' Hx H IH]; cbn; auto. destruct x as [t|v], y as [t'|w]; cbn in Hx; try contradiction; auto.
  destruct (HR _ _ Hx) as (_ & P1 & P2). apply Permutation_app; auto. apply Permutation_map, Permutation_app; auto.
Qed.
Lemma expands_same skip t t' : expands_to skip t t' -> same_indices t t'.
Proof. intros (E1 & E2 & P1 & P2 & _). split; auto. Qed.

Section Final.
  Context {K : qalg} {O : Type}.
  Local Open Scope q_scope.
  Add Ring Kring20 : (qring K).
  Variable range : nat -> list O.
  Variable vars : nat -> K.
  Variable T : nat -> list O -> list O -> list O -> K.
  Hypothesis CS : column_symmetric T.
  Variable lt : index -> index -> bool.
  Hypothesis TO : total_order lt.

  Notation SI := (spin_independent T).
  Notation ext_of groups := (names (concat groups)).

  Lemma trace_split gn tm e b : NoDup (concat gn) ->
    (forall tm', In tm' e -> Permutation (summed (concat gn) (all_indices (factors tm'))) (summed (concat gn) (all_indices (factors tm))) /\
       Permutation (summed (concat gn) (orbital_indices (factors tm'))) (summed (concat gn) (orbital_indices (factors tm)))) ->
    (forall a, expr_value SI vars e a = term_value SI vars tm a) ->
    sum (fun tm' => term_trace range vars SI gn tm' b) e = term_trace range vars SI gn tm b.
  Proof.
    intros Ng Hl Hv. unfold term_trace.
    rewrite (sum_ext _ (fun tm' => index_sum range (summed (concat gn) (all_indices (factors tm)))
      (fun b' => spin_sum (map (fun i => [i]) (summed (concat gn) (orbital_indices (factors tm))) ++ gn)
                   (fun s => term_value SI vars tm' (fun i => (b' (fst i), s (fst i)))) (fun _ => true)) b)).
    2:{ intros tm' Hin. destruct (Hl tm' Hin) as (P1 & P2).
        rewrite (index_sum_perm range _ _ _ P1).
        - apply index_sum_ext. intros b'. apply spin_sum_perm; [apply Permutation_app_tail, Permutation_map; auto| |apply resp_value].
          rewrite concat_app, singles_concat. apply NoDup_app_intro; [apply NoDup_nodup|auto|]. intros x Hx. apply summed_In in Hx. tauto.
        - intros b1 b2 Eb. apply spin_sum_ext. intros s. apply term_value_ext. intros i. rewrite Eb. reflexivity. }
    rewrite <- index_sum_sum. apply index_sum_ext. intros b'. rewrite <- spin_sum_sum. apply spin_sum_ext. intros s. apply Hv.
  Qed.

  (** The first stage: one term. *)
  Definition staged (groups : list (list index)) (tm tm' : term) : Prop :=
    (exists fs, shape groups fs (factors tm') /\ filter is_operator fs = [] /\ (forall t, In (Ten t) fs -> good_tensor t) /\ incl (ext_of groups) (orbital_indices fs)) /\
    (forall Sy, In (Ten Sy) (factors tm') -> t_label Sy = L_S -> t_aux Sy = [] /\ t_symm Sy = Nonsymm) /\
    summed (ext_of groups) (all_indices (factors tm')) = summed (ext_of groups) (all_indices (factors tm)) /\
    summed (ext_of groups) (orbital_indices (factors tm')) = summed (ext_of groups) (orbital_indices (factors tm)).

  Definition step (full : bool) (tm : term) : option expr := if full then expand_A_term lt tm else symmetrize_term lt tm.

  Lemma opfree_not_S fs Sy : filter is_operator fs = [] -> In (Ten Sy) fs -> t_label Sy = L_S -> False.
  Proof. intros H Hin E. destruct (opfree_label _ _ H Hin) as (n & En). congruence. Qed.

  Lemma plain_staged groups tm tm' : plain0 tm' -> like tm tm' (ext_of groups) -> incl (ext_of groups) (orbital_indices (factors tm')) -> staged groups tm tm'.
  Proof.
    intros (P1 & P2) (L1 & L2 & _) Hi. split; [exists (factors tm'); split; [apply shape_plain|auto]|]. split; auto.
    intros Sy Hin E. destruct (opfree_not_S _ _ P1 Hin E).
  Qed.

  Lemma half_renamed_renamed A q fs : NoDup (t_bra A ++ t_ket A) -> Permutation (t_bra A) q -> half_renamed A q fs = renamed A q (t_ket A) fs.
  Proof.
    intros N P. unfold half_renamed, renamed. apply map_ext. intros x. apply rename_factor_ext. intros i. pose proof (Permutation_length P) as L.
    destruct (mem i (t_bra A)) eqn:Em.
    - apply mem_In in Em. rewrite image_app_l by auto. auto.
    - assert (Hn : ~ In i (t_bra A)) by (apply mem_notIn; rewrite Em; auto). rewrite image_app_r by auto. rewrite image_id, image_notin by auto. auto.
  Qed.

  Lemma step_ok full groups tm : good_term (ext_of groups) tm -> incl (ext_of groups) (orbital_indices (nonops (factors tm))) ->
    (full = false -> columns_are_groups groups tm) ->
    exists e, step full tm = Some e /\ (forall tm', In tm' e -> staged groups tm tm') /\ forall a, expr_value SI vars e a = term_value SI vars tm a.
  Proof.
    intros Hg Hi Hc. destruct full; cbn [step].
    - destruct (expand_A_good0 vars SI lt TO (ext_of groups) tm Hg) as (e & Ee & He & Hv). exists e. split; auto. split; [|auto].
      intros tm' Hin. destruct (He tm' Hin) as (P & _ & L & Hx). apply plain_staged; auto. intros x Hx'. apply Hx; auto.
    - specialize (Hc eq_refl). destruct Hg as (Hg & [Hop|(A & Hop & EA & GA)]).
      + unfold symmetrize_term. rewrite (find_none L_A _ Hop) by discriminate. eexists. split; [reflexivity|]. split.
        * intros tm' [<-|[]]. apply plain_staged.
          -- split; auto. intros t Ht. destruct (opfree_label _ _ Hop Ht) as (n & E). eapply Hg; eauto.
          -- split; auto. split; auto. intros t Ht. exists t. split; auto. split; auto. destruct (opfree_label _ _ Hop Ht) as (n & E). cbn. rewrite E. auto.
          -- rewrite (opfree_nonops _ Hop) in Hi. auto.
        * intros a. unfold expr_value, sum. cbn. ring.
      + assert (HinA : In (Ten A) (factors tm)) by (assert (H : In (Ten A) (filter is_operator (factors tm))) by (rewrite Hop; left; auto); apply filter_In in H; tauto).
        destruct (Hc A HinA EA) as (LA & RA & CA). pose proof GA as (N & As & Ax & Hiext).
        destruct (symmetrize_ok lt TO SI vars tm A Hop EA N LA RA) as (e & Ee & Hs & Hv). exists e. split; auto. split; auto.
        destruct Hs as [(R1 & ->)|(R1 & Hs)]; intros tm' Hin.
        * destruct Hin as [<-|[]].
          destruct (renamed_good (ext_of groups) tm A (t_bra A) (t_ket A) (Term (scalar tm) (nonops (factors tm))) Hg Hop GA) as (P & _ & L & Hx); auto.
          { cbn [factors]. unfold renamed. rewrite <- (map_id (nonops (factors tm))) at 1. apply map_ext. intros x. symmetry. apply rename_factor_id; intros i; apply image_id. }
          apply plain_staged; auto; intros x Hx'; apply Hx; auto.
        * destruct (Hs tm' Hin) as (q & P & E). set (Sy := Tensor L_S (t_bra A) (t_ket A) (t_aux A) Nonsymm) in *.
          rewrite half_renamed_renamed in E by auto.
          destruct (renamed_good (ext_of groups) tm A q (t_ket A) (Term (scalar tm) (renamed A q (t_ket A) (factors tm))) Hg Hop GA) as ((P1 & P2) & _ & (L1 & L2 & _) & Hx); auto.
          cbn [factors] in *. set (fs := renamed A q (t_ket A) (factors tm)) in *.
          assert (Sh : shape groups fs (factors tm')) by (rewrite E; apply shape_S; auto).
          assert (HS : forall Sy0, In (Ten Sy0) (factors tm') -> t_label Sy0 = L_S -> t_aux Sy0 = [] /\ t_symm Sy0 = Nonsymm).
          { intros Sy0 Hin0 E0. rewrite E in Hin0. destruct Hin0 as [H|H]; [injection H as <-; cbn; auto|]. destruct (opfree_not_S _ _ P1 H E0). }
          destruct (shape_summed groups fs (factors tm') Sh) as (S1 & S2); [intros; apply HS; auto|].
          split; [exists fs; split; [auto|split; [auto|split; [auto|intros x Hx'; apply Hx; auto]]]|]. split; [auto|]. split; congruence.
  Qed.

  (** The second stage: antisymmetric tensors are expanded. *)
  Lemma expands_good t t' : good_tensor t -> expands_to false t t' -> good_tensor t' /\ t_symm t' <> Antisymm.
  Proof.
    intros (L & N1 & N2 & A) (E1 & E2 & P1 & P2 & S1 & S2 & S3). split.
    - split; [rewrite <- (Permutation_length P1), <- (Permutation_length P2); auto|]. split; [eapply Permutation_NoDup; eauto|]. split; [eapply Permutation_NoDup; eauto|].
      intros i Hi. apply A. rewrite !in_app_iff in *. rewrite E2 in Hi. destruct Hi as [Hi|[Hi|Hi]]; auto; [left|right; left]; eapply Permutation_in; try apply Permutation_sym; eauto.
    - destruct (le_lt_dec (length (t_bra t)) 1) as [Hl|Hl]; [destruct (S1 Hl) as (_ & _ & ->); discriminate|].
      destruct (t_symm t) eqn:Es; try (rewrite S2 by (auto; discriminate); congruence).
      destruct (S3 Hl eq_refl) as [(-> & _)|(H & _)]; discriminate.
  Qed.

  Lemma second_ok groups tm0 tm : staged groups tm0 tm ->
    exists e, expand_antisymm_term lt false tm = Some e /\
      (forall tm', In tm' e -> exists fs, shape groups fs (factors tm') /\ filter is_operator fs = [] /\ (forall t, In (Ten t) fs -> good_tensor t) /\ nonanti fs /\ incl (ext_of groups) (orbital_indices fs) /\
         Permutation (summed (ext_of groups) (all_indices (factors tm'))) (summed (ext_of groups) (all_indices (factors tm))) /\
         Permutation (summed (ext_of groups) (orbital_indices (factors tm'))) (summed (ext_of groups) (orbital_indices (factors tm)))) /\
      forall a, expr_value SI vars e a = term_value SI vars tm a.
  Proof.
    intros ((fs & Sh & Ho & Hg & Hi) & HS & _ & _).
    assert (Hten : forall t, In (Ten t) (factors tm) -> In (Ten t) fs \/ (t_label t = L_S /\ NoDup (t_bra t ++ t_ket t) /\ length (t_bra t) = length (t_ket t) /\ spin_any (t_bra t ++ t_ket t))).
    { destruct Sh as [|Sy El NS LS AS]; auto. intros t [Ht|Ht]; auto. injection Ht as <-. auto. }
    destruct (expand_antisymm_term_ok SI vars (SI_column_symmetric T CS) lt TO false tm) as (e & Ee & He & _ & Hv).
    { intros t Ht. destruct (Hten t Ht) as [H|(H1 & H2 & H3 & H4)].
      - destruct (Hg t H) as (L & N1 & N2 & _). repeat split; auto. intros Hop. destruct (opfree_label _ _ Ho H) as (n & En). cbn in Hop. rewrite En in Hop. discriminate.
      - destruct (NoDup_parts _ _ H2) as (N1 & N2 & _). repeat split; auto. intros _ E. destruct (HS t Ht H1) as (_ & E'). congruence. }
    exists e. split; auto. split.
    2:{ apply Hv. intros t a Ht. apply any_vanishing. destruct (Hten t Ht) as [H|(_ & _ & _ & H)]; auto. destruct (Hg t H) as (_ & _ & _ & A). intros i Hi'. apply A. rewrite app_assoc. apply in_app_iff. auto. }
    intros tm' Hin. pose proof (He tm' Hin) as R.
    assert (Pa : Permutation (all_indices (factors tm)) (all_indices (factors tm'))) by (eapply all_indices_rel; [|exact R]; intros; eapply expands_same; eauto).
    assert (Po : Permutation (orbital_indices (factors tm)) (orbital_indices (factors tm'))) by (eapply orbital_indices_rel; [|exact R]; intros; eapply expands_same; eauto).
    assert (Hfs : forall gs, Forall2 (factor_rel (expands_to false)) fs gs -> filter is_operator gs = [] /\ (forall t, In (Ten t) gs -> good_tensor t) /\ nonanti gs /\ incl (ext_of groups) (orbital_indices gs)).
    { intros gs Rg. split; [|split; [|split]].
      - clear - Rg Ho. induction Rg as [|x y fs gs Hx Rg IH]; auto. cbn in *. destruct (is_operator x) eqn:Ex; [discriminate|].
        assert (Ey : is_operator y = false). { destruct x as [t|v], y as [t'|w]; cbn in *; try contradiction; auto. destruct Hx as (E1 & _). rewrite E1. auto. }
        rewrite Ey. auto.
      - clear - Rg Hg. induction Rg as [|x y fs gs Hx Rg IH]; intros t Ht; [destruct Ht|]. destruct Ht as [Ht|Ht]; [|apply IH; auto; intros; apply Hg; right; auto].
        subst y. destruct x as [t0|v]; [|contradiction]. cbn in Hx. apply (expands_good t0 t); auto. apply Hg. left. auto.
      - clear - Rg Hg. unfold nonanti. induction Rg as [|x y fs gs Hx Rg IH]; intros t Ht; [destruct Ht|]. destruct Ht as [Ht|Ht]; [|apply IH; auto; intros; apply Hg; right; auto].
        subst y. destruct x as [t0|v]; [|contradiction]. cbn in Hx. apply (expands_good t0 t); auto. apply Hg. left. auto.
      - intros x Hx. eapply Permutation_in; [eapply orbital_indices_rel; [|exact Rg]; intros; eapply expands_same; eauto|]. auto. }
    destruct Sh as [|Sy El NS LS AS HS'].
    - exists (factors tm'). destruct (Hfs _ R) as (H1 & H2 & H3 & H4). split; [constructor|]. split; auto. split; auto. split; auto. split; auto. split; apply summed_perm; symmetry; auto.
    - inversion R as [|x y l l' Hxy Rl E1 E2]; subst. destruct y as [Sy'|v]; [|contradiction]. cbn in Hxy.
      destruct (HS Sy (or_introl eq_refl) El) as (Ax & Esym).
      assert (Hsame : t_label Sy' = t_label Sy /\ t_bra Sy' = t_bra Sy /\ t_ket Sy' = t_ket Sy).
      { destruct Hxy as (F1 & F2 & F3 & F4 & F5 & F6 & _). destruct (le_lt_dec (length (t_bra Sy)) 1) as [Hl|Hl]; [destruct (F5 Hl) as (? & ? & _); auto|]. rewrite F6; auto. congruence. }
      destruct Hsame as (F1 & F2 & F3). exists l'. destruct (Hfs _ Rl) as (H1 & H2 & H3 & H4).
      split; [apply shape_S; rewrite ?F1, ?F2, ?F3; auto|]. split; auto. split; auto. split; auto. split; auto. split; apply summed_perm; symmetry; [rewrite E2|rewrite E2]; auto.
  Qed.

  Section Code.
    Variable code : index -> nat.
    Hypothesis CI : forall i j, code i = code j -> i = j.

    Lemma closed_shell_ok full groups e : good_groups groups -> pairs groups ->
      (forall tm, In tm e -> good_term (ext_of groups) tm /\ incl (ext_of groups) (orbital_indices (nonops (factors tm))) /\ (full = false -> columns_are_groups groups tm)) ->
      exists e', closed_shell_spintrace lt code full groups e = Some e' /\
        forall b, spin_free_value range vars T (ext_of groups) e' b = spin_traced_value range vars SI (map names groups) e b.
    Proof.
      intros Hgr Hp He. unfold closed_shell_spintrace.
      assert (Hst : forall tm, In tm e -> exists y, step full tm = Some y /\ (forall tm', In tm' y -> staged groups tm tm') /\ forall a, expr_value SI vars y a = term_value SI vars tm a).
      { intros tm Hin. destruct (He tm Hin) as (H1 & H2 & H3). apply step_ok; auto. }
      destruct (concat_mapM_total (step full) e) as (E1 & V1); [intros tm Hin; destruct (Hst tm Hin) as (y & Ey & _); eauto|].
      assert (Efirst : (if existsb (has_tensor L_A) e then (if full then expand_A_op lt e else symmetrize_expr lt e) else Some e) = Some (flat_map (value_of (step full)) e)).
      { destruct (existsb (has_tensor L_A) e) eqn:Ea; [destruct full; exact E1|]. f_equal.
        clear - Ea. induction e as [|tm e IH]; auto. cbn in Ea. apply orb_false_iff in Ea. destruct Ea as (Ea & Eb). cbn [flat_map]. rewrite <- IH by auto.
        assert (Es : step full tm = Some [tm]) by (unfold step, expand_A_term, symmetrize_term; rewrite (no_find _ _ Ea); destruct full; auto).
        unfold value_of. rewrite Es. reflexivity. }
      unfold expr in *. rewrite Efirst. set (e1 := flat_map (value_of (step full)) e) in *.
      assert (H1 : forall tm', In tm' e1 -> exists tm, In tm e /\ staged groups tm tm').
      { intros tm' Hin. unfold e1 in Hin. apply in_flat_map in Hin. destruct Hin as (tm & Ht & Hin). exists tm. split; auto. destruct (Hst tm Ht) as (y & Ey & Hy & _). rewrite (V1 tm Ht) in Ey. injection Ey as Ey. rewrite Ey in Hin. auto. }
      unfold expand_antisymm.
      destruct (concat_mapM_total (expand_antisymm_term lt false) e1) as (E2 & V2).
      { intros tm' Hin. destruct (H1 tm' Hin) as (tm & _ & Hs). destruct (second_ok groups tm tm' Hs) as (y & Ey & _). eauto. }
      rewrite E2. set (e2 := flat_map (value_of (expand_antisymm_term lt false)) e1) in *.
      assert (H2 : forall tm', In tm' e1 -> (forall tm'', In tm'' (value_of (expand_antisymm_term lt false) tm') ->
                 exists fs, shape groups fs (factors tm'') /\ filter is_operator fs = [] /\ (forall t, In (Ten t) fs -> good_tensor t) /\ nonanti fs /\ incl (ext_of groups) (orbital_indices fs) /\
                   Permutation (summed (ext_of groups) (all_indices (factors tm''))) (summed (ext_of groups) (all_indices (factors tm'))) /\
                   Permutation (summed (ext_of groups) (orbital_indices (factors tm''))) (summed (ext_of groups) (orbital_indices (factors tm')))) /\
                 forall a, expr_value SI vars (value_of (expand_antisymm_term lt false) tm') a = term_value SI vars tm' a).
      { intros tm' Hin. destruct (H1 tm' Hin) as (tm & _ & Hs). destruct (second_ok groups tm tm' Hs) as (y & Ey & Hy & Hv). rewrite (V2 tm' Hin) in Ey. injection Ey as ->. auto. }
      assert (H3 : forall tm'', In tm'' e2 -> exists r, closed_shell_term code groups tm'' = Some r /\ forall b, free_term range vars T (ext_of groups) r b = term_trace range vars SI (map names groups) tm'' b).
      { intros tm'' Hin. unfold e2 in Hin. apply in_flat_map in Hin. destruct Hin as (tm' & Ht & Hin). destruct (proj1 (H2 tm' Ht) tm'' Hin) as (fs & Sh & F1 & F2 & F3 & F4 & _).
        apply (closed_term_ok range vars T code CI groups tm'' fs); auto. }
      rewrite (mapM_total' _ (fun tm => tm)) by (intros tm'' Hin; destruct (H3 tm'' Hin) as (r & Er & _); eauto).
      eexists. split; [reflexivity|]. intros b. unfold spin_free_value. rewrite sum_map.
      rewrite (sum_ext _ (fun tm'' => term_trace range vars SI (map names groups) tm'' b)).
      2:{ intros tm'' Hin. destruct (H3 tm'' Hin) as (r & -> & Hr). exact (Hr b). }
      assert (Ncg : NoDup (concat (map names groups))) by (rewrite concat_names; apply names_NoDup; apply Hgr).
      unfold e2. rewrite sum_flat_map. rewrite (sum_ext _ (fun tm' => term_trace range vars SI (map names groups) tm' b)).
      2:{ intros tm' Hin. destruct (H2 tm' Hin) as (F & Hv). apply trace_split; auto. intros tm'' Hin''. rewrite concat_names. destruct (F tm'' Hin'') as (fs & _ & _ & _ & _ & _ & G). exact G. }
      unfold e1. rewrite sum_flat_map. unfold spin_traced_value. apply sum_ext. intros tm Hin. destruct (Hst tm Hin) as (y & Ey & Hy & Hv). rewrite (V1 tm Hin) in Ey. injection Ey as ->.
      apply (trace_split (map names groups) tm y b); auto. intros tm' Hin'. rewrite concat_names. destruct (Hy tm' Hin') as (_ & _ & -> & ->). auto.
    Qed.
  End Code.
End Final.
