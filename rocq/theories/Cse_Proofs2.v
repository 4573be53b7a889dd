(** Proofs for the elimination of common subexpressions, 2: replacement and execution. *)
From Coq Require Import List Arith Bool Lia Permutation Ring Ring_theory.
From Verif Require Import Idx_Model Bin_Model Bin_Spec Bin_Sums Cse_Model Cse_Spec Cse_Proofs1.
Import ListNotations.

Section Elim.
  Variable K : Type.
  Variables (zero one : K) (add mul sub : K -> K -> K) (opp : K -> K).
  Variable RT : ring_theory zero one add mul sub opp eq.
  Variable dom : idx -> list nat.
  Variable space : idx -> nat.
  Variable symmetric : store K -> Prop.
  Notation tree := (Cse_Model.tree K).
  Notation val := (val K zero add mul dom).
  Notation wf := (wf K).
  Notation tidx := (tidx K).
  Notation reads := (reads K).
  Notation internal := (internal K).
  Notation assign := (assign K zero add mul dom).
  Notation target := (target K).
  Variables eqb eqb0 : tree -> tree -> bool.
  Variable define : xpr K -> tree -> tree.
  Variable use : xpr K -> bool -> tree.
  Variable use_root : xpr K -> xpr K -> bool -> tree.
  Variable gen : tree -> nat -> label.
  Variable good : good_functor K zero add mul opp dom define use use_root.
  Hypothesis gen_inj : forall t u m n, gen t m = gen u n -> m = n.

  Notation reference := (reference K space).
  Notation replace := (replace K space eqb eqb0 define use use_root gen).
  Notation substitute := (substitute K space eqb0 define use use_root gen).
  Notation signed := (signed K opp).

  Definition new (l : label) : Prop := exists t n, l = gen t n.
  Definition old_tree (t : tree) : Prop := forall l, In l (reads t) -> ~ new l.
  (** The internal nodes of all trees. *)
  Variable I : tree -> Prop.
  Definition I_same : Prop := forall t u, I t -> I u -> eqb0 t u = true -> same_value K zero add mul opp dom space symmetric t u.
  Hypothesis I_wf : forall t, I t -> wf t.
  Hypothesis I_old : forall t, I t -> old_tree t.
  Hypothesis I_node : forall t, I t -> exists o i a b, t = Cse_Model.Node o i a b.

  Definition agree (s s' : store K) : Prop := forall l vs, ~ new l -> s' l vs = s l vs.
  Definition named (s s' : store K) (N : list (tree * label)) : Prop :=
    forall t l, In (t, l) N -> forall vs, s' l vs = val s t (bind (xidx (reference t l)) vs).
  Definition positive (N : list (tree * label)) : Prop := forall t l, In (t, l) N -> tneg t = false.

  Lemma find_in {V} (e : tree -> tree -> bool) t (m : list (tree * V)) v :
    find e t m = Some v -> exists u, In (u, v) m /\ e u t = true.
  Proof.
    induction m as [|(u, w) m IH]; cbn; [discriminate|]. destruct (e u t) eqn:E.
    - intros H. injection H as ->. exists u. auto.
    - intros H. destruct (IH H) as (u' & A & B). exists u'. auto.
  Qed.

  Lemma canon_ref t l : wf t -> Permutation (xidx (reference t l)) (tidx t) /\ NoDup (xidx (reference t l)) /\ xlabel (reference t l) = Some l /\
    is_ten (reference t l) = is_ten (texpr t).
  Proof.
    intros W. destruct (wf_tinfo K t W) as (N & P). unfold reference, tidx, texpr, tcanon.
    destruct (i_expr (tinfo t)) eqn:E; cbn in *.
    - repeat split; auto; constructor.
    - repeat split; auto; constructor.
    - assert (Q : Permutation (sort_by space (i_canon (tinfo t))) ix).
      { eapply perm_trans; [apply Permutation_sym, sort_perm|exact P]. }
      repeat split; auto. eapply Permutation_NoDup; [apply Permutation_sym, Q|exact N].
  Qed.

  (** The value of a reference to the intermediate of an equal node. *)
  Lemma reference_value s s' t u l r : symmetric s -> wf t -> wf u -> tneg t = false ->
    same_value K zero add mul opp dom space symmetric t u ->
    (forall vs, s' l vs = val s t (bind (xidx (reference t l)) vs)) ->
    signed (tneg u) (xval K s' (reference u l) r) = val s u r.
  Proof.
    intros Sy Wt Wu P (T & Sp & Sm) E. destruct (wf_tinfo K t Wt) as (Nt & Pt). destruct (wf_tinfo K u Wu) as (Nu & Pu).
    assert (C : xval K s' (reference u l) r = val s t (bind (tcanon t) (map r (tcanon u)))).
    { unfold reference in *. rewrite <- T in *. destruct (is_ten (texpr t)) eqn:X; cbn in *.
      - rewrite E. apply val_ext. apply bind_sorted; auto. eapply Permutation_NoDup; [apply Permutation_sym, Pt|exact Nt].
      - rewrite E. unfold tcanon. assert (Z : i_canon (tinfo t) = []).
        { apply Permutation_nil, Permutation_sym. unfold texpr in X. destruct (i_expr (tinfo t)); cbn in *; auto; discriminate. }
        rewrite Z. cbn. auto. }
    rewrite C. specialize (Sm s (map r (tcanon u)) Sy). rewrite P in Sm. cbn in Sm. rewrite Sm.
    - rewrite (signed_signed K zero one add mul sub opp RT). apply val_indep; auto. intros x Hx. apply bind_in.
      eapply Permutation_in; [apply Permutation_sym, Pu|exact Hx].
    - rewrite map_length. rewrite <- (map_length space (tcanon u)), <- Sp, map_length. auto.
  Qed.

  Definition defs_of (N : list (tree * label)) : list tree := map (fun p => define (reference (fst p) (snd p)) (fst p)) N.
  Definition labelled (c c' : nat) (N : list (tree * label)) : Prop :=
    length N = c' - c /\ c <= c' /\ forall k t l, nth_error N k = Some (t, l) -> l = gen t (c + k).

  Record replaced (root : bool) (t t' : tree) (s s' : state K) (N : list (tree * label)) : Prop := {
    r_names : s_names s' = s_names s ++ N;
    r_defs : s_defs s' = s_defs s ++ defs_of N;
    r_labels : labelled (s_counter s) (s_counter s') N;
    r_in : forall u l, In (u, l) N -> I u /\ In u (internal t);
    r_val : I_same -> forall st st', symmetric st -> agree st st' -> named st st' (s_names s') -> positive (s_names s') -> forall r, val st' t' r = val st t r;
    r_root : root = true -> texpr t' = texpr t;
    r_idx : same_indices (tidx t') (tidx t);
    r_reads : forall l, In l (reads t') -> In l (reads t) \/ In l (map snd (s_names s'));
    r_used : forall u l, In (u, l) N -> In l (reads t') }.

  Lemma labelled_nil c : labelled c c [].
  Proof. repeat split; [cbn; lia|lia|]. intros [|k] t l H; discriminate. Qed.
  Lemma labelled_app c1 c2 c3 N M : labelled c1 c2 N -> labelled c2 c3 M -> labelled c1 c3 (N ++ M).
  Proof.
    intros (A & B & C) (D & E & F). repeat split; [rewrite app_length; lia|lia|]. intros k t l H.
    destruct (lt_dec k (length N)) as [L|L].
    - rewrite nth_error_app1 in H by auto. apply C. exact H.
    - rewrite nth_error_app2 in H by lia. rewrite (F _ _ _ H). f_equal. lia.
  Qed.

  Lemma substitute_ok root t s : I t -> In t (internal t) -> (forall u l, In (u, l) (s_names s) -> I u) ->
    exists N, replaced root t (fst (substitute root t s)) s (snd (substitute root t s)) N.
  Proof.
    intros It Tt HI. pose proof (I_wf t It) as W.
    assert (G : forall l (s1 : state K) N, s_names s1 = s_names s ++ N -> s_defs s1 = s_defs s ++ defs_of N ->
      labelled (s_counter s) (s_counter s1) N -> (forall u l, In (u, l) N -> I u /\ In u (internal t)) ->
      (forall u m, In (u, m) N -> m = l) ->
      (exists u, In (u, l) (s_names s1) /\ I u /\ (u = t \/ eqb0 u t = true)) ->
      exists N, replaced root t (if root then use_root (texpr t) (reference t l) (tneg t) else use (reference t l) (tneg t)) s s1 N).
    { intros l s1 N E1 E2 E3 E4 E5 (u & Hu & Iu & Eu). exists N.
      destruct (canon_ref t l W) as (P & ND & XL & TT).
      assert (Same : same_indices (xidx (reference t l)) (tidx t)).
      { intros x. split; apply Permutation_in; auto. apply Permutation_sym; auto. }
      assert (V : I_same -> forall st st', symmetric st -> agree st st' -> named st st' (s_names s1) -> positive (s_names s1) -> forall r,
                  signed (tneg t) (xval K st' (reference t l) r) = val st t r).
      { intros Is st st' Sy _ Nm Po r. assert (Sv : same_value K zero add mul opp dom space symmetric u t).
        { destruct Eu as [->|Eu]; [repeat split; auto|]. apply Is; auto. }
        exact (reference_value st st' u t l r Sy (I_wf u Iu) W (Po _ _ Hu) Sv (Nm u l Hu)). }
      destruct root.
      - destruct (g_use_root _ _ _ _ _ _ _ _ _ good (texpr t) (reference t l) (tneg t) ND) as (A & B & C).
        { intros x. symmetry. apply Same. }
        constructor; auto.
        + intros Is st st' Sy Ag Nm Po r. rewrite C. auto.
        + unfold Cse_Spec.tidx. rewrite A. intros x. tauto.
        + intros m Hm. right. apply B in Hm. rewrite XL in Hm. injection Hm as <-. apply in_map_iff. exists (u, l). auto.
        + intros w m Hw. rewrite (E5 _ _ Hw). apply B. exact XL.
      - destruct (g_use _ _ _ _ _ _ _ _ _ good (reference t l) (tneg t) ND) as (A & B & C).
        constructor; auto; try discriminate.
        + intros Is st st' Sy Ag Nm Po r. rewrite C. auto.
        + intros x. rewrite (A x). apply Same.
        + intros m Hm. right. apply B in Hm. rewrite XL in Hm. injection Hm as <-. apply in_map_iff. exists (u, l). auto.
        + intros w m Hw. rewrite (E5 _ _ Hw). apply B. exact XL. }
    unfold substitute. destruct (find eqb0 t (s_names s)) as [l|] eqn:F; cbn [fst snd].
    - destruct (find_in _ _ _ _ F) as (u & Hu & Eu). apply (G l s []).
      + rewrite app_nil_r. auto.
      + cbn. rewrite app_nil_r. auto.
      + apply labelled_nil.
      + intros ? ? [].
      + intros ? ? [].
      + exists u. eauto.
    - set (l := gen t (s_counter s)). apply (G l _ [(t, l)]); cbn; auto.
      + split; [cbn [length s_counter]; lia|]. split; [cbn [s_counter]; lia|]. intros [|k] u m H; cbn in H; [|destruct k; discriminate]. injection H as <- <-. unfold l. f_equal. lia.
      + intros u m [H|[]]. injection H as <- <-. auto.
      + intros u m [H|[]]. injection H as <- <-. auto.
      + exists t. split; [apply in_or_app; right; cbn; auto|]. auto.
  Qed.

  Lemma replace_ok us : forall t root s, (forall u, In u (internal t) -> I u) -> old_tree t ->
    (forall u l, In (u, l) (s_names s) -> I u) ->
    exists N, replaced root t (fst (replace us root t s)) s (snd (replace us root t s)) N.
  Proof.
    induction t as [i|o i a IHa b IHb]; intros root s HI O HN.
    - exists []. constructor.
      + rewrite app_nil_r; auto.
      + cbn. rewrite app_nil_r; auto.
      + apply labelled_nil.
      + intros ? ? [].
      + intros _ st st' _ Ag _ _ r. apply (val_store K zero add mul dom (Cse_Model.Leaf i)).
        intros l vs Hl. apply Ag. apply O. exact Hl.
      + auto.
      + intros x. cbn. tauto.
      + intros l Hl. left. exact Hl.
      + intros ? ? [].
    - cbn [Cse_Model.replace]. destruct (find eqb (Cse_Model.Node o i a b) us) eqn:F.
      + apply substitute_ok; auto; [apply HI|]; left; auto.
      + assert (HIa : forall u, In u (internal a) -> I u) by (intros; apply HI; right; apply in_or_app; auto).
        assert (HIb : forall u, In u (internal b) -> I u) by (intros; apply HI; right; apply in_or_app; auto).
        assert (Oa : old_tree a) by (intros l Hl; apply O; cbn; apply in_or_app; auto).
        assert (Ob : old_tree b) by (intros l Hl; apply O; cbn; apply in_or_app; auto).
        destruct (IHa false s HIa Oa HN) as (N1 & R1). destruct (replace us false a s) as (a', s1). cbn [fst snd] in *.
        assert (HN1 : forall u l, In (u, l) (s_names s1) -> I u).
        { intros u l H. rewrite (r_names _ _ _ _ _ _ R1) in H. apply in_app_iff in H. destruct H as [H|H]; [eapply HN; eauto|].
          eapply (r_in _ _ _ _ _ _ R1); eauto. }
        destruct (IHb false s1 HIb Ob HN1) as (N2 & R2). destruct (replace us false b s1) as (b', s2). cbn [fst snd] in *.
        exists (N1 ++ N2). constructor; auto.
        * rewrite (r_names _ _ _ _ _ _ R2), (r_names _ _ _ _ _ _ R1), app_assoc. auto.
        * rewrite (r_defs _ _ _ _ _ _ R2), (r_defs _ _ _ _ _ _ R1). unfold defs_of. rewrite map_app, app_assoc. auto.
        * eapply labelled_app; [apply R1|apply R2].
        * intros u l H. apply in_app_iff in H. destruct H as [H|H].
          -- destruct (r_in _ _ _ _ _ _ R1 u l H). split; auto. right. apply in_or_app. auto.
          -- destruct (r_in _ _ _ _ _ _ R2 u l H). split; auto. right. apply in_or_app. auto.
        * intros Is st st' Sy Ag Nm Po r. apply (val_children K zero one add mul sub opp RT).
          -- apply R1.
          -- apply R2.
          -- apply (r_val _ _ _ _ _ _ R1); auto.
             ++ intros u l H vs. apply Nm. rewrite (r_names _ _ _ _ _ _ R2). apply in_or_app. auto.
             ++ intros u l H. eapply Po. rewrite (r_names _ _ _ _ _ _ R2). apply in_or_app. eauto.
          -- apply (r_val _ _ _ _ _ _ R2); auto.
        * intros x. tauto.
        * intros l H. cbn in H. apply in_app_iff in H. destruct H as [H|H].
          -- destruct (r_reads _ _ _ _ _ _ R1 l H) as [H1|H1]; [left; cbn; apply in_or_app; auto|]. right.
             rewrite (r_names _ _ _ _ _ _ R2), map_app. apply in_or_app. auto.
          -- destruct (r_reads _ _ _ _ _ _ R2 l H) as [H1|H1]; [left; cbn; apply in_or_app; auto|]. auto.
        * intros u l H. cbn. apply in_or_app. apply in_app_iff in H.
          destruct H as [H|H]; [left; eapply (r_used _ _ _ _ _ _ R1); eauto|right; eapply (r_used _ _ _ _ _ _ R2); eauto].
  Qed.

  (** *** Execution *)
  Lemma assign_other s t l vs : target t <> Some l -> assign s t l vs = s l vs.
  Proof.
    unfold Cse_Spec.assign, Cse_Spec.target. destruct (texpr t); cbn; auto; intros H; destruct (Nat.eqb_spec l l0); auto; congruence.
  Qed.
  Lemma assign_same s t l vs : target t = Some l -> assign s t l vs = val s t (bind (tidx t) vs).
  Proof.
    unfold Cse_Spec.assign, Cse_Spec.target, Cse_Spec.tidx. destruct (texpr t); cbn; intros H; try discriminate; injection H as ->;
      rewrite Nat.eqb_refl; auto.
  Qed.
  Lemma val_agree s s' t : old_tree t -> agree s s' -> forall r, val s' t r = val s t r.
  Proof. intros O A. apply val_store. intros l vs H. apply A. apply O. exact H. Qed.

  Lemma run_defs s : forall N s' M, agree s s' -> named s s' M -> NoDup (map snd (M ++ N)) ->
    (forall t l, In (t, l) N -> I t /\ new l) ->
    agree s (fold_left assign (defs_of N) s') /\ named s (fold_left assign (defs_of N) s') (M ++ N).
  Proof.
    induction N as [|(t, l) N IH]; intros s' M Ag Nm ND HN; cbn.
    - rewrite app_nil_r. auto.
    - destruct (HN t l (or_introl eq_refl)) as (It & Nl). pose proof (I_wf t It) as W.
      destruct (canon_ref t l W) as (P & NDr & XL & TT).
      destruct (g_define _ _ _ _ _ _ _ _ _ good (reference t l) t W TT P) as (A & B & C).
      { exists l. auto. } { apply I_node. auto. }
      set (d := define (reference t l) t) in *.
      assert (Td : target d = Some l) by (unfold Cse_Spec.target; rewrite A; auto).
      assert (X : M ++ (t, l) :: N = (M ++ [(t, l)]) ++ N) by (rewrite <- app_assoc; auto).
      rewrite X in *. apply IH; auto.
      + intros m vs Hm. rewrite assign_other; auto. rewrite Td. intros E. injection E as <-. auto.
      + intros u m H vs. apply in_app_iff in H. destruct H as [H|[H|[]]].
        * rewrite assign_other; [apply (Nm u m H)|]. rewrite Td. intros E. injection E as ->.
          rewrite map_app, map_app in ND. cbn in ND. rewrite <- app_assoc in ND. apply NoDup_remove_2 in ND.
          apply ND. apply in_or_app. left. apply in_map_iff. exists (u, m). auto.
        * injection H as <- <-. rewrite (assign_same _ _ _ _ Td). unfold Cse_Spec.tidx. rewrite A, C. apply val_agree; auto.
      + intros u m H. apply HN. right. exact H.
  Qed.

  Notation replacements := (replacements K space eqb eqb0 define use use_root gen).
  Notation definers := (definers K space eqb eqb0 define use use_root gen).
  Notation values := (values K zero add mul dom).
  Notation final := (final K zero add mul dom).

  Lemma values_app : forall D s p, values s (D ++ p) = values s D ++ values (fold_left assign D s) p.
  Proof. induction D as [|d D IH]; intros s p; cbn; auto. rewrite IH. auto. Qed.
  Lemma values_length : forall D s, length (values s D) = length D.
  Proof. induction D as [|d D IH]; intros s; cbn; auto. Qed.

  Lemma mem_false x l : (forall y, In y l -> y <> x) -> mem x l = false.
  Proof.
    intros H. unfold mem. destruct (existsb (Nat.eqb x) l) eqn:E; auto. apply existsb_exists in E.
    destruct E as (y & Y & E). apply Nat.eqb_eq in E. subst. exfalso. eapply H; eauto.
  Qed.
  Lemma mem_true x l : In x l -> mem x l = true.
  Proof. intros H. apply existsb_exists. exists x. split; auto. apply Nat.eqb_refl. Qed.
  Lemma without_in {X} ps qs : forall (l : list X) n, (forall k, n <= k -> (In k ps <-> In k qs)) -> without ps n l = without qs n l.
  Proof.
    induction l as [|x l IH]; intros n H; cbn; auto. rewrite (IH (S n)) by (intros; apply H; lia).
    assert (E : mem n ps = mem n qs).
    { destruct (mem n ps) eqn:A; destruct (mem n qs) eqn:B; auto.
      - apply existsb_exists in A. destruct A as (y & Y & E). apply Nat.eqb_eq in E. subst. apply H in Y; auto. apply mem_true in Y. congruence.
      - apply existsb_exists in B. destruct B as (y & Y & E). apply Nat.eqb_eq in E. subst. apply H in Y; auto. apply mem_true in Y. congruence. }
    rewrite E. auto.
  Qed.
  Lemma without_defs {X} ps (x : X) l : forall D pos, (forall p, In p ps -> pos + length D + 1 <= p) ->
    without (seq pos (length D) ++ ps) pos (D ++ x :: l) = x :: without ps (pos + length D + 1) l.
  Proof.
    induction D as [|d D IH]; intros pos H; cbn [length seq app without].
    - rewrite mem_false by (intros y Hy; specialize (H y Hy); cbn in H; lia). cbn in H.
      replace (pos + 0 + 1) with (S pos) by lia. auto.
    - rewrite mem_true by (left; auto).
      rewrite (without_in _ (seq (S pos) (length D) ++ ps)).
      + rewrite IH; [f_equal; f_equal; lia|]. intros p Hp. specialize (H p Hp). cbn in H. lia.
      + intros k Hk. cbn. rewrite !in_app_iff. split; [|tauto]. intros [E|E]; [lia|tauto].
  Qed.

  Lemma replacements_pos us : forall ts names c pos p, In p (snd (replacements us ts names c pos)) -> pos <= p.
  Proof.
    induction ts as [|t ts IH]; intros names c pos p H; [destruct H|]. cbn [Cse_Model.replacements] in H.
    destruct (replace us true t (mks names c [])) as (t', s).
    destruct (replacements us ts (s_names s) (s_counter s) (pos + length (s_defs s) + 1)) as (out, ps) eqn:E. cbn in H.
    apply in_app_iff in H. destruct H as [H|H].
    - apply in_seq in H. lia.
    - specialize (IH (s_names s) (s_counter s) (pos + length (s_defs s) + 1) p). rewrite E in IH. specialize (IH H). lia.
  Qed.

  Lemma names_definers us : forall ts names c t l, In (t, l) names ->
    (forall u, In u (flat_map internal ts) -> I u) -> (forall u, In u ts -> old_tree u) -> (forall u l, In (u, l) names -> I u) ->
    In t (definers us ts names c).
  Proof.
    induction ts as [|x ts IH]; intros names c t l H HI HO HN; cbn.
    - apply in_map_iff. exists (t, l). auto.
    - destruct (replace_ok us x true (mks names c [])) as (N & R).
      { intros u Hu. apply HI. cbn. apply in_or_app. auto. } { apply HO. left. auto. } { exact HN. }
      eapply (IH _ _ t l).
      + rewrite (r_names _ _ _ _ _ _ R). apply in_or_app. left. exact H.
      + intros u Hu. apply HI. cbn. apply in_or_app. auto.
      + intros u Hu. apply HO. right. auto.
      + intros u m Hu. rewrite (r_names _ _ _ _ _ _ R) in Hu. apply in_app_iff in Hu. destruct Hu as [Hu|Hu]; [eapply HN; eauto|].
        eapply (r_in _ _ _ _ _ _ R); eauto.
  Qed.

  Definition numbered (c : nat) (names : list (tree * label)) : Prop :=
    NoDup (map snd names) /\ forall t l, In (t, l) names -> exists k, k < c /\ l = gen t k.
  Lemma nodup_join {X} (a b : list X) : NoDup a -> NoDup b -> (forall x, In x a -> In x b -> False) -> NoDup (a ++ b).
  Proof.
    induction a as [|x a IH]; intros A B H; cbn; auto. inversion A; subst. constructor.
    - rewrite in_app_iff. intros [C|C]; [auto|]. apply (H x); cbn; auto.
    - apply IH; auto. intros y Y Y'. apply (H y); cbn; auto.
  Qed.
  Lemma labelled_nodup : forall N c c', labelled c c' N -> NoDup (map snd N).
  Proof.
    intros N c c' (_ & _ & La). apply NoDup_nth_error. intros i j Hi E. rewrite map_length in Hi.
    rewrite !nth_error_map in E. destruct (nth_error N i) as [(t, l)|] eqn:A; [|apply nth_error_None in A; lia].
    destruct (nth_error N j) as [(u, m)|] eqn:B; cbn in E; [|discriminate]. injection E as ->.
    apply La in A. apply La in B. rewrite A in B. apply gen_inj in B. lia.
  Qed.
  Lemma labelled_numbered c c' names N : numbered c names -> labelled c c' N -> numbered c' (names ++ N) /\ (forall t l, In (t, l) N -> new l).
  Proof.
    intros (ND & Ex) La0. pose proof (labelled_nodup N c c' La0) as NDN. destruct La0 as (Len & Le & La).
    assert (LaN : forall t l, In (t, l) N -> exists k, c <= k < c' /\ l = gen t k).
    { intros t l H. apply In_nth_error in H. destruct H as (k & H). exists (c + k). split; [|eapply La; eauto].
      assert (k < length N) by (apply nth_error_Some; congruence). lia. }
    split; [split|].
    - rewrite map_app. apply nodup_join; auto. intros l A B.
      apply in_map_iff in A. destruct A as ((t & l1) & E1 & A). apply in_map_iff in B. destruct B as ((u & l2) & E2 & B). cbn in *. subst.
      destruct (Ex _ _ A) as (k & Hk & E). destruct (LaN _ _ B) as (k' & Hk' & E'). rewrite E in E'. apply gen_inj in E'. lia.
    - intros t l H. apply in_app_iff in H. destruct H as [H|H].
      + destruct (Ex _ _ H) as (k & Hk & E). exists k. split; auto. lia.
      + destruct (LaN _ _ H) as (k & Hk & E). exists k. split; auto. lia.
    - intros t l H. destruct (LaN _ _ H) as (k & Hk & E). exists t, k. auto.
  Qed.

  (** Everything about the new list. *)
  Definition remaining (names : list (tree * label)) (ts : list tree) : Prop :=
    forall t l u m, In (t, l) names -> In u ts -> target u = Some m -> ~ In m (reads t).

  Theorem replacements_ok us : forall ts names c pos s s',
    I_same -> (forall u, In u (flat_map internal ts) -> I u) -> (forall u, In u ts -> old_tree u) ->
    (forall u l, In u ts -> target u = Some l -> ~ new l) ->
    symmetric s -> (forall s t, symmetric s -> In t ts -> symmetric (assign s t)) ->
    in_order K ts -> (forall u l, In (u, l) names -> I u) -> numbered c names -> remaining names ts ->
    agree s s' -> named s s' names -> (forall t, In t (definers us ts names c) -> tneg t = false) ->
    Forall2 (fun f g => forall r, f r = g r)
      (without (snd (replacements us ts names c pos)) pos (values s' (fst (replacements us ts names c pos)))) (values s ts) /\
    agree (final s ts) (final s' (fst (replacements us ts names c pos))).
  Proof.
    induction ts as [|t ts IH]; intros names c pos s s' Is HI HO HT Sy Sys Ord HN Num Rem Ag Nm Pos.
    - cbn. auto.
    - destruct Ord as (Ord1 & Ord2).
      assert (HIt : forall u, In u (internal t) -> I u) by (intros; apply HI; cbn; apply in_or_app; auto).
      assert (Ot : old_tree t) by (apply HO; left; auto).
      destruct (replace_ok us t true (mks names c []) HIt Ot HN) as (N & R).
      cbn [Cse_Model.replacements]. cbn [Cse_Model.definers] in Pos.
      destruct (replace us true t (mks names c [])) as (t', st) eqn:RE. cbn [fst snd] in *.
      pose proof (r_names _ _ _ _ _ _ R) as En. pose proof (r_defs _ _ _ _ _ _ R) as Ed.
      pose proof (r_labels _ _ _ _ _ _ R) as El. cbn [s_names s_defs s_counter app] in En, Ed, El.
      destruct (labelled_numbered _ _ _ _ Num El) as (Num' & NewN).
      assert (HN' : forall u l, In (u, l) (s_names st) -> I u).
      { intros u l H. rewrite En in H. apply in_app_iff in H. destruct H as [H|H]; [eapply HN; eauto|]. eapply (r_in _ _ _ _ _ _ R); eauto. }
      assert (HIts : forall u, In u (flat_map internal ts) -> I u) by (intros; apply HI; cbn; apply in_or_app; auto).
      assert (HOts : forall u, In u ts -> old_tree u) by (intros; apply HO; right; auto).
      (* the definitions *)
      destruct (run_defs s N s' names Ag Nm) as (Ag1 & Nm1).
      { apply Num'. } { intros u l H. split; [eapply (r_in _ _ _ _ _ _ R); eauto|]. eapply NewN; eauto. }
      rewrite <- En in Nm1. set (s1 := fold_left assign (defs_of N) s') in *.
      assert (Po : positive (s_names st)).
      { intros u l H. apply Pos. eapply names_definers; eauto. }
      assert (V : forall r, val s1 t' r = val s t r) by (apply (r_val _ _ _ _ _ _ R); auto).
      assert (Tx : texpr t' = texpr t) by (apply (r_root _ _ _ _ _ _ R); auto).
      (* the tree *)
      assert (Ag2 : agree (assign s t) (assign s1 t')).
      { intros l vs Hl. destruct (target t) as [m|] eqn:Tm.
        - assert (Tm' : target t' = Some m) by (unfold Cse_Spec.target in *; congruence).
          destruct (Nat.eq_dec l m) as [->|NE].
          + rewrite (assign_same _ _ _ _ Tm), (assign_same _ _ _ _ Tm'). unfold Cse_Spec.tidx. rewrite Tx, V. auto.
          + rewrite !assign_other by congruence. apply Ag1. exact Hl.
        - assert (Tm' : target t' = None) by (unfold Cse_Spec.target in *; congruence).
          rewrite !assign_other by congruence. apply Ag1. exact Hl. }
      assert (RemAll : forall u l w m, In (u, l) (s_names st) -> In w (t :: ts) -> target w = Some m -> ~ In m (reads u)).
      { intros u l w m H Hw Hm. rewrite En in H. apply in_app_iff in H. destruct H as [H|H]; [eapply Rem; eauto|].
        intros C. apply (Ord1 w m Hw Hm). eapply internal_reads; [|exact C]. eapply (r_in _ _ _ _ _ _ R); eauto. }
      assert (Nm2 : named (assign s t) (assign s1 t') (s_names st)).
      { intros u l H vs. rewrite assign_other.
        - rewrite (Nm1 u l H). apply val_store. intros m ws Hm. symmetry. apply assign_other. intros E.
          apply (RemAll u l t m H (or_introl eq_refl) E Hm).
        - unfold Cse_Spec.target. rewrite Tx. intros E. apply (HT t l (or_introl eq_refl) E).
          rewrite En in H. destruct Num' as (_ & Ex). destruct (Ex _ _ H) as (k & _ & ->). exists u, k. auto. }
      rewrite Ed. unfold defs_of at 2 4 6. rewrite map_length.
      destruct (IH (s_names st) (s_counter st) (pos + length N + 1) (assign s t) (assign s1 t')) as (F & A); auto.
      { intros u l Hu. apply HT. right. auto. }
      { apply Sys; auto. left. auto. }
      { intros q w Hq Hw. apply Sys; auto. right. auto. }
      { rewrite En. exact Num'. }
      { intros u l w m H Hw. apply (RemAll u l w m H). right. auto. }
      assert (Len : length (defs_of N) = length N) by (unfold defs_of; apply map_length).
      rewrite Len in *.
      destruct (replacements us ts (s_names st) (s_counter st) (pos + length N + 1)) as (out, ps) eqn:E. cbn [fst snd] in *.
      split.
      + rewrite values_app. cbn [Cse_Spec.values]. fold s1.
        assert (LV : length (values s' (defs_of N)) = length N) by (rewrite values_length; auto).
        rewrite <- LV. rewrite without_defs.
        * constructor; [exact V|]. rewrite LV. exact F.
        * intros p Hp. rewrite LV. pose proof (replacements_pos us ts (s_names st) (s_counter st) (pos + length N + 1) p) as Q.
          rewrite E in Q. apply Q. exact Hp.
      + unfold Cse_Spec.final in *. rewrite fold_left_app. cbn [fold_left]. exact A.
  Qed.
End Elim.
