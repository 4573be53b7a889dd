(** Proofs for the elimination of common subexpressions, 3: the new list of trees, what counts as a
    common subexpression, and the concrete functor. *)
From Coq Require Import List Arith Bool Lia Permutation Sorted Ring Ring_theory.
From Verif Require Import Idx_Model Bin_Model Bin_Spec Bin_Sums Cse_Model Cse_Spec Cse_Proofs1 Cse_Proofs2.
Import ListNotations.

Section Form.
  Variable K : Type.
  Variables (zero one : K) (add mul sub : K -> K -> K) (opp : K -> K).
  Variable RT : ring_theory zero one add mul sub opp eq.
  Add Ring Kring28 : RT.
  Variable dom : idx -> list nat.
  Variable space : idx -> nat.
  Notation tree := (Cse_Model.tree K).
  Notation val := (val K zero add mul dom).
  Notation wf := (wf K).
  Notation tidx := (tidx K).
  Notation reads := (reads K).
  Notation internal := (internal K).
  Notation target := (target K).
  Section Run.
  Variables eqb eqb0 : tree -> tree -> bool.
  Variable define : xpr K -> tree -> tree.
  Variable use : xpr K -> bool -> tree.
  Variable use_root : xpr K -> xpr K -> bool -> tree.
  Variable gen : tree -> nat -> label.
  Variable good : good_functor K zero add mul opp dom define use use_root.
  Hypothesis gen_inj : forall t u m n, gen t m = gen u n -> m = n.
  Notation reference := (reference K space).
  Notation replace := (replace K space eqb eqb0 define use use_root gen).
  Notation new := (new K gen).
  Notation old_tree := (old_tree K gen).
  Variable I : tree -> Prop.
  Hypothesis I_wf : forall t, I t -> wf t.
  Hypothesis I_old : forall t, I t -> old_tree t.
  Hypothesis I_node : forall t, I t -> exists o i a b, t = Cse_Model.Node o i a b.
  Notation replacements := (replacements K space eqb eqb0 define use use_root gen).
  Notation defs_of := (defs_of K space define).
  Notation numbered := (numbered K gen).

  Lemma defs_nth N i : (forall t l, In (t, l) N -> I t) -> forall d, nth_error (defs_of N) i = Some d ->
    exists t l, nth_error N i = Some (t, l) /\ target d = Some l /\ old_tree d.
  Proof.
    intros HN d H. unfold Cse_Proofs2.defs_of in H. rewrite nth_error_map in H. destruct (nth_error N i) as [(t, l)|] eqn:E; [|discriminate].
    cbn in H. injection H as <-. exists t, l. pose proof (HN t l (nth_error_In _ _ E)) as It. pose proof (I_wf t It) as W.
    destruct (canon_ref K space t l W) as (P & NDr & XL & TT).
    destruct (g_define _ _ _ _ _ _ _ _ _ good (reference t l) t W TT P) as (A & B & C).
    { exists l. auto. } { apply I_node. auto. }
    split; auto. split; [unfold Cse_Spec.target; rewrite A; auto|]. intros m Hm. apply (I_old t It). auto.
  Qed.

  Record form (names : list (tree * label)) (pos : nat) (ts out : list tree) (ps : list nat) : Prop := {
    f_roots : Forall2 (fun t' t => texpr t' = texpr t) (without ps pos out) ts;
    f_sorted : StronglySorted lt ps;
    f_range : forall p, In p ps -> pos <= p < pos + length out;
    f_defs : forall k d, nth_error out k = Some d -> (In (pos + k) ps <-> exists l, target d = Some l /\ new l);
    f_uses : forall j t l, nth_error out j = Some t -> In l (reads t) -> new l ->
      In l (map snd names) \/ exists i d, i < j /\ nth_error out i = Some d /\ target d = Some l;
    f_def : forall i d l, nth_error out i = Some d -> target d = Some l -> new l ->
      ~ In l (map snd names) /\ old_tree d /\ (exists j t, i < j /\ nth_error out j = Some t /\ In l (reads t)) /\
      forall j d', nth_error out j = Some d' -> target d' = Some l -> j = i;
    f_length : length out = length ts + length ps }.

  Lemma sorted_app : forall a b, StronglySorted lt a -> StronglySorted lt b -> (forall x y, In x a -> In y b -> x < y) -> StronglySorted lt (a ++ b).
  Proof.
    induction a as [|x a IH]; intros b A B H; cbn; auto. inversion A as [|? ? A1 A2]; subst. constructor.
    - apply IH; auto. intros; apply H; cbn; auto.
    - apply Forall_app. split; auto. apply Forall_forall. intros y Hy. apply H; cbn; auto.
  Qed.
  Lemma sorted_seq : forall n p, StronglySorted lt (seq p n).
  Proof. induction n; intros p; cbn; constructor; auto. apply Forall_forall. intros x Hx. apply in_seq in Hx. lia. Qed.

  Theorem replacements_form us : forall ts names c pos,
    (forall u, In u (flat_map internal ts) -> I u) -> (forall u, In u ts -> old_tree u) ->
    (forall u l, In u ts -> target u = Some l -> ~ new l) ->
    (forall u l, In (u, l) names -> I u) -> numbered c names ->
    form names pos ts (fst (replacements us ts names c pos)) (snd (replacements us ts names c pos)).
  Proof.
    induction ts as [|t ts IH]; intros names c pos HI HO HT HN Num.
    - constructor; cbn; auto.
      + constructor.
      + intros p [].
      + intros [|k] d H; discriminate.
      + intros [|j] t l H; discriminate.
      + intros [|i] d l H; discriminate.
    - assert (HIt : forall u, In u (internal t) -> I u) by (intros; apply HI; cbn; apply in_or_app; auto).
      assert (Ot : old_tree t) by (apply HO; left; auto).
      destruct (replace_ok K zero one add mul sub opp RT dom space (fun _ => False) eqb eqb0 define use use_root gen good I I_wf us t true (mks names c []) HIt Ot HN) as (N & R).
      cbn [Cse_Model.replacements].
      destruct (replace us true t (mks names c [])) as (t', st) eqn:RE. cbn [fst snd] in *.
      pose proof (r_names _ _ _ _ _ _ _ _ _ _ _ _ _ _ _ _ _ _ R) as En. pose proof (r_defs _ _ _ _ _ _ _ _ _ _ _ _ _ _ _ _ _ _ R) as Ed.
      pose proof (r_labels _ _ _ _ _ _ _ _ _ _ _ _ _ _ _ _ _ _ R) as El. cbn [s_names s_defs s_counter app] in En, Ed, El.
      pose proof (r_in _ _ _ _ _ _ _ _ _ _ _ _ _ _ _ _ _ _ R) as Rin. pose proof (r_root _ _ _ _ _ _ _ _ _ _ _ _ _ _ _ _ _ _ R eq_refl) as Rroot.
      pose proof (r_reads _ _ _ _ _ _ _ _ _ _ _ _ _ _ _ _ _ _ R) as Rreads. pose proof (r_used _ _ _ _ _ _ _ _ _ _ _ _ _ _ _ _ _ _ R) as Rused.
      destruct (labelled_numbered K gen gen_inj _ _ _ _ Num El) as (Num' & NewN).
      assert (HN' : forall u l, In (u, l) (s_names st) -> I u).
      { intros u l H. rewrite En in H. apply in_app_iff in H. destruct H as [H|H]; [eapply HN; eauto|]. eapply Rin; eauto. }
      assert (HNN : forall u l, In (u, l) N -> I u) by (intros; eapply Rin; eauto).
      rewrite Ed. assert (Len : length (defs_of N) = length N) by (unfold Cse_Proofs2.defs_of; apply map_length). rewrite Len.
      assert (F : form (s_names st) (pos + length N + 1) ts (fst (replacements us ts (s_names st) (s_counter st) (pos + length N + 1)))
                    (snd (replacements us ts (s_names st) (s_counter st) (pos + length N + 1)))).
      { apply IH; auto.
        - intros; apply HI; cbn; apply in_or_app; auto.
        - intros; apply HO; right; auto.
        - intros; eapply HT; [right|]; eauto.
        - rewrite En. exact Num'. }
      destruct (replacements us ts (s_names st) (s_counter st) (pos + length N + 1)) as (out, ps) eqn:E. cbn [fst snd] in *.
      assert (Tt : forall l, target t' = Some l -> ~ new l).
      { intros l Hl. apply (HT t l (or_introl eq_refl)). unfold Cse_Spec.target in *. congruence. }
      assert (Nth : forall k d, nth_error (defs_of N ++ t' :: out) k = Some d ->
                (k < length N /\ exists u l, nth_error N k = Some (u, l) /\ target d = Some l /\ old_tree d /\ new l) \/
                (k = length N /\ d = t') \/ (exists j, k = length N + 1 + j /\ nth_error out j = Some d)).
      { intros k d H. destruct (lt_eq_lt_dec k (length N)) as [[L|L]|L].
        - left. rewrite nth_error_app1 in H by (rewrite Len; auto). destruct (defs_nth N k HNN d H) as (u & l & A & B & C).
          split; auto. exists u, l. repeat split; auto. eapply NewN. eapply nth_error_In; eauto.
        - right. left. rewrite nth_error_app2 in H by (rewrite Len; lia). rewrite Len, L, Nat.sub_diag in H. cbn in H. injection H as ->. auto.
        - right. right. exists (k - length N - 1). split; [lia|]. rewrite nth_error_app2 in H by (rewrite Len; lia). rewrite Len in H.
          replace (k - length N) with (S (k - length N - 1)) in H by lia. exact H. }
      assert (At : forall j, nth_error (defs_of N ++ t' :: out) (length N + 1 + j) = nth_error out j).
      { intros j. rewrite nth_error_app2 by (rewrite Len; lia). rewrite Len. replace (length N + 1 + j - length N) with (S j) by lia. auto. }
      assert (Atn : nth_error (defs_of N ++ t' :: out) (length N) = Some t').
      { rewrite nth_error_app2 by (rewrite Len; lia). rewrite Len, Nat.sub_diag. auto. }
      assert (AtD : forall i u l, nth_error N i = Some (u, l) -> exists d, nth_error (defs_of N ++ t' :: out) i = Some d /\ target d = Some l).
      { intros i u l H. assert (L : i < length N) by (apply nth_error_Some; congruence).
        rewrite nth_error_app1 by (rewrite Len; auto). destruct (nth_error (defs_of N) i) as [d|] eqn:X.
        - exists d. split; auto. destruct (defs_nth N i HNN d X) as (u' & l' & A & B & C). congruence.
        - apply nth_error_None in X. rewrite Len in X. lia. }
      pose proof (f_range _ _ _ _ _ F) as Fr.
      destruct Num' as (NDn & _).
      constructor.
      + rewrite <- Len. rewrite without_defs; auto.
        * constructor; auto. rewrite Len. apply F.
        * intros p Hp. rewrite Len. apply Fr in Hp. lia.
      + apply sorted_app; [apply sorted_seq|apply F|]. intros x y Hx Hy. apply in_seq in Hx. apply Fr in Hy. lia.
      + intros p Hp. rewrite app_length. cbn [length]. rewrite Len. apply in_app_iff in Hp. destruct Hp as [Hp|Hp].
        * apply in_seq in Hp. lia.
        * apply Fr in Hp. lia.
      + intros k d H. rewrite in_app_iff, in_seq. destruct (Nth k d H) as [(L & u & l & A & B & C & D)|[(-> & ->)|(j & -> & Hj)]].
        * split; [intros _; eauto|]. intros _. left. lia.
        * split.
          -- intros [Q|Q]; [lia|]. apply Fr in Q. lia.
          -- intros (l & Q & Q'). exfalso. eapply Tt; eauto.
        * rewrite <- (f_defs _ _ _ _ _ F j d Hj). replace (pos + length N + 1 + j) with (pos + (length N + 1 + j)) by lia.
          split; [intros [Q|Q]; [lia|auto]|auto].
      + intros k d l H Hl Nl. destruct (Nth k d H) as [(L & u & m & A & B & C & D)|[(-> & ->)|(j & -> & Hj)]].
        * exfalso. apply (C l); auto.
        * destruct (Rreads l Hl) as [Q|Q]; [exfalso; apply (Ot l); auto|]. rewrite En, map_app in Q. apply in_app_iff in Q.
          destruct Q as [Q|Q]; [auto|]. right. apply in_map_iff in Q. destruct Q as ((u & m) & Em & Q). cbn in Em. subst m.
          apply In_nth_error in Q. destruct Q as (i & Q). destruct (AtD i u l Q) as (d & Hd & Td). exists i, d. repeat split; auto.
          apply nth_error_Some. congruence.
        * destruct (f_uses _ _ _ _ _ F j d l Hj Hl Nl) as [Q|(i & e & Q1 & Q2 & Q3)].
          -- rewrite En, map_app in Q. apply in_app_iff in Q. destruct Q as [Q|Q]; [auto|]. right.
             apply in_map_iff in Q. destruct Q as ((u & m) & Em & Q). cbn in Em. subst m.
             apply In_nth_error in Q. destruct Q as (i & Q). destruct (AtD i u l Q) as (e & He & Te). exists i, e. repeat split; auto.
             assert (i < length N) by (apply nth_error_Some; congruence). lia.
          -- right. exists (length N + 1 + i), e. rewrite At. repeat split; auto. lia.
      + intros i d l H Td Nl. destruct (Nth i d H) as [(L & u & m & A & B & C & D)|[(-> & ->)|(j & -> & Hj)]].
        * assert (m = l) by congruence. subst m. rewrite map_app in NDn.
          assert (Lin : In l (map snd N)) by (apply in_map_iff; exists (u, l); split; auto; eapply nth_error_In; eauto).
          split; [|split; [auto|split]].
          -- intros Q. clear - NDn Q Lin. induction (map snd names) as [|x w IHw]; [destruct Q|]. cbn in NDn. inversion NDn; subst.
             destruct Q as [->|Q]; [apply H1; apply in_or_app; auto|]. apply IHw; auto.
          -- exists (length N), t'. repeat split; auto. eapply Rused. eapply nth_error_In; eauto.
          -- intros j d' Hj Tj. destruct (Nth j d' Hj) as [(L' & u' & m' & A' & B' & C' & D')|[(-> & ->)|(j' & -> & Hj')]].
             ++ assert (m' = l) by congruence. subst m'.
                assert (NDN : NoDup (map snd N)). { clear - NDn. induction (map snd names) as [|x w IHw]; auto. inversion NDn; auto. }
                rewrite NoDup_nth_error in NDN. apply NDN; [rewrite map_length; auto|]. rewrite !nth_error_map, A, A'. auto.
             ++ exfalso. eapply Tt; eauto.
             ++ exfalso. destruct (f_def _ _ _ _ _ F j' d' l Hj' Tj Nl) as (Q & _). apply Q. rewrite En, map_app. apply in_or_app. auto.
        * exfalso. eapply Tt; eauto.
        * destruct (f_def _ _ _ _ _ F j d l Hj Td Nl) as (Q1 & Q2 & (j' & u & Q3 & Q4 & Q5) & Q6). rewrite En, map_app in Q1.
          split; [|split; [auto|split]].
          -- intros Q. apply Q1. apply in_or_app. auto.
          -- exists (length N + 1 + j'), u. rewrite At. repeat split; auto. lia.
          -- intros k d' Hk Tk. destruct (Nth k d' Hk) as [(L' & u' & m' & A' & B' & C' & D')|[(-> & ->)|(j'' & -> & Hj')]].
             ++ exfalso. apply Q1. apply in_or_app. right. apply in_map_iff. exists (u', l). split; auto.
                assert (m' = l) by congruence. subst. eapply nth_error_In; eauto.
             ++ exfalso. eapply Tt; eauto.
             ++ f_equal. eapply Q6; eauto.
      + rewrite !app_length. cbn [length]. rewrite Len, seq_length, (f_length _ _ _ _ _ F). lia.
  Qed.
  End Run.

  (** *** Counting *)
  Section Count.
    Variable eqb : tree -> tree -> bool.
    Hypothesis eqb_refl : forall t, eqb t t = true.
    Notation identify := (identify K eqb).

    Definition counted (P : list tree) (m : counts K) : Prop :=
      forall u n, In (u, n) m -> In u P /\ n <= length (filter (eqb u) P).
    Lemma counted_more P Q m : counted P m -> counted (P ++ Q) m.
    Proof.
      intros H u n Hu. destruct (H u n Hu) as (A & B). split; [apply in_or_app; auto|]. rewrite filter_app, app_length. lia.
    Qed.
    Lemma increment_counted P t Q m : counted P m -> counted (P ++ t :: Q) (increment K eqb t m).
    Proof.
      induction m as [|(u, n) m IH]; intros H; cbn; [intros ? ? []|].
      assert (Hm : counted P m) by (intros v k Hv; apply H; right; auto).
      destruct (H u n (or_introl eq_refl)) as (A & B). destruct (eqb u t) eqn:E.
      - intros v k [Hv|Hv].
        + injection Hv as <- <-. split; [apply in_or_app; auto|]. rewrite filter_app, app_length. cbn. rewrite E. cbn. lia.
        + apply (counted_more P (t :: Q) m Hm). exact Hv.
      - intros v k [Hv|Hv].
        + injection Hv as <- <-. split; [apply in_or_app; auto|]. rewrite filter_app, app_length. lia.
        + apply (IH Hm). exact Hv.
    Qed.
    Lemma identify_counted : forall t P m, counted P m -> counted (P ++ internal t) (identify t m).
    Proof.
      induction t as [i|o i a IHa b IHb]; intros P m H; cbn [Cse_Model.identify Cse_Spec.internal].
      - rewrite app_nil_r. exact H.
      - destruct (find eqb (Cse_Model.Node o i a b) m) eqn:F.
        + apply increment_counted. exact H.
        + replace (P ++ Cse_Model.Node o i a b :: internal a ++ internal b) with (((P ++ [Cse_Model.Node o i a b]) ++ internal a) ++ internal b)
            by (rewrite <- !app_assoc; auto).
          apply IHb, IHa. intros u n Hu. apply in_app_iff in Hu. destruct Hu as [Hu|[Hu|[]]].
          * apply (counted_more P _ m H u n Hu).
          * injection Hu as <- <-. split; [apply in_or_app; right; left; auto|]. rewrite filter_app, app_length. cbn. rewrite eqb_refl. cbn. lia.
    Qed.
    Lemma identify_all_counted : forall ts P m, counted P m -> counted (P ++ flat_map internal ts) (fold_left (fun m t => identify t m) ts m).
    Proof.
      induction ts as [|t ts IH]; intros P m H; cbn; [rewrite app_nil_r; auto|]. rewrite app_assoc. apply IH, identify_counted, H.
    Qed.
    Lemma usages_twice keep ts u n : In (u, n) (usages K eqb keep ts) ->
      keep u n = true /\ In u (flat_map internal ts) /\ 2 <= n <= length (filter (eqb u) (flat_map internal ts)).
    Proof.
      unfold usages. rewrite !filter_In. cbn [fst snd]. intros ((A & B) & C).
      apply (identify_all_counted ts [] []) in A; [|intros ? ? []]. cbn [app] in A. apply negb_true_iff, Nat.ltb_ge in B. intuition.
    Qed.
  End Count.

  (** *** The functor of binarize *)
  Lemma bin_good imed : good_functor K zero add mul opp dom (bin_define K) (bin_use K opp one imed) (bin_use_root K opp one).
  Proof.
    assert (S1 : forall s y x c (r : env), same_indices (xidx y) (xidx x) ->
       val s (Cse_Model.Node Cse_Model.OProd (plain K y) (Cse_Model.Leaf (plain K x)) (Cse_Model.Leaf (plain K (XCon c)))) r = mul (xval K s x r) c).
    { intros s y x c r H.
      assert (Z : contracted (xidx x) [] (xidx y) = []).
      { destruct (contracted (xidx x) [] (xidx y)) as [|z w] eqn:E; auto. exfalso.
        assert (Q : In z (contracted (xidx x) [] (xidx y))) by (rewrite E; left; auto).
        apply (contracted_in dom) in Q. destruct Q as ([Q|[]] & Q'). apply Q'. apply H. exact Q. }
      cbn [Cse_Spec.val]. change (contracted (tidx (Cse_Model.Leaf (plain K x))) (tidx (Cse_Model.Leaf (plain K (XCon c)))) (xidx (i_expr (plain K y))))
        with (contracted (xidx x) [] (xidx y)). rewrite Z. reflexivity. }
    constructor.
    - intros x t W TT P (l & XL) (o & i & a & b & ->). cbn. split; auto. split; auto. intros s r. destruct o; auto.
      assert (E : contracted (tidx a) (tidx b) (xidx x) = contracted (tidx a) (tidx b) (xidx (i_expr i))).
      { unfold contracted. apply filter_ext. intros y. f_equal.
        assert (Q : In y (xidx x) <-> In y (xidx (i_expr i))).
        { split; apply Permutation_in; auto. apply Permutation_sym; auto. }
        destruct (mem y (xidx x)) eqn:A; destruct (mem y (xidx (i_expr i))) eqn:B; auto.
        - apply existsb_exists in A. destruct A as (z & Z & Ez). apply Nat.eqb_eq in Ez. subst. apply Q in Z. apply mem_true in Z. congruence.
        - apply existsb_exists in B. destruct B as (z & Z & Ez). apply Nat.eqb_eq in Ez. subst. apply Q in Z. apply mem_true in Z. congruence. }
      rewrite E. auto.
    - intros x neg ND.
      assert (RX : xidx (relabel K imed x) = xidx x) by (destruct x; auto).
      destruct neg; unfold bin_use.
      + repeat split.
        * unfold Cse_Spec.tidx. cbn. rewrite RX. tauto.
        * unfold Cse_Spec.tidx. cbn. rewrite RX. tauto.
        * cbn. rewrite app_nil_r. destruct (xlabel x); cbn; [intros [->|[]]; auto|tauto].
        * cbn. rewrite app_nil_r. intros ->. cbn. auto.
        * intros s r. rewrite S1; [cbn; ring|]. rewrite RX. intros y. tauto.
      + repeat split; auto.
        * cbn. destruct (xlabel x); cbn; [intros [->|[]]; auto|tauto].
        * cbn. intros ->. cbn. auto.
    - intros y x neg ND Sm. split; auto. split.
      + intros l. cbn. rewrite app_nil_r. split.
        * destruct (xlabel x); cbn; [intros [->|[]]; auto|tauto].
        * intros ->. cbn. auto.
      + intros s r. unfold bin_use_root. rewrite S1; auto. destruct neg; cbn; ring.
  Qed.
End Form.
