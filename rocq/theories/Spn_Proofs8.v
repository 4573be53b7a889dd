(** Spin tracing of expressions with antisymmetrizers; open-shell spin tracing. *)
From Coq Require Import ZArith NArith QArith Qcanon List Arith Bool Permutation Sorted Lia Ring.
From Verif Require Import Alg_Model Alg_Spec Alg_Proofs1 Alg_Proofs2 Spn_Model Spn_Spec Spn_Proofs1 Spn_Proofs2 Spn_Proofs3 Spn_Proofs4 Spn_Proofs5 Spn_Proofs6 Spn_Proofs7.
Import ListNotations.
Local Open Scope nat_scope.

Definition value_of {A B} (f : A -> option (list B)) (x : A) : list B := match f x with Some l => l | None => [] end.
Lemma concat_mapM_total {A B} (f : A -> option (list B)) l : (forall x, In x l -> exists y, f x = Some y) ->
  concat_mapM f l = Some (flat_map (value_of f) l) /\ forall x, In x l -> f x = Some (value_of f x).
Proof.
  intros H. assert (G : forall x, In x l -> f x = Some (value_of f x)) by (intros x Hx; destruct (H x Hx) as (y & E); unfold value_of; rewrite E; auto).
  split; auto. apply concat_mapM_some. auto.
Qed.

Lemma concat_mapM_app {X Y} (f : X -> option (list Y)) l1 l2 m1 m2 : concat_mapM f l1 = Some m1 -> concat_mapM f l2 = Some m2 -> concat_mapM f (l1 ++ l2) = Some (m1 ++ m2).
Proof.
  unfold concat_mapM. revert m1. induction l1 as [|x l1 IH]; intros m1 H1 H2; cbn in *; [injection H1 as <-; auto|].
  destruct (f x) as [y|]; [|discriminate]. destruct (mapM f l1) as [r|]; [|discriminate]. cbn in H1. injection H1 as <-. specialize (IH _ eq_refl H2).
  destruct (mapM f (l1 ++ l2)) as [r'|]; [|discriminate]. cbn in *. injection IH as ->. rewrite app_assoc. reflexivity.
Qed.
Lemma NoDup_map_In_inj {X Y} (f : X -> Y) m i j : NoDup (map f m) -> In i m -> In j m -> f i = f j -> i = j.
Proof.
  intros N Hi Hj E. induction m as [|x m IH]; [destruct Hi|]. cbn in N. inversion N as [|? ? H1 H2]; subst.
  destruct Hi as [->|Hi], Hj as [->|Hj]; auto.
  - destruct H1. rewrite E. apply in_map. auto.
  - destruct H1. rewrite <- E. apply in_map. auto.
Qed.
Lemma image_inj l l' : NoDup l -> Permutation l l' -> forall i j, image l l' i = image l l' j -> i = j.
Proof.
  intros N P i j E. pose proof (Permutation_length P) as L.
  assert (dec : forall x, In x l \/ ~ In x l) by (intros x; destruct (mem x l) eqn:Em; [left; apply mem_In; auto|right; apply mem_notIn; rewrite Em; auto]).
  assert (N' : NoDup (map (image l l') l)) by (rewrite (image_map l N l' L); eapply Permutation_NoDup; eauto).
  destruct (dec i) as [Hi|Hi], (dec j) as [Hj|Hj].
  - eapply NoDup_map_In_inj; eauto.
  - exfalso. apply Hj. rewrite <- (image_notin l l' j Hj), <- E. apply image_In; auto.
  - exfalso. apply Hi. rewrite <- (image_notin l l' i Hi), E. apply image_In; auto.
  - rewrite (image_notin _ _ i), (image_notin _ _ j) in E; auto.
Qed.
Lemma NoDup_map_inj {X Y} (f : X -> Y) l : (forall x y, f x = f y -> x = y) -> NoDup l -> NoDup (map f l).
Proof.
  intros H N. induction N as [|x l Hx N IH]; cbn; constructor; auto. intros H'. apply in_map_iff in H'. destruct H' as (y & E & Hy). apply H in E. subst. auto.
Qed.

(** A renaming of external indices does not change the internal ones. *)
Lemma summed_rename ext (f : index -> index) l : (forall i, In i l -> f i = i \/ (In (fst i) ext /\ In (fst (f i)) ext)) ->
  summed ext (map fst (map f l)) = summed ext (map fst l).
Proof.
  intros H. unfold summed. f_equal. induction l as [|i l IH]; auto. cbn [map filter]. rewrite IH by (intros; apply H; right; auto).
  destruct (H i (or_introl eq_refl)) as [->|(H1 & H2)]; auto. rewrite (proj2 (existsb_In _ _) H1), (proj2 (existsb_In _ _) H2). reflexivity.
Qed.

(** What is needed of a product without operators. *)
Definition plain0 (tm : term) : Prop :=
  filter is_operator (factors tm) = [] /\ (forall t, In (Ten t) (factors tm) -> good_tensor t).
Definition plain (tm : term) : Prop :=
  filter is_operator (factors tm) = [] /\ (forall t, In (Ten t) (factors tm) -> good_tensor t) /\ no_aux (factors tm).
Definition like (tm tm' : term) (ext : list nat) : Prop :=
  summed ext (all_indices (factors tm')) = summed ext (all_indices (factors tm)) /\
  summed ext (orbital_indices (factors tm')) = summed ext (orbital_indices (factors tm)) /\
  forall t', In (Ten t') (factors tm') -> exists t, In (Ten t) (factors tm) /\ is_operator (Ten t) = false /\ t_symm t' = t_symm t /\ length (t_bra t') = length (t_bra t).

Lemma flat_map_filter {X Y} (f : X -> list Y) p l : (forall x, In x l -> p x = false -> f x = []) -> flat_map f (filter p l) = flat_map f l.
Proof.
  induction l as [|x l IH]; intros H; cbn; auto. rewrite <- IH by (intros; apply H; auto; right; auto). destruct (p x) eqn:E; cbn; auto. rewrite (H x (or_introl eq_refl) E). auto.
Qed.

Lemma summed_all_rename ext f fs : (forall i, In i (used_indices fs) -> f i = i \/ (In (fst i) ext /\ In (fst (f i)) ext)) ->
  summed ext (all_indices (map (rename_factor f) fs)) = summed ext (all_indices fs).
Proof.
  intros H. rewrite <- !names_used. unfold names. rewrite <- (summed_rename ext f (used_indices fs) H). f_equal. f_equal. clear.
  unfold used_indices. induction fs as [|x fs IH]; cbn; auto. rewrite map_app, <- IH. f_equal. destruct x; cbn; auto. rewrite !map_app. reflexivity.
Qed.
Definition orbital_used (fs : list factor) : list index := flat_map (fun x => match x with Ten t => t_bra t ++ t_ket t | Var _ => [] end) fs.
Lemma summed_orb_rename ext f fs : (forall i, In i (used_indices fs) -> f i = i \/ (In (fst i) ext /\ In (fst (f i)) ext)) ->
  summed ext (orbital_indices (map (rename_factor f) fs)) = summed ext (orbital_indices fs).
Proof.
  intros H.
  assert (E : forall gs, orbital_indices gs = map fst (orbital_used gs)).
  { intros gs. unfold orbital_indices, orbital_used. induction gs as [|x gs IH]; cbn [flat_map map]; auto. rewrite map_app. f_equal; auto. destruct x; auto. }
  rewrite !E, <- (summed_rename ext f (orbital_used fs)).
  - f_equal. f_equal. clear. unfold orbital_used. induction fs as [|x fs IH]; cbn; auto. rewrite map_app, <- IH. f_equal. destruct x; cbn; auto. rewrite !map_app. reflexivity.
  - intros i Hi. apply H. unfold orbital_used in Hi. unfold used_indices. apply in_flat_map in Hi. apply in_flat_map. destruct Hi as ([t|v] & H1 & H2); [|destruct H2].
    exists (Ten t). split; auto. rewrite !in_app_iff. apply in_app_iff in H2. tauto.
Qed.

Lemma In_nonops fs x : In x (nonops fs) <-> In x fs /\ is_operator x = false.
Proof. unfold nonops. rewrite filter_In, negb_true_iff. tauto. Qed.
Lemma opfree_nonops fs : filter is_operator fs = [] -> nonops fs = fs.
Proof.
  unfold nonops. induction fs as [|x fs IH]; cbn; auto. destruct (is_operator x); [discriminate|]. intros H. cbn. f_equal. auto.
Qed.
Lemma summed_nil ext l : (forall x, In x l -> In x ext) -> filter (fun i => negb (existsb (Nat.eqb i) ext)) l = [].
Proof.
  induction l as [|x l IH]; intros H; auto. cbn. rewrite (proj2 (existsb_In x ext)) by (apply H; left; auto). cbn. apply IH. intros; apply H; right; auto.
Qed.

(** The indices of the operators are external. *)
Lemma summed_nonops ext fs A : filter is_operator fs = [Ten A] -> incl (map fst (t_bra A ++ t_ket A)) ext -> t_aux A = [] ->
  summed ext (all_indices (nonops fs)) = summed ext (all_indices fs) /\ summed ext (orbital_indices (nonops fs)) = summed ext (orbital_indices fs).
Proof.
  intros Ho Hi Hx. unfold summed.
  assert (G : forall h : factor -> list nat, (filter (fun i => negb (existsb (Nat.eqb i) ext)) (h (Ten A)) = []) ->
    filter (fun i => negb (existsb (Nat.eqb i) ext)) (flat_map h (nonops fs)) = filter (fun i => negb (existsb (Nat.eqb i) ext)) (flat_map h fs)).
  { intros h Hh. assert (Hall : forall x, In x (filter is_operator fs) -> x = Ten A) by (rewrite Ho; intros x [<-|[]]; auto).
    clear Ho. induction fs as [|x fs IH]; auto. unfold nonops in *. cbn [filter] in *. destruct (is_operator x) eqn:E; cbn [negb flat_map].
    - rewrite filter_app, IH by (intros; apply Hall; right; auto). rewrite (Hall x (or_introl eq_refl)), Hh. reflexivity.
    - rewrite !filter_app, IH by auto. reflexivity. }
  split; f_equal; apply G; apply summed_nil; auto. rewrite Hx, app_nil_r. auto.
Qed.

Lemma orbital_names fs : orbital_indices fs = map fst (orbital_used fs).
Proof. unfold orbital_indices, orbital_used. induction fs as [|x fs IH]; cbn [flat_map map]; auto. rewrite map_app. f_equal; auto. destruct x; auto. Qed.
Lemma orbital_used_rename f fs : orbital_used (map (rename_factor f) fs) = map f (orbital_used fs).
Proof. unfold orbital_used. induction fs as [|x fs IH]; cbn; auto. rewrite map_app, IH. f_equal. destruct x; cbn; auto. rewrite !map_app. reflexivity. Qed.
(** All external indices occur after a permutation of some of them. *)
Lemma orbital_image ext A q r fs fs' : NoDup (t_bra A ++ t_ket A) -> Permutation (t_bra A ++ t_ket A) (q ++ r) -> spin_any (t_bra A ++ t_ket A) ->
  incl (map fst (t_bra A ++ t_ket A)) ext -> spin_any (orbital_used fs) ->
  fs' = map (rename_factor (image (t_bra A ++ t_ket A) (q ++ r))) fs -> incl ext (orbital_indices fs) ->
  forall x, In x ext -> In x (orbital_indices fs').
Proof.
  intros N P As Hi Au -> Hinc x Hx. rewrite orbital_names, orbital_used_rename, map_map.
  set (l := t_bra A ++ t_ket A) in *. set (m := q ++ r) in *.
  destruct (in_dec Nat.eq_dec x (map fst l)) as [H|H].
  - (* the index is permuted *)
    assert (Hl : In (x, any) l) by (apply spin_any_names; auto).
    assert (Hm : In (x, any) (map (image l m) l)) by (rewrite (image_map l N m (Permutation_length P)); eapply Permutation_in; eauto).
    apply in_map_iff in Hm. destruct Hm as (y & Ey & Hy). apply in_map_iff. exists y. split; [rewrite Ey; auto|].
    apply spin_any_names; auto. unfold names. rewrite <- orbital_names. apply Hinc, Hi, in_map. auto.
  - apply in_map_iff. exists (x, any). split.
    + rewrite image_notin; auto. intros H'. apply H. apply in_map_iff. exists (x, any). auto.
    + apply spin_any_names; auto. unfold names. rewrite <- orbital_names. cbn. auto.
Qed.

Section TraceE.
  Context {K : qalg} {O : Type}.
  Local Open Scope q_scope.
  Add Ring Kring16 : (qring K).
  Variable range : nat -> list O.
  Variable vars : nat -> K.
  Variable T : nat -> list (O * bool) -> list (O * bool) -> list (O * bool) -> K.
  Variable lt : index -> index -> bool.
  Hypothesis TO : total_order lt.

  Lemma find_none L fs : filter is_operator fs = [] -> (forall n, L <> L_named n) -> find_tensor L fs = None.
  Proof.
    intros H HL. induction fs as [|x fs IH]; cbn; auto. cbn in H. destruct (is_operator x) eqn:E; [discriminate|]. destruct x as [t|v]; auto.
    cbn in E. destruct (t_label t) eqn:Et; try discriminate. destruct (label_eqb (L_named n) L) eqn:El; auto. apply label_eqb_eq in El. destruct (HL n). auto.
  Qed.

  Lemma renamed_good ext tm A q r tm' : (forall t, In (Ten t) (factors tm) -> forall n, t_label t = L_named n -> good_tensor t) ->
    filter is_operator (factors tm) = [Ten A] -> good_antisymmetrizer ext A -> Permutation (t_bra A) q -> Permutation (t_ket A) r -> factors tm' = renamed A q r (factors tm) ->
    plain0 tm' /\ (no_aux (factors tm) -> no_aux (factors tm')) /\ like tm tm' ext /\
      (forall x, In x ext -> incl ext (orbital_indices (nonops (factors tm))) -> In x (orbital_indices (factors tm'))).
  Proof.
      intros Hg Hop (N & As & Ax & Hi) P1 P2 E. unfold renamed in E.
      set (f := image (t_bra A ++ t_ket A) (q ++ r)) in *. assert (P : Permutation (t_bra A ++ t_ket A) (q ++ r)) by (apply Permutation_app; auto).
      assert (Hf : forall i, In (f i) (t_bra A ++ t_ket A) <-> In i (t_bra A ++ t_ket A)) by (intros i; apply image_In; auto).
      assert (Hfi : forall i j, f i = f j -> i = j) by (apply image_inj; auto).
      assert (Hid : forall i, ~ In i (t_bra A ++ t_ket A) -> f i = i) by (apply image_notin).
      assert (dec : forall i, In i (t_bra A ++ t_ket A) \/ ~ In i (t_bra A ++ t_ket A)) by (intros x; destruct (mem x (t_bra A ++ t_ket A)) eqn:Em; [left; apply mem_In; auto|right; apply mem_notIn; rewrite Em; auto]).
      assert (Hany : forall l, spin_any l -> spin_any (map f l)).
      { intros l H i Hi'. apply in_map_iff in Hi'. destruct Hi' as (j & <- & Hj). destruct (dec j) as [H1|H1]; [apply As; apply Hf; auto|rewrite Hid; auto]. }
      assert (Hten : forall t', In (Ten t') (factors tm') -> exists t, In (Ten t) (factors tm) /\ is_operator (Ten t) = false /\ t' = rename_tensor f t).
      { intros t' Ht'. rewrite E in Ht'. apply in_map_iff in Ht'. destruct Ht' as (x & E' & Hx'). apply In_nonops in Hx'. destruct Hx' as (H1 & H2).
        destruct x as [t|v]; [|discriminate]. cbn in E'. injection E' as <-. eauto. }
      assert (Hren : forall i, f i = i \/ (In (fst i) ext /\ In (fst (f i)) ext)).
      { intros i. destruct (dec i) as [H1|H1]; auto. right. split; apply Hi, in_map; auto. apply Hf. auto. }
      split.
      + split; [rewrite E; apply rename_nonops, nonops_nonops|].
        * intros t' Ht'. destruct (Hten t' Ht') as (t & H1 & H2 & ->). cbn in H2. destruct (t_label t) eqn:El; try discriminate.
          destruct (Hg t H1 n El) as (L & N1 & N2 & Asp). split; [cbn; rewrite !map_length; auto|]. cbn. split; [apply NoDup_map_inj; auto|]. split; [apply NoDup_map_inj; auto|].
          rewrite <- !map_app. apply Hany. auto.
      + split; [intros Hx t' Ht'; destruct (Hten t' Ht') as (t & H1 & H2 & ->); cbn; rewrite (Hx t H1); reflexivity|].
        split; [|intros x Hx Hinc; apply (orbital_image ext A q r (nonops (factors tm)) (factors tm')); auto].
        2:{ intros i Hi'. unfold orbital_used in Hi'. apply in_flat_map in Hi'. destruct Hi' as ([t|v] & H1 & H2); [|destruct H2]. apply In_nonops in H1. destruct H1 as (H1 & H3).
            cbn in H3. destruct (t_label t) eqn:El; try discriminate. destruct (Hg t H1 n El) as (_ & _ & _ & Asp). apply Asp. rewrite app_assoc. apply in_app_iff. auto. }
        destruct (summed_nonops ext (factors tm) A Hop Hi Ax) as (S1 & S2). split; [|split].
        * rewrite E, summed_all_rename by auto. exact S1.
        * rewrite E, summed_orb_rename by auto. exact S2.
        * intros t' Ht'. destruct (Hten t' Ht') as (t & H1 & H2 & ->). exists t. cbn. rewrite map_length. auto.
  Qed.

  Lemma expand_A_good0 ext tm : good_term ext tm ->
    exists e, expand_A_term lt tm = Some e /\ (forall tm', In tm' e -> plain0 tm' /\ (no_aux (factors tm) -> no_aux (factors tm')) /\ like tm tm' ext /\
      (forall x, In x ext -> incl ext (orbital_indices (nonops (factors tm))) -> In x (orbital_indices (factors tm')))) /\
      forall V (T : nat -> list V -> list V -> list V -> K) vars (a : index -> V), expr_value T vars e a = term_value T vars tm a.
  Proof.
    intros (Hg & Hop).
    destruct Hop as [Hop|(A & Hop & EA & N & As & Ax & Hi)].
    - unfold expand_A_term. rewrite (find_none L_A _ Hop) by discriminate. eexists. split; [reflexivity|]. split.
      + intros tm' [<-|[]]. split.
        * split; auto. intros t Ht. destruct (opfree_label _ _ Hop Ht) as (n & E). apply (Hg t Ht n E).
        * split; [auto|]. split.
          -- split; auto. split; auto. intros t Ht. exists t. split; auto. split; auto. destruct (opfree_label _ _ Hop Ht) as (n & E). cbn. rewrite E. auto.
          -- intros x Hx Hinc. rewrite (opfree_nonops _ Hop) in Hinc. auto.
      + intros. unfold expr_value, sum. cbn. ring.
    - destruct (expand_A_ok lt TO T vars tm A Hop EA N) as (e & Ee & Hs & _). exists e. split; auto. split.
      2:{ intros V T' vars' a. destruct (expand_A_ok lt TO T' vars' tm A Hop EA N) as (e' & Ee' & _ & Hv). rewrite Ee in Ee'. injection Ee' as <-. auto. }
      intros tm' Hin. destruct (Hs tm' Hin) as (q & r & P1 & P2 & E). apply (renamed_good ext tm A q r tm'); auto. split; auto.
  Qed.

  Lemma expand_A_good ext tm : good_term ext tm -> no_aux (factors tm) ->
    exists e, expand_A_term lt tm = Some e /\ (forall tm', In tm' e -> plain tm' /\ like tm tm' ext) /\
      forall V (T : nat -> list V -> list V -> list V -> K) vars (a : index -> V), expr_value T vars e a = term_value T vars tm a.
  Proof.
    intros Hg Hx. destruct (expand_A_good0 ext tm Hg) as (e & Ee & He & Hv). exists e. split; auto. split; auto.
    intros tm' Hin. destruct (He tm' Hin) as ((P1 & P2) & P3 & P4 & _). split; auto. split; auto.
  Qed.

  Lemma spin_sum_sum {X} gs (F : X -> (nat -> bool) -> K) l s : spin_sum gs (fun s => sum (fun x => F x s) l) s = sum (fun x => spin_sum gs (F x) s) l.
  Proof.
    revert s. induction gs as [|g gs IH]; intros s; cbn; auto. rewrite !IH, <- sum_add. reflexivity.
  Qed.

  Lemma term_trace_split gn tm e b : (forall tm', In tm' e -> like tm tm' (concat gn)) ->
    (forall a, expr_value T vars e a = term_value T vars tm a) ->
    sum (fun tm' => term_trace range vars T gn tm' b) e = term_trace range vars T gn tm b.
  Proof.
    intros Hl Hv. unfold term_trace.
    rewrite (sum_ext _ (fun tm' => index_sum range (summed (concat gn) (all_indices (factors tm)))
      (fun b' => spin_sum (map (fun i => [i]) (summed (concat gn) (orbital_indices (factors tm))) ++ gn)
                   (fun s => term_value T vars tm' (fun i => (b' (fst i), s (fst i)))) (fun _ => true)) b)).
    2:{ intros tm' Hin. destruct (Hl tm' Hin) as (-> & -> & _). reflexivity. }
    rewrite <- index_sum_sum. apply index_sum_ext. intros b'. rewrite <- spin_sum_sum. apply spin_sum_ext. intros s. apply Hv.
  Qed.

  Section Naive.
    Hypothesis CS : column_symmetric T.
    Hypothesis SC : spin_conserving T.

    Lemma spintrace_ok groups e : good_groups groups ->
      (forall tm, In tm e -> good_term (names (concat groups)) tm /\ no_aux (factors tm) /\
         (length (summed (names (concat groups)) (orbital_indices (factors tm))) + length groups <= 63)%nat) ->
      exists e', spintrace lt false groups e = Some e' /\
        (forall tm', In tm' e' -> filter is_operator (factors tm') = [] /\
           ((forall tm t, In tm e -> In (Ten t) (factors tm) -> is_operator (Ten t) = false -> t_symm t = Antisymm \/ (length (t_bra t) <= 1)%nat) ->
            forall t', In (Ten t') (factors tm') -> spin_pure t')) /\
        forall b, spin_labelled_value range vars T (names (concat groups)) e' b = spin_traced_value range vars T (map names groups) e b.
    Proof.
      intros Hgr He. unfold spintrace.
      destruct (concat_mapM_total (expand_A_term lt) e) as (E1 & H1).
      { intros tm Hin. destruct (He tm Hin) as (Hg & Hx & _). destruct (expand_A_good _ tm Hg Hx) as (y & Ey & _). eauto. }
      unfold expand_A_op. rewrite E1.
      assert (Hp : forall tm, In tm e -> (forall tm', In tm' (value_of (expand_A_term lt) tm) -> plain tm' /\ like tm tm' (names (concat groups))) /\
                 forall a, expr_value T vars (value_of (expand_A_term lt) tm) a = term_value T vars tm a).
      { intros tm Hin. destruct (He tm Hin) as (Hg & Hx & _). destruct (expand_A_good _ tm Hg Hx) as (y & Ey & Hy & Hv). rewrite (H1 tm Hin) in Ey. injection Ey as ->. split; auto. }
      assert (Hq : forall tm', In tm' (flat_map (value_of (expand_A_term lt)) e) -> exists tm, In tm e /\ plain tm' /\ like tm tm' (names (concat groups))).
      { intros tm' Hin. apply in_flat_map in Hin. destruct Hin as (tm & Ht & Hin). exists tm. split; auto. apply (Hp tm Ht); auto. }
      assert (Hk : forall tm', In tm' (flat_map (value_of (expand_A_term lt)) e) -> exists e', trace_product lt false groups tm' = Some e' /\
        (forall tm'', In tm'' e' -> filter is_operator (factors tm'') = [] /\
           ((forall t, In (Ten t) (factors tm') -> t_symm t = Antisymm \/ (length (t_bra t) <= 1)%nat) -> forall t', In (Ten t') (factors tm'') -> spin_pure t')) /\
        forall b, spin_labelled_value range vars T (names (concat groups)) e' b = term_trace range vars T (map names groups) tm' b).
      { intros tm' Hin. destruct (Hq tm' Hin) as (tm & Ht & (Po & Pg & Px) & (L1 & L2 & _)). apply trace_product_ok; auto. rewrite L2. apply (He tm Ht). }
      destruct (concat_mapM_total (trace_product lt false groups) (flat_map (value_of (expand_A_term lt)) e)) as (E2 & H2).
      { intros tm' Hin. destruct (Hk tm' Hin) as (y & Ey & _). eauto. }
      eexists. split; [exact E2|]. split.
      - intros tm'' Hin. apply in_flat_map in Hin. destruct Hin as (tm' & Ht' & Hin). destruct (Hk tm' Ht') as (y & Ey & Hy & _). rewrite (H2 tm' Ht') in Ey. injection Ey as Ey. rewrite Ey in Hin.
        destruct (Hy tm'' Hin) as (Y1 & Y2). split; auto. intros Hs. apply Y2. intros t Ht. destruct (Hq tm' Ht') as (tm & Htm & _ & (_ & _ & L3)).
        destruct (L3 t Ht) as (t0 & G1 & G2 & G3 & G4). rewrite G3, G4. eapply Hs; eauto.
      - intros b. unfold spin_labelled_value. rewrite sum_flat_map.
        rewrite (sum_ext _ (fun tm' => term_trace range vars T (map names groups) tm' b)).
        2:{ intros tm' Ht'. destruct (Hk tm' Ht') as (y & Ey & _ & Hy). rewrite (H2 tm' Ht') in Ey. injection Ey as <-. exact (Hy b). }
        rewrite sum_flat_map. unfold spin_traced_value. apply sum_ext. intros tm Ht. destruct (Hp tm Ht) as (P1 & P2).
        apply term_trace_split; auto. intros tm' Hin. rewrite concat_names. apply P1. auto.
    Qed.

    (** *** Open shells *)
    Lemma ext_keys (groups : list (list index)) (g : nat -> index -> index) k :
      map fst (flat_map (fun jg : nat * list index => map (fun x => (x, g (fst jg) x)) (snd jg)) (combine (seq k (length groups)) groups)) = concat groups.
    Proof.
      revert k. induction groups as [|h groups IH]; intros k; cbn; auto. rewrite map_app, map_map, IH. cbn. rewrite map_id. reflexivity.
    Qed.
    Lemma ext_entry (groups : list (list index)) (g : nat -> index -> index) j h i : forall k, nth_error groups j = Some h -> In i h ->
      In (i, g (k + j)%nat i) (flat_map (fun jg : nat * list index => map (fun x => (x, g (fst jg) x)) (snd jg)) (combine (seq k (length groups)) groups)).
    Proof.
      revert j. induction groups as [|h' groups IH]; intros [|j] k H Hi; cbn in H; try discriminate.
      - injection H as ->. cbn. apply in_app_iff. left. apply in_map_iff. exists i. rewrite Nat.add_0_r. auto.
      - cbn. apply in_app_iff. right. replace (k + S j)%nat with (S k + j)%nat by lia. apply IH; auto.
    Qed.
    Lemma ext_lookup groups c i : NoDup (concat groups) ->
      (forall j h, nth_error groups j = Some h -> In i h -> lookup (ext_spincase lt groups c) i = with_spin (if Nat.leb (length groups - c) j then beta else alpha) i) /\
      (~ In i (concat groups) -> lookup (ext_spincase lt groups c) i = i).
    Proof.
      intros N. unfold ext_spincase.
      set (g := fun j x => with_spin (if Nat.leb (length groups - c) j then beta else alpha) x).
      change (fun jg : nat * list index => map (fun x => (x, with_spin (if Nat.leb (length groups - c) (fst jg) then beta else alpha) x)) (snd jg))
        with (fun jg : nat * list index => map (fun x => (x, g (fst jg) x)) (snd jg)).
      pose proof (ext_keys groups g 0) as Kk. rewrite lookup_map_of by (auto; rewrite Kk; auto). split.
      - intros j h H Hi. apply lookup_In; [rewrite Kk; auto|]. apply (ext_entry groups g j h i 0); auto.
      - intros H. apply lookup_notin. rewrite Kk. auto.
    Qed.
    Lemma ext_fst groups c i : NoDup (concat groups) -> fst (lookup (ext_spincase lt groups c) i) = fst i.
    Proof.
      intros N. destruct (ext_lookup groups c i N) as (H1 & H2). destruct (mem i (concat groups)) eqn:E.
      - apply mem_In in E. apply in_concat in E. destruct E as (h & Hh & Hi). apply In_nth_error in Hh. destruct Hh as (j & Hj). rewrite (H1 j h Hj Hi). reflexivity.
      - rewrite H2; auto. apply mem_notIn. rewrite E. auto.
    Qed.

    Lemma columns_product fs : (forall t, In (Ten t) fs -> length (t_bra t) = length (t_ket t)) ->
      length (bra_indices fs) = length (ket_indices fs) /\
      ms_conserving_columns (bra_indices fs) (ket_indices fs) = forallb (fun x => match x with Ten t => ms_conserving_columns (t_bra t) (t_ket t) | Var _ => true end) fs.
    Proof.
      intros H. induction fs as [|x fs IH]; auto. destruct IH as (I1 & I2); [intros; apply H; right; auto|]. unfold bra_indices, ket_indices in *. cbn [flat_map forallb].
      destruct x as [t|v]; [|cbn; auto]. assert (L : length (t_bra t) = length (t_ket t)) by (apply H; left; auto). rewrite !app_length, I1, L. split; auto.
      unfold ms_conserving_columns in *. rewrite combine_app, forallb_app, I2 by auto. reflexivity.
    Qed.

    Definition term_orb (ext : list nat) (s0 : nat -> bool) (tm : term) (b : nat -> O) : K :=
      index_sum range (summed ext (all_indices (factors tm)))
        (fun b' => spin_sum (map (fun i => [i]) (summed ext (orbital_indices (factors tm))))
             (fun s => term_value T vars tm (fun i => (b' (fst i), s (fst i)))) s0) b.

    (** Dropping the products that do not conserve the spin. *)
    Lemma dropped_zero t t' n b : labelled t -> expands_to true t t' -> ms_conserving_columns (t_bra t') (t_ket t') = false -> tensor_value T n t' (lab b) = 0.
    Proof.
      intros (L & N1 & N2 & A) (E1 & E2 & P1 & P2 & S1 & S2 & S3) Hc.
      assert (A' : all_spin (t_bra t' ++ t_ket t')).
      { intros i Hi. apply A. apply in_app_iff in Hi. apply in_app_iff. destruct Hi as [Hi|Hi]; [left; eapply Permutation_in; [apply Permutation_sym, P1|auto]|right; eapply Permutation_in; [apply Permutation_sym, P2|auto]]. }
      assert (Z : T n (map (lab b) (t_bra t')) (map (lab b) (t_ket t')) (map (lab b) (t_aux t')) = 0) by (apply SC; rewrite conserving_lab; auto).
      destruct (le_lt_dec (length (t_bra t)) 1) as [Hl|Hl].
      - destruct (S1 Hl) as (_ & _ & Es). unfold tensor_value. rewrite Es. exact Z.
      - destruct (t_symm t) eqn:Es.
        1,2: (assert (Et : t' = t) by (apply S2; auto; discriminate); subst t'; unfold tensor_value; rewrite Es; exact Z).
        destruct (S3 Hl eq_refl) as [(B1 & B2)|(_ & -> & B2)]; [congruence|]. exfalso. unfold ms_uniform in B2.
        destruct (t_bra t ++ t_ket t) as [|x l] eqn:El; [discriminate|]. injection B2 as B2.
        assert (Hall : forall i, In i (t_bra t ++ t_ket t) -> spin_eqb (snd i) (snd x) = true).
        { rewrite El. intros i [<-|Hi]; [destruct (snd x); auto|]. eapply forallb_forall in B2; eauto. }
        assert (Hc' : ms_conserving_columns (t_bra t) (t_ket t) = true).
        { unfold ms_conserving_columns. apply forallb_forall. intros (i & j) Hij. cbn [fst snd]. pose proof (in_combine_l _ _ _ _ Hij) as H1. pose proof (in_combine_r _ _ _ _ Hij) as H2.
          pose proof (Hall i (proj2 (in_app_iff _ _ _) (or_introl H1))) as G1. pose proof (Hall j (proj2 (in_app_iff _ _ _) (or_intror H2))) as G2.
          apply spin_eqb_eq in G1, G2. apply spin_eqb_eq. congruence. }
        congruence.
    Qed.

    (** One product in one spin case. *)
    Lemma open_product_ok tm : filter is_operator (factors tm) = [] -> (forall t, In (Ten t) (factors tm) -> labelled t) ->
      exists e, expand_antisymm_term lt true tm = Some e /\
        (forall tm', In tm' e -> Forall2 (factor_rel (expands_to true)) (factors tm) (factors tm')) /\
        (forall tm', In tm' e -> exists f, spin_symm_product tm' = Some f) /\
        forall b, sum (fun tm' => match spin_symm_product tm' with Some true => term_value T vars tm' (lab b) | _ => 0 end) e = term_value T vars tm (lab b).
    Proof.
      intros Ho Hl.
      destruct (expand_antisymm_term_ok T vars CS lt TO true tm) as (e & Ee & He & Hv & _).
      { intros t Ht. destruct (Hl t Ht) as (L & N1 & N2 & _). repeat split; auto. intros Hop. destruct (opfree_label _ _ Ho Ht) as (n & En). cbn in Hop. rewrite En in Hop. discriminate. }
      assert (Hrel : forall fs fs', Forall2 (factor_rel (expands_to true)) fs fs' -> forall t', In (Ten t') fs' -> exists t, In (Ten t) fs /\ expands_to true t t').
      { clear. intros fs fs' H. induction H as [|x y fs fs' Hx H IH]; intros t' Hin; [destruct Hin|]. destruct Hin as [->|Hin].
        - destruct x as [t|v]; cbn in Hx; [|contradiction]. exists t. split; auto. left. auto.
        - destruct (IH _ Hin) as (t & H1 & H2). exists t. split; auto. right. auto. }
      assert (Hlen : forall tm', In tm' e -> forall t, In (Ten t) (factors tm') -> length (t_bra t) = length (t_ket t)).
      { intros tm' Hin t Ht. destruct (Hrel _ _ (He tm' Hin) t Ht) as (t0 & Ht0 & (_ & _ & P1 & P2 & _)). destruct (Hl t0 Ht0) as (L & _).
        rewrite <- (Permutation_length P1), <- (Permutation_length P2). auto. }
      exists e. split; auto. split; auto. split.
      { intros tm' Hin. unfold spin_symm_product. destruct (columns_product _ (Hlen tm' Hin)) as (El & _). rewrite El, Nat.eqb_refl. eauto. }
      intros b. rewrite <- (Hv (lab b)); auto.
      - unfold expr_value. apply sum_ext. intros tm' Hin. unfold spin_symm_product. destruct (columns_product _ (Hlen tm' Hin)) as (El & Ec). rewrite El, Nat.eqb_refl, Ec.
        destruct (forallb _ (factors tm')) eqn:Ef; auto.
        assert (Hex : exists t', In (Ten t') (factors tm') /\ ms_conserving_columns (t_bra t') (t_ket t') = false).
        { clear - Ef. induction (factors tm') as [|x fs IH]; [discriminate|]. cbn in Ef. apply andb_false_iff in Ef. destruct Ef as [Ef|Ef].
          - destruct x as [t|v]; [|discriminate]. exists t. split; auto. left. auto.
          - destruct (IH Ef) as (t & H1 & H2). exists t. split; auto. right. auto. }
        destruct Hex as (t' & Ht' & Hc). destruct (Hrel _ _ (He tm' Hin) t' Ht') as (t & Ht & Hx).
        assert (Ho' : filter is_operator (factors tm') = []).
        { revert Ho. pose proof (He tm' Hin) as Hf. clear - Hf. induction Hf as [|x y fs fs' Hx Hf IH]; cbn [filter]; auto. destruct (is_operator x) eqn:Ex; [discriminate|]. intros Ho.
          assert (Ey : is_operator y = false) by (destruct x as [u|v], y as [u'|v']; cbn in Hx; try contradiction; auto; destruct Hx as (E1 & _); cbn in *; rewrite E1; auto).
          rewrite Ey. auto. }
        unfold term_value. rewrite (ops_none _ _ Ho'). unfold product_value. rewrite (prod_zero _ _ (Ten t') Ht'); [ring|].
        destruct (opfree_label _ _ Ho' Ht') as (n & En). cbn [factor_value]. rewrite En. apply (dropped_zero t); auto.
      - intros t Ht. apply labelled_vanishing; auto. apply Hl; auto.
    Qed.

    (** A product in all spin cases of the internal indices. *)
    Definition open_term (m : list (index * index)) (ex : list (index * index)) (tm : term) : option expr :=
      match expand_antisymm_term lt true (rename_term (lookup m) (rename_term (lookup ex) tm)) with
      | None => None
      | Some e => concat_mapM (fun tm' => option_map (fun b : bool => if b then [tm'] else []) (spin_symm_product tm')) e
      end.

    Lemma open_term_ok groups c s0 gs tm k : plain tm -> good_groups groups ->
      (length gs <= 63)%nat -> NoDup (concat gs) -> spin_any (concat gs) ->
      (forall i, In i (used_indices (factors tm)) -> In i (concat gs) \/ In i (concat groups)) ->
      (forall i, In i (concat gs) -> ~ In i (concat groups)) ->
      (forall j h i, nth_error groups j = Some h -> In i h -> s0 (fst i) = negb (Nat.leb (length groups - c) j)) ->
      exists e, open_term (case_map lt gs k) (ext_spincase lt groups c) tm = Some e /\
        (forall tm', In tm' e -> Permutation (summed (names (concat groups)) (all_indices (factors tm'))) (summed (names (concat groups)) (all_indices (factors tm)))) /\
        forall b, expr_value T vars e (lab b) = term_value T vars tm (fun i => (b (fst i), assign (bits k) (map names gs) s0 (fst i))).
    Proof.
      intros (Ho & Hg & Hx) (Ng & Ag) L N A Hu Hd Hs. unfold open_term.
      set (ex := ext_spincase lt groups c). set (m := case_map lt gs k).
      assert (Hfst : forall i, fst (lookup m (lookup ex i)) = fst i) by (intros i; unfold m; rewrite (case_fst lt TO) by auto; apply ext_fst; auto).
      assert (Hex : forall i, In i (used_indices (factors tm)) -> In (lookup ex i) (concat gs) \/
                     (~ In (fst (lookup ex i)) (names (concat gs)) /\ snd (lookup ex i) <> any /\ spin_value (snd (lookup ex i)) = s0 (fst (lookup ex i)))).
      { intros i Hi. destruct (ext_lookup groups c i Ng) as (E1 & E2). destruct (Hu i Hi) as [H|H].
        - left. fold ex in E2. rewrite E2; auto.
        - right. pose proof H as H'. apply in_concat in H. destruct H as (h & Hh & Hih). apply In_nth_error in Hh. destruct Hh as (j & Hj). specialize (E1 j h Hj Hih). fold ex in E1. rewrite E1. cbn [with_spin fst snd].
          split; [|split].
          + intros Hn. apply (Hd i); auto. apply spin_any_names; auto.
          + destruct (Nat.leb _ _); discriminate.
          + rewrite (Hs j h i Hj Hih). destruct (Nat.leb _ _); reflexivity. }
      assert (Hcomp : rename_term (lookup m) (rename_term (lookup ex) tm) = rename_term (fun i => lookup m (lookup ex i)) tm).
      { unfold rename_term. cbn [scalar factors]. f_equal. rewrite map_map. apply map_ext. intros [t|v]; cbn; auto. unfold rename_tensor. cbn. rewrite !map_map. reflexivity. }
      destruct (open_product_ok (rename_term (lookup m) (rename_term (lookup ex) tm))) as (e & Ee & He & Hsp & Hv).
      { rewrite Hcomp. apply rename_nonops. auto. }
      { intros t Ht. rewrite Hcomp in Ht. cbn in Ht. apply in_map_iff in Ht. destruct Ht as (x & E & Hx'). destruct x as [t0|v]; [|discriminate]. cbn in E. injection E as <-.
        apply rename_labelled; auto. intros i Hi.
        assert (Hi' : In i (used_indices (factors tm))).
        { unfold used_indices. apply in_flat_map. exists (Ten t0). split; auto. rewrite !in_app_iff. apply in_app_iff in Hi. tauto. }
        unfold m. rewrite (case_lookup lt TO gs k (lookup ex i) s0) by auto. destruct (Hex i Hi') as [H|(H1 & H2 & _)].
        - rewrite (proj2 (mem_In _ _) H). cbn. destruct (assign _ _ _ _); discriminate.
        - destruct (mem _ _); auto. cbn. destruct (assign _ _ _ _); discriminate. }
      rewrite Ee.
      destruct (concat_mapM_total (fun tm' => option_map (fun b : bool => if b then [tm'] else []) (spin_symm_product tm')) e) as (E2 & H2).
      { intros tm' Hin. destruct (Hsp tm' Hin) as (f & ->). cbn. eauto. }
      eexists. split; [exact E2|]. split.
      - intros tm' Hin. apply in_flat_map in Hin. destruct Hin as (tm1 & Hin & H). unfold value_of in H. destruct (spin_symm_product tm1) as [[|]|]; cbn in H; [destruct H as [<-|[]]|destruct H|destruct H].
        apply summed_perm. apply Permutation_sym. rewrite <- (all_indices_rename (fun i => lookup m (lookup ex i)) (factors tm)) by auto.
        apply (all_indices_rel (expands_to true)); [intros t t' (_ & E & P1 & P2 & _); split; auto|]. specialize (He tm1 Hin). rewrite Hcomp in He. exact He.
      - intros b. unfold expr_value. rewrite sum_flat_map.
        rewrite (sum_ext _ (fun tm' => match spin_symm_product tm' with Some true => term_value T vars tm' (lab b) | _ => 0 end)).
        2:{ intros tm' Hin. unfold value_of. destruct (spin_symm_product tm') as [[|]|]; unfold sum; cbn; try reflexivity. ring. }
        rewrite Hv. unfold m. rewrite (case_term_value vars T lt TO gs k (rename_term (lookup ex) tm) s0 b); auto.
        + unfold rename_term. rewrite term_value_plain by (apply rename_nonops; auto). unfold term_value. rewrite (ops_none _ _ Ho). f_equal. rewrite PV_rename. apply PV_ext.
          intros i. unfold ex. rewrite ext_fst by auto. reflexivity.
        + apply rename_nonops. auto.
        + intros i Hi. cbn in Hi. unfold used_indices in Hi. apply in_flat_map in Hi. destruct Hi as (x & Hx' & Hi). apply in_map_iff in Hx'. destruct Hx' as (y & <- & Hy).
          destruct y as [t0|v]; cbn in Hi; [|destruct Hi]. rewrite <- !map_app in Hi. apply in_map_iff in Hi. destruct Hi as (i0 & <- & Hi0).
          destruct (Hex i0) as [H|(H1 & _ & H3)]; auto. unfold used_indices. apply in_flat_map. exists (Ten t0). auto.
    Qed.

    Lemma term_any ext tm : good_term ext tm -> spin_any (used_indices (factors tm)).
    Proof.
      intros Hgt i Hi. unfold used_indices in Hi. apply in_flat_map in Hi. destruct Hi as ([t|v] & H1 & H2); [|destruct H2].
      destruct (t_label t) eqn:El.
      4:{ destruct (proj1 Hgt t H1 n El) as (_ & _ & _ & A). apply A. auto. }
      all: (assert (Hin : In (Ten t) (filter is_operator (factors tm))) by (apply filter_In; split; auto; cbn; rewrite El; auto);
            destruct (proj2 Hgt) as [E|(A & E & _ & (_ & As & Ax & _))]; rewrite E in Hin; [destruct Hin|];
            destruct Hin as [Hin|[]]; injection Hin as <-; rewrite Ax, app_nil_r in H2; apply As; auto).
    Qed.

    Lemma open_shell_ok groups c s0 e : good_groups groups ->
      (forall tm, In tm e -> good_term (names (concat groups)) tm /\ no_aux (factors tm) /\
         (length (summed (names (concat groups)) (orbital_indices (factors tm))) <= 63)%nat) ->
      (forall tm tm' x, In tm e -> In tm' e -> In x (summed (names (concat groups)) (orbital_indices (factors tm))) -> In x (orbital_indices (factors tm'))) ->
      (forall j h i, nth_error groups j = Some h -> In i h -> s0 (fst i) = negb (Nat.leb (length groups - c) j)) ->
      exists e', open_shell_spintrace lt groups c e = Some e' /\
        forall b, spin_labelled_value range vars T (names (concat groups)) e' b = spin_orbital_value range vars T (names (concat groups)) e b s0.
    Proof.
      intros Hgr He Hsame Hs. pose proof Hgr as (Ng & Ag). unfold open_shell_spintrace.
      set (used := flat_map (fun tm => used_indices (factors tm)) e).
      assert (Hall : spin_any used).
      { intros i Hi. unfold used in Hi. apply in_flat_map in Hi. destruct Hi as (tm & Ht & Hi). apply (term_any _ tm (proj1 (He tm Ht)) i Hi). }
      destruct (internal_ok lt TO groups used) as (_ & Ni & Hi).
      pose proof (internal_names lt TO groups used Hall Ag) as Pi0.
      set (ints := internal_indices lt groups used) in *.
      assert (Nn : NoDup (names ints)) by (apply names_NoDup; auto; intros i H; apply Hi in H; apply Hall; tauto).
      assert (Pi : forall tm, In tm e -> Permutation (names ints) (summed (names (concat groups)) (orbital_indices (factors tm)))).
      { intros tm Ht. apply NoDup_Permutation; [auto|apply NoDup_nodup|]. intros x. assert (Em : In x (names ints) <-> In x (summed (names (concat groups)) (names used))) by (split; apply Permutation_in; auto; apply Permutation_sym; auto). rewrite Em. unfold summed. rewrite !nodup_In, !filter_In. split.
        - intros (H1 & H2). split; auto. unfold used, names in H1. apply in_map_iff in H1. destruct H1 as (i & <- & H1). apply in_flat_map in H1. destruct H1 as (tm' & Ht' & H1).
          apply (Hsame tm' tm); auto. unfold summed. apply nodup_In, filter_In. split; auto. rewrite <- (no_aux_indices _ (proj1 (proj2 (He tm' Ht')))), <- names_used. apply in_map. auto.
        - intros (H1 & H2). split; auto. rewrite <- (no_aux_indices _ (proj1 (proj2 (He tm Ht)))), <- names_used in H1. unfold names in *. apply in_map_iff in H1. destruct H1 as (i & <- & H1).
          apply in_map. unfold used. apply in_flat_map. exists tm. auto. }
      set (gs := map (fun i => [i]) ints).
      assert (Lg : (length gs <= 63)%nat).
      { unfold gs. rewrite map_length. destruct e as [|tm e']; [cbn in used; unfold ints, internal_indices, used; cbn; lia|].
        pose proof (Permutation_length (Pi tm (or_introl eq_refl))) as P. assert (E : length (names ints) = length ints) by apply map_length. pose proof (proj2 (proj2 (He tm (or_introl eq_refl)))). lia. }
      assert (Cg : concat gs = ints) by apply singles_concat.
      rewrite (spincases_ok lt gs Lg).
      assert (Hex1 : forall tm, In tm e -> exists e1, expand_A_term lt tm = Some e1 /\ (forall tm', In tm' e1 -> plain tm' /\ like tm tm' (names (concat groups))) /\
        forall V (T : nat -> list V -> list V -> list V -> K) vars (a : index -> V), expr_value T vars e1 a = term_value T vars tm a).
      { intros tm Ht. destruct (He tm Ht) as (H1 & H2 & _). apply expand_A_good; auto. }
      destruct (concat_mapM_total (expand_A_term lt) e) as (E1 & V1); [intros tm Ht; destruct (Hex1 tm Ht) as (y & Ey & _); eauto|].
      unfold expand_A_op. rewrite E1. set (e1 := flat_map (value_of (expand_A_term lt)) e).
      assert (He1 : forall tm1, In tm1 e1 -> exists tm, In tm e /\ plain tm1 /\ like tm tm1 (names (concat groups))).
      { intros tm1 Hin. unfold e1 in Hin. apply in_flat_map in Hin. destruct Hin as (tm & Ht & Hin). destruct (Hex1 tm Ht) as (y & Ey & Hy & _). rewrite (V1 tm Ht) in Ey. injection Ey as Ey. rewrite Ey in Hin. exists tm. auto. }
      set (ex := ext_spincase lt groups c).
      assert (Hot : forall k tm1, In tm1 e1 -> exists e, open_term (case_map lt gs k) ex tm1 = Some e /\
        (forall tm', In tm' e -> Permutation (summed (names (concat groups)) (all_indices (factors tm'))) (summed (names (concat groups)) (all_indices (factors tm1)))) /\
        forall b, expr_value T vars e (lab b) = term_value T vars tm1 (fun i => (b (fst i), assign (bits k) (map names gs) s0 (fst i)))).
      { intros k tm1 Hin. destruct (He1 tm1 Hin) as (tm & Ht & Hp & (L1 & _)). apply (open_term_ok groups c s0 gs tm1 k Hp Hgr Lg); rewrite ?Cg; auto.
        - intros i H. apply Hi in H. apply Hall. tauto.
        - intros i H. assert (Asp : snd i = any) by (destruct Hp as (_ & Hg1 & _); apply (used_any _ Hg1); auto).
          destruct (mem i (concat groups)) eqn:Em; [right; apply mem_In; auto|left].
          assert (Hn : In (fst i) (summed (names (concat groups)) (all_indices (factors tm1)))).
          { unfold summed. apply nodup_In, filter_In. split; [rewrite <- names_used; apply in_map; auto|]. apply negb_true_iff, existsb_notIn. intros H'.
            assert (H'' : In i (concat groups)) by (apply spin_any_names; auto). apply mem_In in H''. congruence. }
          rewrite L1, (no_aux_indices _ (proj1 (proj2 (He tm Ht)))) in Hn. eapply Permutation_in in Hn; [|apply Permutation_sym, (Pi tm Ht)].
          apply spin_any_names; auto. intros x H'. apply Hi in H'. apply Hall. tauto.
        - intros i H. apply Hi in H. tauto. }
      (* one case of the whole expression *)
      assert (Hcase : forall k, open_shell_case lt (map (rename_term (lookup ex)) e1) (case_map lt gs k) = Some (flat_map (value_of (open_term (case_map lt gs k) ex)) e1)).
      { intros k. assert (G : forall l, incl l e1 -> exists e', expand_antisymm lt true (map (rename_term (lookup (case_map lt gs k))) (map (rename_term (lookup ex)) l)) = Some e' /\
            concat_mapM (fun tm' => option_map (fun b : bool => if b then [tm'] else []) (spin_symm_product tm')) e' = Some (flat_map (value_of (open_term (case_map lt gs k) ex)) l)).
        { induction l as [|tm1 l IH]; intros Hin; [exists []; split; auto|]. destruct IH as (e' & Ea & Eb); [intros z Hz; apply Hin; right; auto|].
          destruct (Hot k tm1 (Hin _ (or_introl eq_refl))) as (e2 & Eo & _). cbn [flat_map]. unfold value_of at 1. rewrite Eo. unfold open_term in Eo.
          destruct (expand_antisymm_term lt true (rename_term (lookup (case_map lt gs k)) (rename_term (lookup ex) tm1))) as [e3|] eqn:E3; [|discriminate].
          exists (e3 ++ e'). split.
          - assert (E4 : concat_mapM (expand_antisymm_term lt true) [rename_term (lookup (case_map lt gs k)) (rename_term (lookup ex) tm1)] = Some e3).
            { unfold concat_mapM. cbn [mapM]. rewrite E3. cbn. rewrite app_nil_r. reflexivity. }
            exact (concat_mapM_app _ _ _ _ _ E4 Ea).
          - exact (concat_mapM_app _ _ _ _ _ Eo Eb). }
        destruct (G e1 (incl_refl e1)) as (e' & Ea & Eb). unfold open_shell_case. rewrite Ea. exact Eb. }
      rewrite (concat_mapM_some _ (value_of (open_shell_case lt (map (rename_term (lookup ex)) e1)))).
      2:{ intros m Hm. apply in_map_iff in Hm. destruct Hm as (k & <- & _). unfold value_of at 1. rewrite Hcase. reflexivity. }
      eexists. split; [reflexivity|]. intros b.
      unfold spin_labelled_value. rewrite sum_flat_map, sum_map.
      assert (Hterm : forall tm, In tm e -> index_sum range (summed (names (concat groups)) (all_indices (factors tm)))
           (fun b' => spin_sum (map (fun i => [i]) (summed (names (concat groups)) (orbital_indices (factors tm)))) (fun s => term_value T vars tm (fun i => (b' (fst i), s (fst i)))) s0) b
         = sum (fun k => sum (fun tm1 => index_sum range (summed (names (concat groups)) (all_indices (factors tm1)))
             (fun b' => term_value T vars tm1 (fun i => (b' (fst i), assign (bits k) (map names gs) s0 (fst i)))) b) (value_of (expand_A_term lt) tm)) (seq 0 (2 ^ length gs))).
      { intros tm Ht. destruct (Hex1 tm Ht) as (y & Ey & Hy & Hv). rewrite (V1 tm Ht) in Ey. injection Ey as ->.
        rewrite (index_sum_ext _ _ _ (fun b' => spin_sum (map names gs) (fun s => term_value T vars tm (fun i => (b' (fst i), s (fst i)))) s0)).
        2:{ intros b'. symmetry. apply spin_sum_perm; [unfold gs; rewrite singles_names; apply Permutation_map; exact (Pi tm Ht)| |apply resp_value].
            rewrite concat_names, Cg. auto. }
        rewrite index_spin_sum by (intros; apply resp_value). rewrite map_length. apply sum_ext. intros k _.
        rewrite (index_sum_ext _ _ _ (fun b' => sum (fun tm1 => term_value T vars tm1 (fun i => (b' (fst i), assign (bits k) (map names gs) s0 (fst i)))) y)).
        2:{ intros b'. symmetry. apply (Hv _ T vars). }
        rewrite index_sum_sum. apply sum_ext. intros tm1 Hin. destruct (Hy tm1 Hin) as (_ & (-> & _)). reflexivity. }
      unfold spin_orbital_value.
      rewrite (sum_ext (fun tm => index_sum range (summed (names (concat groups)) (all_indices (factors tm))) _ b) _ _ Hterm).
      rewrite (sum_swap _ e). apply sum_ext. intros k _.
      unfold value_of at 1. rewrite Hcase, sum_flat_map. unfold e1. rewrite sum_flat_map. apply sum_ext. intros tm Ht. apply sum_ext. intros tm1 Hin.
      assert (Hin1 : In tm1 e1) by (unfold e1; apply in_flat_map; exists tm; auto).
      destruct (Hot k tm1 Hin1) as (e2 & Eo & H1 & H2). unfold value_of. rewrite Eo.
      rewrite (index_sum_ext range (summed (names (concat groups)) (all_indices (factors tm1))) _ (fun b' => sum (fun tm' => term_value T vars tm' (lab b')) e2)) by (intros b'; symmetry; apply H2).
      rewrite index_sum_sum. apply sum_ext. intros tm' Hin'. apply index_sum_perm; [apply H1; auto|apply resp_lab].
    Qed.
  End Naive.
End TraceE.
