(** Closed-shell spin tracing of whole expressions. *)
From Coq Require Import ZArith NArith QArith Qcanon List Arith Bool Permutation Sorted Relations Lia Ring.
From Verif Require Import Alg_Model Alg_Spec Alg_Proofs1 Alg_Proofs2 Alg_Proofs3 Spn_Model Spn_Spec Spn_Proofs1 Spn_Proofs2 Spn_Proofs3 Spn_Proofs4 Spn_Proofs5 Spn_Proofs6 Spn_Proofs7 Spn_Proofs8 Spn_Proofs9 Spn_Proofs10.
Import ListNotations.
Local Open Scope nat_scope.

(** *** Spin sums are invariant under permutations of the groups *)
Lemma incl_perm {X} (l' : list X) : forall l, NoDup l' -> incl l' l -> exists rest, Permutation l (l' ++ rest).
Proof.
  induction l' as [|x l' IH]; intros l N I; [exists l; auto|]. inversion N as [|? ? N1 N2]; subst.
  destruct (in_split x l (I x (or_introl eq_refl))) as (a & b & ->).
  destruct (IH (a ++ b) N2) as (rest & P).
  { intros y Hy. pose proof (I y (or_intror Hy)) as H. rewrite in_app_iff in *. destruct H as [H|[->|H]]; auto. contradiction. }
  exists rest. cbn. apply Permutation_trans with (x :: a ++ b); [symmetry; apply Permutation_middle|]. constructor. auto.
Qed.

Lemma combine_nth_error' {X Y} (l : list X) : forall (m : list Y) n x y, nth_error l n = Some x -> nth_error m n = Some y -> nth_error (combine l m) n = Some (x, y).
Proof. induction l as [|a l IH]; intros [|b m] [|n] x y H1 H2; cbn in *; try discriminate; [congruence|auto]. Qed.
Lemma app_inj_length {X} (a b c d : list X) : length a = length c -> a ++ b = c ++ d -> a = c /\ b = d.
Proof. revert c. induction a as [|x a IH]; intros [|y c] L E; cbn in *; try discriminate; auto. injection E as -> E. destruct (IH c ltac:(lia) E) as (-> & ->). auto. Qed.

Section Rename.
  Context {K : qalg}.
  Local Open Scope q_scope.

  Lemma spin_sum_rename (p : nat -> nat) gs gs' (F : (nat -> bool) -> K) : resp F -> Forall2 (fun g g' : list nat => forall x, In (p x) g <-> In x g') gs gs' ->
    forall s, spin_sum gs (fun s => F (fun x => s (p x))) s = spin_sum gs' F (fun x => s (p x)).
  Proof.
    intros R H. induction H as [|g g' gs gs' Hg H IH]; intros s; cbn; auto.
    assert (E : forall v x, set_group g v s (p x) = set_group g' v (fun x => s (p x)) x).
    { intros v x. unfold set_group. destruct (existsb (Nat.eqb x) g') eqn:E'.
      - apply existsb_In in E'. apply Hg in E'. apply existsb_In in E'. rewrite E'. auto.
      - apply existsb_notIn in E'. rewrite <- Hg in E'. apply existsb_notIn in E'. rewrite E'. auto. }
    rewrite !IH. f_equal; apply spin_sum_resp; auto.
  Qed.
  Lemma spin_sum_sets gs gs' (F : (nat -> bool) -> K) s : resp F -> Forall2 (fun g g' : list nat => forall x, In x g <-> In x g') gs gs' -> spin_sum gs F s = spin_sum gs' F s.
  Proof. intros R H. exact (spin_sum_rename (fun x => x) gs gs' F R H s). Qed.

  Lemma spin_sum_columns (p : nat -> nat) gs (cols sc : list (nat * nat)) (F : (nat -> bool) -> K) : resp F -> NoDup (concat gs) ->
    (forall c, In c cols -> In [fst c; snd c] gs \/ In [snd c; fst c] gs) ->
    NoDup (map fst cols ++ map snd cols) -> Permutation cols sc ->
    Forall2 (fun c d : nat * nat => p (fst c) = fst d /\ p (snd c) = snd d) cols sc ->
    (forall x y, p x = p y -> x = y) ->
    (forall x, ~ In x (map fst cols ++ map snd cols) -> p x = x) ->
    forall s, spin_sum gs (fun s => F (fun x => s (p x))) s = spin_sum gs F (fun x => s (p x)).
  Proof.
    intros R N Hc Nc Pc Hp Inj Hid s.
    set (g := fun c : nat * nat => if in_dec (list_eq_dec Nat.eq_dec) [fst c; snd c] gs then [fst c; snd c] else [snd c; fst c]).
    assert (Hg : forall c, In c cols -> In (g c) gs).
    { intros c Hin. unfold g. destruct (in_dec _ _ gs); auto. destruct (Hc c Hin); tauto. }
    assert (Mg : forall c x, In x (g c) <-> x = fst c \/ x = snd c).
    { intros c x. unfold g. destruct (in_dec _ _ gs); cbn; intuition congruence. }
    destruct (NoDup_parts _ _ Nc) as (Nf & Ns & D).
    assert (Cf : forall c d, In c cols -> In d cols -> fst c = fst d -> c = d) by (intros c d H1 H2 E; apply (NoDup_map_In_inj fst cols); auto).
    assert (Ng : NoDup (map g cols)).
    { assert (Gi : forall c d, In c cols -> In d cols -> g c = g d -> c = d).
      { intros c d H1 H2 E. apply Cf; auto. assert (H : In (fst c) (g d)) by (rewrite <- E; apply Mg; auto). apply Mg in H. destruct H as [H|H]; auto.
        exfalso. apply (D (fst c)); [apply in_map; auto|rewrite H; apply in_map; auto]. }
      assert (Nc' : NoDup cols) by (apply (NoDup_map_inv fst); auto). clear - Gi Nc'. induction Nc' as [|c cols H Nc IH]; cbn; constructor.
      - intros H'. apply in_map_iff in H'. destruct H' as (d & E & Hd). apply H. rewrite (Gi c d); auto; [left|right]; auto.
      - apply IH. intros; apply Gi; auto; right; auto. }
    destruct (incl_perm (map g cols) gs Ng) as (rest & P).
    { intros x Hx. apply in_map_iff in Hx. destruct Hx as (c & <- & H). auto. }
    assert (P' : Permutation gs (map g sc ++ rest)) by (eapply Permutation_trans; [exact P|apply Permutation_app_tail, Permutation_map; auto]).
    assert (Nd : forall r x, In r rest -> In x r -> ~ In x (map fst cols ++ map snd cols)).
    { intros r x Hr Hx Hin. assert (N' : NoDup (concat (map g cols ++ rest))).
      { eapply Permutation_NoDup; [|exact N]. clear - P. induction P; cbn; auto; [apply Permutation_app_head; auto| |eapply Permutation_trans; eauto].
        rewrite !app_assoc. apply Permutation_app_tail, Permutation_app_comm. }
      rewrite concat_app in N'. destruct (NoDup_parts _ _ N') as (_ & _ & D'). apply (D' x); [|apply in_concat; exists r; auto].
      apply in_app_iff in Hin. apply in_concat. destruct Hin as [H|H]; apply in_map_iff in H; destruct H as (c & <- & H); exists (g c); (split; [apply in_map; auto|apply Mg; auto]). }
    rewrite (spin_sum_perm gs (map g sc ++ rest)); auto; [|intros s1 s2 E; apply R; auto].
    rewrite (spin_sum_rename p (map g sc ++ rest) (map g cols ++ rest)); auto.
    - symmetry. apply spin_sum_perm; auto.
    - apply Forall2_app.
      + clear - Hp Mg Inj. induction Hp as [|c d cols sc (H1 & H2) Hp IH]; cbn; constructor; auto.
        intros x. rewrite !Mg, <- H1, <- H2. split; [intros [H|H]; apply Inj in H; auto|intros [->| ->]; auto].
      + assert (In' : forall x, In x (map fst cols ++ map snd cols) -> In (p x) (map fst cols ++ map snd cols)).
        { assert (Q : Permutation (map fst cols ++ map snd cols) (map fst sc ++ map snd sc)) by (apply Permutation_app; apply Permutation_map; auto).
          intros x Hx. eapply Permutation_in; [apply Permutation_sym; exact Q|]. apply in_app_iff in Hx. apply in_app_iff. clear - Hp Hx.
          induction Hp as [|c d cols sc (H1 & H2) Hp IH]; cbn in *; [tauto|]. destruct Hx as [[<-|H]|[<-|H]]; auto; destruct IH; auto. }
        assert (G : forall l, incl l rest -> Forall2 (fun g g' : list nat => forall x, In (p x) g <-> In x g') l l).
        { induction l as [|r l IH]; intros Hl; constructor; [|apply IH; intros y Hy; apply Hl; right; auto]. intros x. pose proof (Hl r (or_introl eq_refl)) as Hr.
          destruct (in_dec Nat.eq_dec x (map fst cols ++ map snd cols)) as [Hx|Hx]; [|rewrite Hid; tauto].
          split; intros H; exfalso; [apply (Nd r (p x)); auto|apply (Nd r x); auto]. }
        apply G. intros y Hy; auto.
  Qed.
End Rename.

Section Closed2.
  Context {K : qalg} {O : Type}.
  Local Open Scope q_scope.
  Add Ring Kring19 : (qring K).
  Variable range : nat -> list O.
  Variable vars : nat -> K.
  Variable T : nat -> list O -> list O -> list O -> K.
  Hypothesis CS : column_symmetric T.
  Variable lt : index -> index -> bool.
  Hypothesis TO : total_order lt.
  Variable code : index -> nat.
  Hypothesis CI : forall i j, code i = code j -> i = j.

  Notation SI := (spin_independent T).

  Lemma SI_column_symmetric : column_symmetric SI.
  Proof.
    intros n c d x P. unfold spin_independent.
    assert (E : conserves_spin (map fst c) (map snd c) = conserves_spin (map fst d) (map snd d)).
    { assert (G : forall l : list ((O * bool) * (O * bool)), conserves_spin (map fst l) (map snd l) = forallb (fun bk => Bool.eqb (snd (fst bk)) (snd (snd bk))) l).
      { unfold conserves_spin. induction l as [|y l IH]; cbn; auto. rewrite IH. destruct y; auto. }
      rewrite !G. clear - P. induction P; cbn; auto; [congruence| |congruence]. rewrite !andb_assoc. f_equal. apply andb_comm. }
    rewrite E. destruct (conserves_spin (map fst d) (map snd d)); auto.
    rewrite !map_map. pose proof (CS n (map (fun y => (fst (fst y), fst (snd y))) c) (map (fun y => (fst (fst y), fst (snd y))) d) (map fst x)) as H.
    rewrite !map_map in H. cbn in H. apply H. apply Permutation_map. auto.
  Qed.
  Lemma SI_conserving : spin_conserving SI.
  Proof. intros n b k x H. unfold spin_independent. rewrite H. auto. Qed.

  Lemma any_conserving q k : spin_any q -> spin_any k -> ms_conserving_columns q k = true.
  Proof.
    unfold ms_conserving_columns. revert k. induction q as [|x q IH]; intros [|y k] H1 H2; cbn; auto.
    rewrite (H1 x (or_introl eq_refl)), (H2 y (or_introl eq_refl)). cbn. apply IH; intros i Hi; [apply H1|apply H2]; right; auto.
  Qed.
  Lemma any_vanishing {V} (T' : nat -> list V -> list V -> list V -> K) t a : spin_any (t_bra t ++ t_ket t) -> vanishing T' t a.
  Proof.
    intros H _ n q k _ P1 P2 E. rewrite any_conserving in E; [discriminate| |]; intros i Hi; apply H, in_app_iff; [left|right]; eapply Permutation_in; try apply Permutation_sym; eauto.
  Qed.

  (** *** One term *)
  Notation ext_of groups := (names (concat groups)).
  Definition free_term (ext : list nat) (tm : term) (b : nat -> O) : K :=
    index_sum range (summed ext (all_indices (factors tm))) (fun b' => term_value T vars tm (fun i => b' (fst i))) b.

  (** The symmetrizer of a product and its other factors. *)
  Inductive shape (groups : list (list index)) (fs : list factor) : list factor -> Prop :=
  | shape_plain : shape groups fs fs
  | shape_S Sy : t_label Sy = L_S -> NoDup (t_bra Sy ++ t_ket Sy) -> length (t_bra Sy) = length (t_ket Sy) -> spin_any (t_bra Sy ++ t_ket Sy) ->
      (forall i j, In (i, j) (combine (t_bra Sy) (t_ket Sy)) -> In [i; j] groups \/ In [j; i] groups) -> shape groups fs (Ten Sy :: fs).

  Lemma opfree_no_label L fs : filter is_operator fs = [] -> (forall n, L <> L_named n) -> filter (fun x => negb (has_label L x)) fs = fs.
  Proof.
    intros H HL. induction fs as [|x fs IH]; cbn; auto. cbn in H. destruct (is_operator x) eqn:E; [discriminate|].
    assert (E' : has_label L x = false). { destruct x as [t|v]; cbn in *; auto. destruct (t_label t) eqn:El; try discriminate. destruct (label_eqb (L_named n) L) eqn:E'; auto. apply label_eqb_eq in E'. destruct (HL n); auto. }
    rewrite E'. cbn. rewrite IH; auto.
  Qed.

  Lemma rat_pow2 n : rat (Q2Qc (inject_Z (2 ^ Z.of_nat n))) = natK (2 ^ n) :> K.
  Proof. rewrite <- rat_nat. f_equal. f_equal. f_equal. rewrite Nat2Z.inj_pow. reflexivity. Qed.

  Lemma spin_sum_mul gs (c : K) (F : (nat -> bool) -> K) s : spin_sum gs (fun s => c * F s) s = c * spin_sum gs F s.
  Proof. revert s. induction gs as [|g gs IH]; intros s; cbn; auto. rewrite !IH. ring. Qed.

  Lemma closed_term_ok groups tm fs : shape groups fs (factors tm) ->
    filter is_operator fs = [] -> (forall t, In (Ten t) fs -> good_tensor t) -> nonanti fs ->
    good_groups groups -> pairs groups -> incl (ext_of groups) (orbital_indices fs) ->
    exists tm', closed_shell_term code groups tm = Some tm' /\ forall b, free_term (ext_of groups) tm' b = term_trace range vars SI (map names groups) tm b.
  Proof.
    intros Hs Ho Hg Ha Hgr Hp Hinc.
    destruct (closed_core vars T code CI groups fs Ho Hg Ha Hgr Hp Hinc) as (n & En & Hn).
    assert (Ef : filter (fun x => negb (is_symmetrizer x)) (factors tm) = fs).
    { destruct Hs as [|Sy El]; [apply opfree_no_label; auto; discriminate|]. cbn. unfold is_symmetrizer at 1. cbn. rewrite El. cbn. apply opfree_no_label; auto; discriminate. }
    assert (Ef' : filter (fun x => negb (has_label L_A x)) fs = fs) by (apply opfree_no_label; auto; discriminate).
    unfold closed_shell_term. rewrite Ef.
    replace (match groups with [] => fs | _ => filter (fun x => negb (has_label L_A x)) fs end) with fs by (destruct groups; auto).
    cbv zeta. rewrite !substitute_ext_ok by auto. rewrite En. eexists. split; [reflexivity|]. intros b. unfold free_term, term_trace. cbn [factors]. rewrite concat_names.
    apply index_sum_ext. intros b'. unfold term_value. cbn [scalar factors]. rewrite rat_mul, rat_pow2. rewrite spin_sum_mul.
    assert (Hu : spin_any (used_indices fs)) by (apply used_any; auto).
    destruct Hs as [|Sy El NS LS AS HS].
    - rewrite !ops_none by auto. rewrite (spin_sum_ext _ _ (fun s => product_value SI vars fs (bs b' s))) by reflexivity. rewrite Hn. unfold orb. ring.
    - assert (Eop : filter is_operator (Ten Sy :: fs) = [Ten Sy]) by (cbn; rewrite El, Ho; auto).
      rewrite !(ops_one _ _ _ Eop). cbn [apply_operator]. rewrite El.
      rewrite (spin_sum_ext _ _ (fun s => symmetrizer (t_bra Sy) (t_ket Sy) (product_value SI vars (Ten Sy :: fs)) (bs b' s))) by reflexivity.
      assert (Eo : summed (ext_of groups) (orbital_indices (Ten Sy :: fs)) = summed (ext_of groups) (orbital_indices fs)).
      { change (orbital_indices (Ten Sy :: fs)) with (map fst (t_bra Sy ++ t_ket Sy) ++ orbital_indices fs). unfold summed. rewrite filter_app, summed_nil; auto.
        intros x Hx. apply in_map_iff in Hx. destruct Hx as (i & <- & Hi). apply in_map. apply in_concat.
        apply in_app_iff in Hi. destruct Hi as [Hi|Hi]; apply In_nth_error in Hi; destruct Hi as (j & Hj).
        - destruct (nth_error (t_ket Sy) j) as [i'|] eqn:Ej; [|apply nth_error_None in Ej; rewrite <- LS in Ej; assert (j < length (t_bra Sy))%nat by (apply nth_error_Some; rewrite Hj; discriminate); lia].
          assert (Hc : In (i, i') (combine (t_bra Sy) (t_ket Sy))) by exact (nth_error_In _ j (combine_nth_error' _ _ j _ _ Hj Ej)).
          destruct (HS _ _ Hc) as [H|H]; eexists; (split; [exact H|cbn; auto]).
        - destruct (nth_error (t_bra Sy) j) as [i'|] eqn:Ej; [|apply nth_error_None in Ej; rewrite LS in Ej; assert (j < length (t_ket Sy))%nat by (apply nth_error_Some; rewrite Hj; discriminate); lia].
          assert (Hc : In (i', i) (combine (t_bra Sy) (t_ket Sy))) by exact (nth_error_In _ j (combine_nth_error' _ _ j _ _ Ej Hj)).
          destruct (HS _ _ Hc) as [H|H]; eexists; (split; [exact H|cbn; auto]). }
      rewrite Eo.
      set (gs := map (fun i => [i]) (summed (ext_of groups) (orbital_indices fs)) ++ map names groups) in *.
      unfold symmetrizer.
      assert (PVc : forall V (T' : nat -> list V -> list V -> list V -> K) (a : index -> V), product_value T' vars (Ten Sy :: fs) a = product_value T' vars fs a).
      { intros. unfold product_value. cbn [prod fold_right factor_value]. rewrite El. fold (prod (fun x => factor_value T' vars x a) fs). ring. }
      rewrite spin_sum_mul, spin_sum_sum.
      rewrite (sum_ext (fun x => spin_sum gs (fun s => product_value SI vars (Ten Sy :: fs) (reassign (t_bra Sy ++ t_ket Sy) (map fst (snd x) ++ map snd (snd x)) (bs b' s))) (fun _ => true))
         (fun x => natK (2 ^ n) * product_value T vars (Ten Sy :: fs) (reassign (t_bra Sy ++ t_ket Sy) (map fst (snd x) ++ map snd (snd x)) (fun i => b' (fst i))))).
      { rewrite sum_mul_l. ring. }
      intros (sg & sc) Hsc. cbn [snd].
      assert (Psc : Permutation (combine (t_bra Sy) (t_ket Sy)) sc).
      { destruct (signed_perms_exchanges _ _ _ Hsc) as (k & Hk & _). eapply exchanges_perm; eauto. }
      set (f := image (t_bra Sy ++ t_ket Sy) (map fst sc ++ map snd sc)).
      assert (Pf : Permutation (t_bra Sy ++ t_ket Sy) (map fst sc ++ map snd sc)).
      { rewrite <- (combine_fst (t_bra Sy) (t_ket Sy) LS) at 1. rewrite <- (combine_snd (t_bra Sy) (t_ket Sy) LS) at 2. apply Permutation_app; apply Permutation_map; auto. }
      set (p := fun x : nat => fst (f (x, any))).
      assert (Hfany : forall i, snd i = any -> snd (f i) = any).
      { intros i Hi. destruct (mem i (t_bra Sy ++ t_ket Sy)) eqn:Em.
        - apply mem_In in Em. apply AS. apply image_In; auto.
        - unfold f. rewrite image_notin; auto. apply mem_notIn. rewrite Em. auto. }
      assert (Hfp : forall i, snd i = any -> fst (f i) = p (fst i)) by (intros i Hi; unfold p; rewrite <- (any_eta i Hi); auto).
      rewrite (spin_sum_ext _ _ (fun s => product_value SI vars fs (bs (fun x => b' (p x)) (fun x => s (p x))))).
      2:{ intros s. rewrite PVc. apply PV_ext_in. intros i Hi. unfold reassign, bs. fold f. rewrite (Hfp i) by auto. reflexivity. }
      rewrite (spin_sum_columns p gs (map (fun c : index * index => (fst (fst c), fst (snd c))) (combine (t_bra Sy) (t_ket Sy)))
                 (map (fun c : index * index => (fst (fst c), fst (snd c))) sc) (fun s => product_value SI vars fs (bs (fun x => b' (p x)) s))).
      + rewrite Hn. rewrite PVc. f_equal. apply PV_ext_in. intros i Hi. unfold reassign, orb. fold f. rewrite (Hfp i) by auto. reflexivity.
      + intros s1 s2 Es. apply PV_ext. intros i. unfold bs. rewrite Es. reflexivity.
      + unfold gs. rewrite concat_app, singles_concat, concat_names. apply NoDup_app_intro; [apply NoDup_nodup|apply names_NoDup; apply Hgr|]. intros x Hx. apply summed_In in Hx. tauto.
      + intros c Hc. apply in_map_iff in Hc. destruct Hc as ((i & j) & <- & Hc). cbn. unfold gs. rewrite !in_app_iff. destruct (HS i j Hc) as [H|H]; apply (in_map names) in H; cbn in H; auto.
      + rewrite !map_map. cbn. assert (Em : map (fun x : index * index => fst (fst x)) (combine (t_bra Sy) (t_ket Sy)) ++ map (fun x : index * index => fst (snd x)) (combine (t_bra Sy) (t_ket Sy)) = names (t_bra Sy ++ t_ket Sy)).
        { unfold names. rewrite map_app. f_equal; [rewrite <- (combine_fst (t_bra Sy) (t_ket Sy) LS) at 2|rewrite <- (combine_snd (t_bra Sy) (t_ket Sy) LS) at 2]; rewrite map_map; auto. }
        rewrite Em. apply names_NoDup; auto.
      + apply Permutation_map. auto.
      + assert (Lsc : length (combine (t_bra Sy) (t_ket Sy)) = length sc) by (apply Permutation_length; auto).
        assert (Em : map f (t_bra Sy) = map fst sc /\ map f (t_ket Sy) = map snd sc).
        { assert (E : map f (t_bra Sy ++ t_ket Sy) = map fst sc ++ map snd sc) by (apply image_map; auto; apply Permutation_length; auto).
          rewrite map_app in E. rewrite combine_length in Lsc. apply app_inj_length in E; auto. rewrite !map_length. lia. }
        destruct Em as (E1 & E2). clearbody p. clearbody f. clear - E1 E2 LS Lsc AS Hfp.
        assert (AS1 : spin_any (t_bra Sy)) by (intros i Hi; apply AS, in_app_iff; auto). assert (AS2 : spin_any (t_ket Sy)) by (intros i Hi; apply AS, in_app_iff; auto). clear AS.
        revert E1 E2 LS Lsc AS1 AS2. generalize (t_bra Sy) (t_ket Sy). intros B. revert sc. induction B as [|i B IH]; intros sc [|j Kt] E1 E2 L1 L2 A1 A2; cbn in *; try discriminate.
        * destruct sc; [|discriminate]. constructor.
        * destruct sc as [|(i' & j') sc]; [discriminate|]. cbn in *. injection E1 as E1 E1'. injection E2 as E2 E2'. constructor; cbn.
          -- rewrite <- !Hfp, E1, E2; auto; [apply A2|apply A1]; left; auto.
          -- apply IH; auto; intros x Hx; [apply A1|apply A2]; right; auto.
      + intros x y E. assert (E' : f (x, any) = f (y, any)).
        { rewrite (any_eta (f (x, any)) (Hfany (x, any) eq_refl)), (any_eta (f (y, any)) (Hfany (y, any) eq_refl)). f_equal. exact E. }
        apply image_inj in E'; auto. congruence.
      + intros x Hx. unfold p. unfold f. rewrite image_notin; auto. intros H. apply Hx. rewrite !map_map. cbn. apply in_app_iff in H. apply in_app_iff.
        rewrite <- (combine_fst (t_bra Sy) (t_ket Sy) LS) in H at 1. rewrite <- (combine_snd (t_bra Sy) (t_ket Sy) LS) in H at 2.
        destruct H as [H|H]; apply in_map_iff in H; destruct H as (c & E & H); [left|right]; apply in_map_iff; exists c; rewrite E; auto.
  Qed.
End Closed2.
