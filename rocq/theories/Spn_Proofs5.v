(** Expansion of the antisymmetric tensors of a product; sums over indices and spins. *)
From Coq Require Import ZArith NArith QArith Qcanon List Arith Bool Permutation Sorted Factorial Lia Ring.
From Verif Require Import Alg_Model Alg_Spec Alg_Proofs1 Alg_Proofs2 Spn_Model Spn_Spec Spn_Proofs1 Spn_Proofs2 Spn_Proofs3 Spn_Proofs4.
Import ListNotations.
Local Open Scope nat_scope.

Definition factor_rel (R : tensor -> tensor -> Prop) (x y : factor) : Prop :=
  match x, y with
  | Ten t, Ten t' => R t t'
  | Var v, Var w => v = w
  | _, _ => False
  end.

Lemma expand_factors_shape (f : tensor -> option signed_tensors) (R : tensor -> tensor -> Prop) fs :
  (forall t, In (Ten t) fs -> exists s, f t = Some s /\ forall b t', In (b, t') s -> R t t') ->
  exists e, expand_factors f fs = Some e /\ forall tm', In tm' e -> Forall2 (factor_rel R) fs (factors tm').
Proof.
  induction fs as [|x fs IH]; intros H; cbn [expand_factors].
  - eexists. split; [reflexivity|]. intros tm' [<-|[]]. constructor.
  - destruct IH as (e & -> & He); [intros; apply H; right; auto|].
    destruct x as [t|v].
    + destruct (H t (or_introl eq_refl)) as (s & -> & Hs). eexists. split; [reflexivity|].
      intros tm' Hin. apply in_flat_map in Hin. destruct Hin as ((b & t') & H1 & H2). apply in_map_iff in H2. destruct H2 as (tm & <- & H2).
      cbn [factors fst snd]. constructor; auto. exact (Hs b t' H1).
    + eexists. split; [reflexivity|]. intros tm' Hin. apply in_map_iff in Hin. destruct Hin as (tm & <- & H2). cbn [factors]. constructor; cbn; auto.
Qed.

Section Terms.
  Context {K : qalg} {V : Type}.
  Local Open Scope q_scope.
  Add Ring Kring12 : (qring K).
  Variable T : nat -> list V -> list V -> list V -> K.
  Variable vars : nat -> K.
  Notation PV := (product_value T vars).

  Lemma expand_factors_value (f : tensor -> option signed_tensors) fs (a : index -> V) :
    (forall t s, In (Ten t) fs -> f t = Some s -> forall b t', In (b, t') s -> t_label t' = t_label t) ->
    (forall t s, In (Ten t) fs -> f t = Some s -> is_operator (Ten t) = true -> exists t', s = [(false, t')]) ->
    (forall t s n, In (Ten t) fs -> f t = Some s -> t_label t = L_named n ->
       sum (fun bt : bool * tensor => sgn (fst bt) * tensor_value T n (snd bt) a) s = tensor_value T n t a) ->
    forall e, expand_factors f fs = Some e -> sum (fun tm => rat (scalar tm) * PV (factors tm) a) e = PV fs a.
  Proof.
    induction fs as [|x fs IH]; intros HL HO HV e; cbn [expand_factors].
    - intros E. injection E as <-. unfold sum, product_value, prod. cbn. rewrite rat_1. ring.
    - destruct (expand_factors f fs) as [e'|]; [|discriminate].
      specialize (IH ltac:(intros; eapply HL; eauto; right; auto) ltac:(intros; eapply HO; eauto; right; auto) ltac:(intros; eapply HV; eauto; right; auto) _ eq_refl).
      assert (PVc : forall y gs, PV (y :: gs) a = factor_value T vars y a * PV gs a) by reflexivity.
      destruct x as [t|v].
      + destruct (f t) as [s|] eqn:Ef; cbn [option_map]; [|discriminate]. intros E. injection E as <-.
        unfold times_sum. rewrite sum_flat_map.
        rewrite (sum_ext (fun x : bool * tensor => sum (fun tm => rat (scalar tm) * PV (factors tm) a) (map (fun tm => Term (sgnQ (fst x) * scalar tm)%Qc (Ten (snd x) :: factors tm)) e'))
                         (fun bt : bool * tensor => (sgn (fst bt) * factor_value T vars (Ten (snd bt)) a) * PV fs a)).
        2:{ intros (b & t') H. rewrite sum_map. cbn [fst snd factors scalar]. rewrite <- IH, <- sum_mul_l. apply sum_ext. intros tm _. rewrite PVc, rat_mul, rat_sgn. ring. }
        rewrite sum_mul_r, PVc. f_equal.
        specialize (HL t s (or_introl eq_refl) Ef). specialize (HO t s (or_introl eq_refl) Ef). specialize (fun n => HV t s n (or_introl eq_refl) Ef).
        destruct (t_label t) eqn:Et; cbn [factor_value].
        1,2,3: (destruct HO as (t' & ->); [cbn; rewrite Et; reflexivity|]; unfold sum; cbn [fold_right fst snd factor_value]; rewrite (HL false t' (or_introl eq_refl)), ?Et; cbn [sgn]; ring).
        rewrite Et, <- (HV n eq_refl). apply sum_ext. intros (b & t') H. cbn [snd fst factor_value]. rewrite (HL b t' H). reflexivity.
      + intros E. injection E as <-. unfold times. rewrite sum_map. cbn [scalar factors]. rewrite PVc, <- IH, <- sum_mul_l. apply sum_ext. intros tm _. rewrite PVc. ring.
  Qed.

  Lemma apply_operator_ext x (F G : (index -> V) -> K) : (forall a, F a = G a) -> forall a, apply_operator x F a = apply_operator x G a.
  Proof.
    intros H a. destruct x as [t|v]; cbn; auto. destruct (t_label t); auto.
    - unfold antisymmetrizer. f_equal. apply sum_ext. intros. apply sum_ext. intros. rewrite H. auto.
    - unfold symmetrizer. f_equal. apply sum_ext. intros. rewrite H. auto.
    - unfold transposition. auto.
  Qed.
  Lemma operators_ext fs (F G : (index -> V) -> K) : (forall a, F a = G a) -> forall a, fold_right apply_operator F fs a = fold_right apply_operator G fs a.
  Proof. intros H. induction fs as [|x fs IH]; cbn; auto. apply apply_operator_ext. auto. Qed.

  (** The value depends only on the values of the indices. *)
  Definition respects (F : (index -> V) -> K) : Prop := forall a1 a2, (forall i, a1 i = a2 i) -> F a1 = F a2.
  Lemma apply_operator_respects x F : respects F -> respects (apply_operator x F).
  Proof.
    intros H a1 a2 E. destruct x as [t|v]; cbn; auto. destruct (t_label t); auto.
    - unfold antisymmetrizer. f_equal. apply sum_ext. intros. apply sum_ext. intros. f_equal. apply H. intros. unfold reassign. auto.
    - unfold symmetrizer. f_equal. apply sum_ext. intros. apply H. intros. unfold reassign. auto.
    - unfold transposition. apply H. intros. unfold reassign. auto.
  Qed.
  Lemma term_value_ext tm (a1 a2 : index -> V) : (forall i, a1 i = a2 i) -> term_value T vars tm a1 = term_value T vars tm a2.
  Proof.
    intros E. unfold term_value. f_equal. revert a1 a2 E. fold (respects (fold_right apply_operator (PV (factors tm)) (factors tm))).
    assert (G : forall F fs, respects F -> respects (fold_right apply_operator F fs)) by (intros F fs H; induction fs; cbn; auto; apply apply_operator_respects; auto).
    apply G. intros a1 a2 E. apply PV_ext. auto.
  Qed.
  Lemma PV_ext_in fs (a a' : index -> V) : (forall i, In i (used_indices fs) -> a i = a' i) -> PV fs a = PV fs a'.
  Proof.
    intros H. apply prod_ext. intros x Hx. destruct x as [t|v]; cbn; auto. destruct (t_label t); auto. apply tensor_value_ext.
    intros i Hi. apply H. unfold used_indices. apply in_flat_map. exists (Ten t). auto.
  Qed.

  Lemma apply_operator_linear {X} x (c : X -> K) (F : X -> (index -> V) -> K) l a :
    apply_operator x (fun a' => sum (fun y => c y * F y a') l) a = sum (fun y => c y * apply_operator x (F y) a) l.
  Proof.
    destruct x as [t|v]; cbn; auto. destruct (t_label t); auto.
    - unfold antisymmetrizer.
      rewrite (sum_ext (fun y => c y * _) (fun y => rat (over_fact (length (t_bra t)) * over_fact (length (t_ket t)))%Qc *
         sum (fun sq : bool * list index => sum (fun sr : bool * list index => c y * (sgn (fst sq) * sgn (fst sr) * F y (reassign (t_bra t ++ t_ket t) (snd sq ++ snd sr) a))) (signed_perms (t_ket t))) (signed_perms (t_bra t)))).
      2:{ intros y _. rewrite (sum_ext (fun sq : bool * list index => sum (fun sr : bool * list index => c y * _) _) (fun sq : bool * list index => c y * sum (fun sr : bool * list index => (sgn (fst sq) * sgn (fst sr) * F y (reassign (t_bra t ++ t_ket t) (snd sq ++ snd sr) a))) (signed_perms (t_ket t)))) by (intros; apply sum_mul_l).
          rewrite sum_mul_l. ring. }
      rewrite sum_mul_l. f_equal. rewrite (sum_swap (fun y (sq : bool * list index) => _) l). apply sum_ext. intros sq _.
      rewrite (sum_swap (fun y (sr : bool * list index) => _) l). apply sum_ext. intros sr _. rewrite <- sum_mul_l. apply sum_ext. intros y _. ring.
    - unfold symmetrizer.
      rewrite (sum_ext (fun y => c y * _) (fun y => rat (over_fact (length (t_bra t)))%Qc *
         sum (fun sc : bool * list (index * index) => c y * F y (reassign (t_bra t ++ t_ket t) (map fst (snd sc) ++ map snd (snd sc)) a)) (signed_perms (combine (t_bra t) (t_ket t))))).
      2:{ intros y _. rewrite sum_mul_l. ring. }
      rewrite sum_mul_l. f_equal. rewrite (sum_swap (fun y (sq : bool * list (index * index)) => _) l). reflexivity.
  Qed.
  Lemma operators_linear {X} fs (c : X -> K) (F : X -> (index -> V) -> K) l a :
    fold_right apply_operator (fun a' => sum (fun y => c y * F y a') l) fs a = sum (fun y => c y * fold_right apply_operator (F y) fs a) l.
  Proof.
    revert a. induction fs as [|x fs IH]; intros a; cbn [fold_right]; auto.
    rewrite (apply_operator_ext x _ (fun a' => sum (fun y => c y * fold_right apply_operator (F y) fs a') l)) by auto. apply apply_operator_linear.
  Qed.

  (** The operators of a product are left alone. *)
  Definition op_rel (t t' : tensor) : Prop :=
    t_label t' = t_label t /\ (is_operator (Ten t) = true -> t_bra t' = t_bra t /\ t_ket t' = t_ket t).
  Lemma operators_rel (R : tensor -> tensor -> Prop) fs fs' F : (forall t t', In (Ten t) fs -> R t t' -> op_rel t t') -> Forall2 (factor_rel R) fs fs' ->
    fold_right apply_operator F fs' = fold_right apply_operator F fs :> ((index -> V) -> K).
  Proof.
    intros HR H. revert HR. induction H as [|x y fs fs' Hx H IH]; intros HR; cbn [fold_right]; auto.
    rewrite IH by (intros; apply HR; auto; right; auto).
    destruct x as [t|v], y as [t'|v']; cbn in Hx; try contradiction; cbn [apply_operator]; auto.
    destruct (HR t t' (or_introl eq_refl) Hx) as (E1 & E2). rewrite E1. cbn in E2.
    destruct (t_label t); auto; destruct E2 as (-> & ->); auto.
  Qed.
End Terms.

Section Antisymm.
  Context {K : qalg} {V : Type}.
  Local Open Scope q_scope.
  Add Ring Kring13 : (qring K).
  Variable T : nat -> list V -> list V -> list V -> K.
  Variable vars : nat -> K.
  Hypothesis CS : column_symmetric T.
  Variable lt : index -> index -> bool.
  Hypothesis TO : total_order lt.

  Definition expandable (t : tensor) : Prop :=
    length (t_bra t) = length (t_ket t) /\ NoDup (t_bra t) /\ NoDup (t_ket t) /\
    (is_operator (Ten t) = true -> t_symm t = Antisymm -> (length (t_bra t) <= 1)%nat).

  Definition vanishing (t : tensor) (a : index -> V) : Prop :=
    t_symm t = Antisymm -> forall n q k, t_label t = L_named n -> Permutation (t_bra t) q -> Permutation (t_ket t) k ->
      ms_conserving_columns q k = false -> T n (map a q) (map a k) (map a (t_aux t)) = 0.

  Lemma expands_op skip t t' : expandable t -> expands_to skip t t' -> op_rel t t'.
  Proof.
    intros (L & N1 & N2 & H) (E1 & E2 & P1 & P2 & S1 & S2 & S3). split; auto. intros Hop.
    destruct (le_lt_dec (length (t_bra t)) 1) as [Hl|Hl]; [destruct (S1 Hl) as (? & ? & _); auto|].
    destruct (t_symm t) eqn:Es; [rewrite S2 by (auto; discriminate); auto..|]. specialize (H Hop eq_refl). lia.
  Qed.

  Lemma expand_antisymm_term_ok skip tm : (forall t, In (Ten t) (factors tm) -> expandable t) ->
    exists e, expand_antisymm_term lt skip tm = Some e /\
      (forall tm', In tm' e -> Forall2 (factor_rel (expands_to skip)) (factors tm) (factors tm')) /\
      (forall a, filter is_operator (factors tm) = [] -> (forall t, In (Ten t) (factors tm) -> vanishing t a) ->
         expr_value T vars e a = term_value T vars tm a) /\
      ((forall t a, In (Ten t) (factors tm) -> vanishing t a) -> forall a, expr_value T vars e a = term_value T vars tm a).
  Proof.
    intros H. unfold expand_antisymm_term.
    destruct (expand_factors_shape (expand_antisymm_tensor lt skip) (expands_to skip) (factors tm)) as (e & Ee & He).
    { intros t Ht. destruct (H t Ht) as (L & N1 & N2 & _). destruct (expand_tensor_ok T CS lt TO skip t L N1 N2) as (s & E & Hs & _). exists s. auto. }
    rewrite Ee. cbn [option_map]. eexists. split; [reflexivity|]. split.
    { intros tm' Hin. apply in_map_iff in Hin. destruct Hin as (tm1 & <- & Hin). cbn [factors]. auto. }
    assert (G : forall a, (forall t, In (Ten t) (factors tm) -> vanishing t a) ->
                 sum (fun tm => rat (scalar tm) * product_value T vars (factors tm) a) e = product_value T vars (factors tm) a).
    { intros a Hv. apply (expand_factors_value T vars (expand_antisymm_tensor lt skip)); auto.
      - intros t s Ht Es b t' Hin. destruct (H t Ht) as (L & N1 & N2 & _). destruct (expand_tensor_ok T CS lt TO skip t L N1 N2) as (s' & E & Hs & _).
        rewrite Es in E. injection E as <-. apply (Hs b t' Hin).
      - intros t s Ht Es Hop. destruct (H t Ht) as (L & N1 & N2 & Ho). revert Es. unfold expand_antisymm_tensor. rewrite L, Nat.eqb_refl. cbn [negb]. rewrite <- L.
        destruct (Nat.leb_spec (length (t_bra t)) 1) as [L1|L1]; [intros E; injection E as <-; eauto|].
        destruct (if skip then ms_uniform t else Some false) as [[|]|]; [intros E; injection E as <-; eauto| |discriminate].
        destruct (t_symm t) eqn:Es; [intros E; injection E as <-; eauto..|]. specialize (Ho Hop eq_refl). lia.
      - intros t s n Ht Es Hn. destruct (H t Ht) as (L & N1 & N2 & _). destruct (expand_tensor_ok T CS lt TO skip t L N1 N2) as (s' & E & _ & Hs).
        rewrite Es in E. injection E as <-. apply Hs. intros q k P1 P2 Ea Hc. exact (Hv t Ht Ea n q k Hn P1 P2 Hc). }
    assert (Ops : forall tm' (F : (index -> V) -> K), In tm' e -> fold_right apply_operator F (factors tm') = fold_right apply_operator F (factors tm)).
    { intros tm' F Hin. apply (operators_rel (expands_to skip)); auto. intros t t' Ht. apply expands_op; auto. }
    split.
    - intros a Ho Hv. unfold expr_value, rescale. rewrite sum_map. unfold term_value at 2. rewrite (ops_none _ _ Ho), <- (G a Hv), <- sum_mul_l.
      apply sum_ext. intros tm' Hin. unfold term_value. cbn [scalar factors]. rewrite (Ops tm') by auto. rewrite (ops_none _ _ Ho), rat_mul. ring.
    - intros Hv a. unfold expr_value, rescale. rewrite sum_map. unfold term_value at 2.
      rewrite (operators_ext (factors tm) _ (fun a' => sum (fun tm' => rat (scalar tm') * product_value T vars (factors tm') a') e)).
      2:{ intros a'. symmetry. apply G. intros. apply Hv. auto. }
      rewrite (operators_linear (factors tm) (fun tm' => rat (scalar tm')) (fun tm' => product_value T vars (factors tm')) e), <- sum_mul_l. apply sum_ext. intros tm' Hin. unfold term_value. cbn [scalar factors]. rewrite (Ops tm') by auto. rewrite rat_mul. ring.
  Qed.
End Antisymm.
