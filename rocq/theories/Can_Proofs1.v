(** Lemmas for the canonicalization of sums: soundness. *)
From Coq Require Import ZArith List Arith Bool Permutation Lia Ring.
From Verif Require Import Alg_Spec Tsr_Model Tsr_Spec Tsr_Proofs1 Tsr_Proofs4 Tsr_Proofs5 Tsr_Proofs7 Tsr_Props Net_Model Net_Spec Net_Spec2 Net_Proofs1 Net_Proofs2 Net_Proofs3 Net_Proofs4 Net_Proofs5 Net_Proofs9 Net_Proofs12 Net_Proofs14 Net_Props Net_Props2 Net_Props3 Can_Model Can_Spec.
Import ListNotations.
Open Scope nat_scope.

(** ** Sorting with keys that tell elements apart *)
Lemma insert_commute {A} (k : A -> Z) x y l : (k x = k y -> x = y) ->
  insert_sorted (fun a b => (k a <? k b)%Z) x (insert_sorted (fun a b => (k a <? k b)%Z) y l) =
  insert_sorted (fun a b => (k a <? k b)%Z) y (insert_sorted (fun a b => (k a <? k b)%Z) x l).
Proof.
  intros H. induction l as [|z l IH]; cbn [insert_sorted].
  - destruct (Z.ltb_spec (k y) (k x)), (Z.ltb_spec (k x) (k y)); try lia; auto. assert (x = y) as -> by (apply H; lia). auto.
  - destruct (Z.ltb_spec (k z) (k x)), (Z.ltb_spec (k z) (k y)); cbn [insert_sorted];
      repeat match goal with |- context [(?a <? ?b)%Z] => destruct (Z.ltb_spec a b); try lia end; auto; try congruence.
    assert (x = y) as -> by (apply H; lia). auto.
Qed.
Lemma sort_perm {A} (k : A -> Z) l m : Permutation l m -> (forall x y, In x l -> In y l -> k x = k y -> x = y) ->
  stable_sort (fun a b => (k a <? k b)%Z) l = stable_sort (fun a b => (k a <? k b)%Z) m.
Proof.
  induction 1 as [|x l m P IH|x y l|l m n P1 IH1 P2 IH2]; intros H; auto.
  - unfold stable_sort in *. cbn [fold_right]. rewrite IH; auto. intros; apply H; auto; right; auto.
  - unfold stable_sort. cbn [fold_right]. apply insert_commute. intros E. apply H; cbn; auto.
  - rewrite IH1, IH2; auto. intros a b X Y. apply H; eapply Permutation_in; try apply Permutation_sym; eauto.
Qed.

(** ** Equality of factors *)
Lemma str_eqb_eq l : forall m, str_eqb l m = true <-> l = m.
Proof.
  induction l as [|x l IH]; intros [|y m]; cbn; try (split; congruence).
  rewrite andb_true_iff, Z.eqb_eq, IH. split; [intros (-> & ->); auto|intros [= -> ->]; auto].
Qed.
Lemma tensor_eq_plain S t u : proper S t -> proper S u -> tensor_eqb t u = true -> t = u.
Proof.
  intros (A & A1 & A2) (B & B1 & B2) E. apply C82_equality in E. destruct E as (E1 & E2 & E3 & E4 & E5 & E6 & E7).
  assert (U : forall l, Forall (plain S) l -> map identity l = l).
  { intros l F. apply identity_map. eapply Forall_impl; [|exact F]. intros i X. apply (plain_untagged S i X). }
  unfold slots in A, B. rewrite !Forall_app in A, B. rewrite !U in E2, E3, E4 by tauto.
  destruct t, u; cbn in *; subst; auto.
Qed.
Lemma tensor_eqb_refl t : tensor_eqb t t = true.
Proof. apply C82_equality. tauto. Qed.

Lemma vars_app l m : vars (l ++ m) = vars l ++ vars m.
Proof. apply flat_map_app. Qed.
Lemma tensors_app l m : tensors (l ++ m) = tensors l ++ tensors m.
Proof. apply flat_map_app. Qed.
Lemma vars_FVar l : vars (map FVar l) = l.
Proof. induction l as [|x l IH]; [auto|]. unfold vars, tensors in *. cbn. rewrite ?IH. auto. Qed.
Lemma vars_FTen l : vars (map FTen l) = [].
Proof. induction l as [|x l IH]; [auto|]. unfold vars, tensors in *. cbn. rewrite ?IH. auto. Qed.
Lemma tensors_FVar l : tensors (map FVar l) = [].
Proof. induction l as [|x l IH]; [auto|]. unfold vars, tensors in *. cbn. rewrite ?IH. auto. Qed.
Lemma tensors_FTen l : tensors (map FTen l) = l.
Proof. induction l as [|x l IH]; [auto|]. unfold vars, tensors in *. cbn. rewrite ?IH. auto. Qed.
Lemma vars_canon l m : vars (map FVar l ++ map FTen m) = l.
Proof. rewrite vars_app, vars_FVar, vars_FTen, app_nil_r. auto. Qed.
Lemma tensors_canon l m : tensors (map FVar l ++ map FTen m) = m.
Proof. rewrite tensors_app, tensors_FVar, tensors_FTen. auto. Qed.

Lemma factors_eq_plain S fs : forall gs, Forall (proper S) (tensors fs) -> Forall (proper S) (tensors gs) -> factors_eqb fs gs = true -> fs = gs.
Proof.
  induction fs as [|f fs IH]; intros [|g gs] A B E; try discriminate; auto. cbn in E. apply andb_true_iff in E. destruct E as (E1 & E2).
  assert (f = g) as ->.
  { destruct f as [v|t], g as [w|u]; try discriminate; cbn in *.
    - apply andb_true_iff in E1. destruct E1 as (X & Y). apply str_eqb_eq in X. apply eqb_prop in Y. destruct v, w; cbn in *; congruence.
    - f_equal. inversion A; inversion B; subst. eapply tensor_eq_plain; eauto. }
  f_equal. apply IH; auto; destruct g; cbn in *; try inversion A; try inversion B; auto.
Qed.
Lemma factors_eqb_refl fs : factors_eqb fs fs = true.
Proof.
  induction fs as [|[v|t] fs IH]; auto; cbn; rewrite IH, andb_true_r; [|apply tensor_eqb_refl].
  rewrite (proj2 (str_eqb_eq _ _)) by auto. apply eqb_reflx.
Qed.

Section Sound.
  Context {K : cring}.
  Add Ring Kring24 : (rring K).
  Variable is_zero : K -> bool.
  Hypothesis is_zero_ok : forall x, is_zero x = true -> x = r0.
  Variable bliss : graph -> vtx -> nat.
  Variable sort : list index -> list index.
  Variable hash : list index -> Z.
  Variable labels : list (list Z).
  Variable vhash : variable -> Z.
  Variable shash : summand K -> Z.
  Variable iter : list (summand K) -> list (summand K).
  Hypothesis iter_ok : forall l, Permutation (iter l) l.

  Variable S : space -> Prop.
  Variable opts : options.
  Variable Q : list tensor -> Prop.
  Variable U : variable -> Prop.
  Variable lone : Prop.
  Notation given := (o_named opts).

  (** The networks that can be canonicalized; nothing is done without tensors. *)
  Definition okay (N : list tensor) : Prop := N = [] \/ valid_network S (rapid_options opts) N.
  Hypothesis Q_invariant : forall N M s, okay N -> okay M -> equivalent (named_indices given N) N M s -> Q N -> Q M.
  Definition fine (x : summand K) : Prop :=
    match x with
    | SProd c fs => Forall U (vars fs) /\ okay (tensors fs) /\ Q (tensors fs)
    | STen t => lone /\ okay [t] /\ Q [t]
    end.
  Notation same := (same_sum given fine).

  (** ** Sums that are the same *)
  Lemma same_cons x l m : fine x -> same l m -> Forall fine l -> Forall fine m -> same (x :: l) (x :: m).
  Proof.
    intros X H. induction H as [l|l m H IH|l m n F H1 IH1 H2 IH2|l m H|c fs gs s l Hv He|c d fs l|fs l|t l]; intros A B.
    - apply ss_refl.
    - apply ss_sym. auto.
    - apply ss_trans with (m := x :: m); auto.
    - apply ss_order, perm_skip. auto.
    - apply ss_trans with (m := SProd c fs :: x :: l); [inversion A; auto|apply ss_order, perm_swap|].
      apply ss_trans with (m := SProd (signed s c) gs :: x :: l); [inversion B; auto| |apply ss_order, perm_swap]. apply ss_term; auto.
    - apply ss_trans with (m := SProd c fs :: SProd d fs :: x :: l).
      { inversion A as [|? ? A1 A2]; inversion A2; auto. }
      { apply ss_order. apply perm_trans with (l' := SProd c fs :: x :: SProd d fs :: l); [apply perm_swap|apply perm_skip, perm_swap]. }
      apply ss_trans with (m := SProd (radd c d) fs :: x :: l); [inversion B; auto| |apply ss_order, perm_swap]. apply ss_add.
    - apply ss_trans with (m := SProd r0 fs :: x :: l); [inversion A; auto|apply ss_order, perm_swap|]. apply ss_zero.
    - apply ss_trans with (m := STen t :: x :: l); [inversion A; auto|apply ss_order, perm_swap|].
      apply ss_trans with (m := SProd r1 [FTen t] :: x :: l); [inversion B; auto| |apply ss_order, perm_swap]. apply ss_lone.
  Qed.
  Lemma same_app k l m : Forall fine k -> same l m -> Forall fine l -> Forall fine m -> same (k ++ l) (k ++ m).
  Proof.
    intros F H A B. induction F as [|x k X F IH]; auto. cbn. apply same_cons; auto; apply Forall_app; auto.
  Qed.
  Lemma fine_perm l m : Permutation l m -> Forall fine l -> Forall fine m.
  Proof. intros P F. apply (Permutation_Forall P). auto. Qed.

  (** ** One term *)
  Lemma okay_valid N opts' : N <> [] -> okay N -> o_named opts' = given -> valid_network S opts' N.
  Proof.
    clear Q_invariant. intros E [X|V] G; [contradiction|]. destruct V as (R & M & P & H). cbn in H. split; [auto|]. split; [auto|]. split; [auto|]. rewrite G.
    destruct given; auto. split; [apply H|]. intros _. apply H. auto.
  Qed.
  Lemma okay_proper N : okay N -> Forall (proper S) N.
  Proof. intros [->|V]; [constructor|]. eapply valid_proper; eauto. Qed.
  Lemma okay_canonical opts' N M ords s : okay N -> N <> [] -> o_named opts' = given -> canonicalize bliss sort hash labels opts' N = Some (M, ords, s) ->
    okay M /\ M <> [] /\ equivalent (named_indices given N) N M s.
  Proof.
    clear Q_invariant. intros O E G H. pose proof (okay_valid N opts' E O G) as V. pose proof (C83_equivalent _ _ _ _ _ _ _ _ _ _ V H) as Eq. rewrite G in Eq.
    pose proof (C86_valid _ _ _ _ _ _ _ _ _ _ V H) as V'.
    assert (L : length M = length N).
    { clear -Eq. induction Eq; cbn; auto; try congruence. symmetry. apply Permutation_length; auto. apply map_length. }
    split; [|split; [intros ->; destruct N; [auto|discriminate]|auto]].
    right. destruct V' as (R & Md & P & Nm). split; [auto|]. split; [auto|]. split; [auto|]. cbn [rapid_options o_named o_lexicographic]. rewrite G in Nm.
    destruct O as [O|O]; [contradiction|]. destruct O as (_ & _ & _ & O). cbn in O. unfold named_indices in Eq.
    destruct given as [l|]; auto. split; [apply O|]. intros _ i I.
    destruct (equivalent_once _ _ _ _ Eq) as (Cn & _). specialize (Cn i I). apply (count_occ_In index_eq_dec). rewrite Cn.
    apply (count_occ_In index_eq_dec). apply O; auto.
  Qed.
  Lemma signed_mul (s : bool) (c : K) : (if s then rmul c (ropp r1) else c) = signed s c.
  Proof. destruct s; cbn; ring. Qed.

  Lemma canon_summand_sound opts' x y l : o_named opts' = given -> fine x -> canon_summand bliss sort hash labels vhash opts' x = Some y ->
    Forall fine l -> fine y /\ same (x :: l) (y :: l).
  Proof.
    intros G F H L. destruct x as [c fs|t]; cbn [canon_summand] in H.
    - unfold canon_product in H. destruct F as (Fu & Fo & Fq). pose proof (stable_perm (fun a b => (vhash a <? vhash b)%Z) (vars fs)) as Pv.
      fold (sort_vars vhash (vars fs)) in Pv.
      destruct (tensors fs) as [|t ts] eqn:T.
      + cbn in H. injection H as <-. cbn [fine]. rewrite vars_FVar, tensors_FVar.
        split; [split; [eapply Permutation_Forall; eauto|split; auto]|].
        apply (ss_term given fine c fs _ false); [rewrite vars_FVar; auto|]. rewrite T, tensors_FVar. apply eqv_refl.
      + rewrite <- T in *. assert (N0 : tensors fs <> []) by congruence. clear T.
        destruct (canonicalize bliss sort hash labels opts' (tensors fs)) as [((M, ords), s)|] eqn:C; [|discriminate]. cbn [option_map fst snd] in H. injection H as <-.
        destruct (okay_canonical opts' _ _ _ _ Fo N0 G C) as (Om & Nm & Eq). rewrite signed_mul. cbn [fine]. rewrite vars_canon, tensors_canon.
        split; [split; [eapply Permutation_Forall; eauto|split; eauto]|]. apply ss_term; rewrite ?vars_canon, ?tensors_canon; auto.
    - destruct (default_apply [] t) as [(u, s)|] eqn:D; [|discriminate]. cbn [option_map fst snd] in H. injection H as <-. destruct F as (Fl & Fo & Fq).
      apply default_related in D. assert (V : valid_network S (rapid_options opts) [t]) by (destruct Fo as [Fo|Fo]; [discriminate|auto]).
      assert (Eq : equivalent (named_indices given [t]) [t] [u] s) by (apply eqv_slots; auto).
      assert (Ou : okay [u]).
      { right. destruct V as (R & Md & P & Nm). pose proof (valid_good S (rapid_options opts) [t] (conj R (conj Md (conj P Nm)))) as Gd.
        assert (Gu : good S u) by (inversion Gd; subst; eapply related_good; eauto).
        split; [auto|]. split; [|split].
        - constructor; auto. apply (good_made S); auto. inversion Md; subst. destruct (made_ready t H1) as ((_ & _ & _ & X) & _).
          destruct D as (_ & _ & E1 & _ & E3 & _). unfold flagged. rewrite <- E1, <- E3. auto.
        - apply good_plain. auto.
        - cbn [rapid_options o_named o_lexicographic] in *. unfold named_indices in Eq. destruct given as [l'|]; auto. split; [apply Nm|]. intros _ i I.
          destruct (equivalent_once _ _ _ _ Eq) as (Cn & _). specialize (Cn i I). apply (count_occ_In index_eq_dec). rewrite Cn.
          apply (count_occ_In index_eq_dec). apply Nm; auto. }
      assert (Qu : Q [u]) by eauto.
      assert (X1 : fine (SProd r1 [FTen t])) by (cbn; auto). assert (X2 : forall c, fine (SProd c [FTen u])) by (cbn; auto).
      assert (same (STen t :: l) (SProd (signed s r1) [FTen u] :: l)).
      { apply ss_trans with (m := SProd r1 [FTen t] :: l); auto; [apply ss_lone|]. apply ss_term; auto. }
      destruct s; [split; auto|]. split; [cbn; auto|]. apply ss_trans with (m := SProd r1 [FTen u] :: l); auto. apply ss_sym, ss_lone.
  Qed.
  Lemma map_sound opts' l : o_named opts' = given -> forall m, Forall fine l -> map_opt (canon_summand bliss sort hash labels vhash opts') l = Some m ->
    Forall fine m /\ same l m.
  Proof.
    intros G. induction l as [|x l IH]; intros m F H; cbn in H; [injection H as <-; split; auto; apply ss_refl|]. inversion F; subst.
    destruct (canon_summand bliss sort hash labels vhash opts' x) as [y|] eqn:Ex; [|discriminate].
    destruct (map_opt _ l) as [l'|] eqn:El; [|discriminate]. injection H as <-. destruct (IH l') as (A & B); auto.
    destruct (canon_summand_sound opts' x y l') as (C & D); auto. split; auto. apply ss_trans with (m := x :: l'); auto. apply same_cons; auto.
  Qed.

  (** ** Collecting *)
  Lemma proportional_merge y x l : fine y -> fine x -> proportional y x = true -> Forall fine l ->
    fine (merge y x) /\ same (y :: x :: l) (merge y x :: l).
  Proof.
    intros Fy Fx E L. destruct y as [c fs|t], x as [d gs|u]; cbn [merge].
    - assert (E' : factors_eqb fs gs = true) by (destruct fs as [|? [|]]; exact E).
      apply (factors_eq_plain S) in E'; [|apply okay_proper, Fy|apply okay_proper, Fx]. subst. split; [exact Fy|apply ss_add].
    - destruct fs as [|f [|]]; try discriminate. destruct f as [|t]; try discriminate. cbn in E.
      assert (t = u) as ->. { apply (tensor_eq_plain S) in E; auto. + destruct Fy as (_ & O & _). apply okay_proper in O. inversion O; auto.
        + destruct Fx as (_ & O & _). apply okay_proper in O. inversion O; auto. }
      split; [exact Fy|]. apply ss_trans with (m := SProd c [FTen u] :: SProd r1 [FTen u] :: l).
      + repeat (apply Forall_cons; auto).
      + apply same_cons; auto; apply ss_lone.
      + apply ss_add.
    - destruct gs as [|f [|]]; try discriminate. destruct f as [|u]; try discriminate. cbn in E.
      assert (u = t) as ->. { apply (tensor_eq_plain S) in E; auto. + destruct Fx as (_ & O & _). apply okay_proper in O. inversion O; auto.
        + destruct Fy as (_ & O & _). apply okay_proper in O. inversion O; auto. }
      split; [exact Fx|]. apply ss_trans with (m := SProd d [FTen t] :: STen t :: l); [constructor; auto|apply ss_order, perm_swap|].
      apply ss_trans with (m := SProd d [FTen t] :: SProd r1 [FTen t] :: l).
      + repeat (apply Forall_cons; auto).
      + apply same_cons; auto; apply ss_lone.
      + apply ss_add.
    - cbn in E. assert (t = u) as ->. { apply (tensor_eq_plain S) in E; auto. + destruct Fy as (_ & O & _). apply okay_proper in O. inversion O; auto.
        + destruct Fx as (_ & O & _). apply okay_proper in O. inversion O; auto. }
      assert (P1 : forall c, fine (SProd c [FTen u])) by (intros c; destruct Fx as (_ & X); cbn; auto).
      split; auto. apply ss_trans with (m := SProd r1 [FTen u] :: SProd r1 [FTen u] :: l); auto; [|apply ss_add].
      apply ss_trans with (m := STen u :: SProd r1 [FTen u] :: l); auto; [|apply ss_lone]. apply same_cons; auto. apply ss_lone.
  Qed.
  Lemma accumulate_sound acc x : fine x -> Forall fine acc -> Forall fine (accumulate acc x) /\ same (acc ++ [x]) (accumulate acc x).
  Proof.
    intros X. induction acc as [|y acc IH]; intros F; cbn [accumulate app]; [split; auto; apply ss_refl|]. inversion F; subst.
    destruct (proportional y x) eqn:E.
    - destruct (proportional_merge y x acc) as (A & B); auto. split; auto. apply ss_trans with (m := y :: x :: acc); auto.
      apply ss_order. apply perm_skip. apply Permutation_sym, Permutation_cons_append.
    - destruct IH as (A & B); auto. split; auto. apply same_cons; auto. apply Forall_app; auto.
  Qed.
  Lemma fold_sound l : forall acc, Forall fine l -> Forall fine acc -> Forall fine (fold_left accumulate l acc) /\ same (acc ++ l) (fold_left accumulate l acc).
  Proof.
    induction l as [|x l IH]; intros acc F A; cbn [fold_left].
    - rewrite app_nil_r. split; auto. apply ss_refl.
    - inversion F; subst. destruct (accumulate_sound acc x) as (B & C); auto. destruct (IH (accumulate acc x)) as (B' & C'); auto. split; auto.
      apply ss_trans with (m := accumulate acc x ++ l); auto; [apply Forall_app; auto|].
      replace (acc ++ x :: l) with ((acc ++ [x]) ++ l) by (rewrite <- app_assoc; auto).
      apply ss_trans with (m := l ++ acc ++ [x]); [repeat (apply Forall_app; split); auto|apply ss_order, Permutation_app_comm|].
      apply ss_trans with (m := l ++ accumulate acc x); [apply Forall_app; auto| |apply ss_order, Permutation_app_comm].
      apply same_app; auto. apply Forall_app; auto.
  Qed.
  Lemma drop_sound l : Forall fine l -> Forall fine (filter (fun x => negb (zero_summand is_zero x)) l) /\ same l (filter (fun x => negb (zero_summand is_zero x)) l).
  Proof.
    induction 1 as [|x l X F (A & B)]; cbn [filter]; [split; auto; apply ss_refl|]. destruct (zero_summand is_zero x) eqn:Z; cbn [negb].
    - destruct x as [c fs|t]; [|discriminate]. cbn in Z. apply is_zero_ok in Z. subst. split; auto.
      apply ss_trans with (m := l); auto. apply ss_zero.
    - split; auto. apply same_cons; auto.
  Qed.
  Lemma pass_sound opts' l r : o_named opts' = given -> Forall fine l ->
    pass is_zero bliss sort hash labels vhash iter opts' l = Some r -> Forall fine r /\ same l r.
  Proof.
    intros G F H. unfold pass in H. destruct (map_opt _ l) as [m|] eqn:M; [|discriminate]. cbn in H. injection H as <-.
    destruct (map_sound _ _ G _ F M) as (A & B). destruct (fold_sound m []) as (C & D); auto. destruct (drop_sound _ C) as (X & Y).
    assert (Z : Forall fine (iter (collect is_zero m))) by (eapply fine_perm; [apply Permutation_sym, iter_ok|exact X]).
    split; auto. apply ss_trans with (m := m); auto. apply ss_trans with (m := fold_left accumulate m []); auto.
    apply ss_trans with (m := collect is_zero m); auto. apply ss_order. apply Permutation_sym, iter_ok.
  Qed.
  Lemma sum_sound l r : Forall fine l -> canonicalize_sum is_zero bliss sort hash labels vhash shash iter opts l = Some r -> Forall fine r /\ same l r.
  Proof.
    intros F H. unfold canonicalize_sum in H. destruct (pass _ _ _ _ _ _ _ (rapid_options opts) l) as [l1|] eqn:P1; [|discriminate].
    destruct (pass _ _ _ _ _ _ _ (deep_options opts) l1) as [l2|] eqn:P2; [|discriminate]. cbn in H. injection H as <-.
    apply pass_sound in P1; auto. destruct P1 as (F1 & S1). apply pass_sound in P2; auto. destruct P2 as (F2 & S2).
    pose proof (stable_perm (fun x y => (shash x <? shash y)%Z) l2) as Pm. fold (sort_summands shash l2) in Pm.
    split; [eapply fine_perm; eauto|]. apply ss_trans with (m := l1); auto. apply ss_trans with (m := l2); auto. apply ss_order; auto.
  Qed.

  (** ** It always succeeds *)
  Lemma canon_summand_total opts' x : o_named opts' = given -> fine x -> exists y, canon_summand bliss sort hash labels vhash opts' x = Some y.
  Proof.
    intros G F. destruct x as [c fs|t]; cbn [canon_summand].
    - unfold canon_product. destruct F as (_ & Fo & _). destruct (tensors fs) as [|t ts] eqn:T; [cbn; eauto|]. rewrite <- T in *.
      assert (N0 : tensors fs <> []) by congruence. destruct (C86_total S bliss sort hash labels opts' (tensors fs)) as (M & ords & s & ->); [apply okay_valid; auto|].
      cbn. eauto.
    - destruct F as (_ & [Fo|Fo] & _); [discriminate|]. destruct Fo as (R & Md & P & _). inversion Md; subst.
      assert (Cl : clean S (slots t)).
      { apply good_clean. apply made_good; auto. cbn in P. rewrite app_nil_r in P. auto. }
      destruct (C80_canonical S [] t t false R H1 Cl) as (r & s & -> & _); [apply related_refl|]. cbn. eauto.
  Qed.
  Lemma pass_total opts' l : o_named opts' = given -> Forall fine l -> exists r, pass is_zero bliss sort hash labels vhash iter opts' l = Some r.
  Proof.
    intros G F. unfold pass. destruct (map_opt_total (canon_summand bliss sort hash labels vhash opts') l) as (m & ->); [|cbn; eauto].
    intros x X. apply canon_summand_total; auto. rewrite Forall_forall in F. auto.
  Qed.
  Lemma sum_total l : Forall fine l -> exists r, canonicalize_sum is_zero bliss sort hash labels vhash shash iter opts l = Some r.
  Proof.
    intros F. unfold canonicalize_sum. destruct (pass_total (rapid_options opts) l) as (l1 & E1); auto. rewrite E1. apply pass_sound in E1; auto.
    destruct (pass_total (deep_options opts) l1) as (l2 & ->); [auto|apply E1|]. cbn. eauto.
  Qed.
End Sound.
