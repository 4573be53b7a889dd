(** Claims C70 to C75: spin tracing. *)
From Coq Require Import ZArith NArith QArith Qcanon List Arith Bool Permutation Lia Ring.
From Verif Require Import Alg_Model Alg_Spec Spn_Model Spn_Spec Spn_Proofs1 Spn_Proofs2 Spn_Proofs3 Spn_Proofs4 Spn_Proofs5 Spn_Proofs6 Spn_Proofs7 Spn_Proofs8 Spn_Proofs9 Spn_Proofs10 Spn_Proofs11 Spn_Proofs12 Spn_Proofs13.
Import ListNotations.
Local Open Scope nat_scope.

Section Single.
  Context {K : qalg} {V : Type}.
  Add Ring Kring22 : (qring K).
  Variable T : nat -> list V -> list V -> list V -> K.
  Variable vars : nat -> K.
  Lemma single_value tm a : expr_value T vars [tm] a = term_value T vars tm a.
  Proof. unfold expr_value, sum. cbn [fold_right]. ring. Qed.
End Single.

(** *** C70: the expansion of antisymmetric tensors *)

(** The hypothesis on the tensors: equal ranks, no index twice in the bra or in the ket; an operator
    of higher rank is not declared antisymmetric. *)
Definition expandable_expr (e : expr) : Prop := forall tm t, In tm e -> In (Ten t) (factors tm) ->
  length (t_bra t) = length (t_ket t) /\ NoDup (t_bra t) /\ NoDup (t_ket t) /\
  (is_operator (Ten t) = true -> t_symm t = Antisymm -> length (t_bra t) <= 1).

Theorem C70_spin_free : forall (K : qalg) (V : Type) (T : nat -> list V -> list V -> list V -> K) vars lt,
  total_order lt -> column_symmetric T -> forall skip e, expandable_expr e ->
  (forall tm t, In tm e -> In (Ten t) (factors tm) -> spin_any (t_bra t ++ t_ket t)) ->
  exists e', expand_antisymm lt skip e = Some e' /\
    (skip = false -> forall tm t, In tm e' -> In (Ten t) (factors tm) -> t_symm t <> Antisymm) /\
    forall a, expr_value T vars e' a = expr_value T vars e a.
Proof.
  intros K V T vars lt TO CS skip e He Ha.
  assert (H : forall tm, In tm e -> exists y, expand_antisymm_term lt skip tm = Some y /\
     (forall tm', In tm' y -> skip = false -> forall t, In (Ten t) (factors tm') -> t_symm t <> Antisymm) /\ forall a, expr_value T vars y a = term_value T vars tm a).
  { intros tm Ht. destruct (expand_antisymm_term_ok T vars CS lt TO skip tm) as (y & Ey & Hy & _ & Hv); [intros t H; exact (He tm t Ht H)|].
    exists y. split; auto. split; [|apply Hv; intros t a H; apply any_vanishing; eapply Ha; eauto].
    intros tm' Hin -> t Hint. specialize (Hy tm' Hin). clear - Hy Hint. induction Hy as [|x z fs fs' Hx Hy IH]; [destruct Hint|].
    destruct Hint as [->|Hint]; auto. destruct x as [t0|v]; [|contradiction]. cbn in Hx. destruct Hx as (_ & _ & _ & _ & S1 & S2 & S3).
    destruct (le_lt_dec (length (t_bra t0)) 1) as [Hl|Hl]; [destruct (S1 Hl) as (_ & _ & ->); discriminate|].
    destruct (t_symm t0) eqn:Es; try (rewrite S2 by (auto; discriminate); congruence). destruct (S3 Hl eq_refl) as [(-> & _)|(? & _)]; discriminate. }
  destruct (concat_mapM_total (expand_antisymm_term lt skip) e) as (E & HV); [intros tm Ht; destruct (H tm Ht) as (y & Ey & _); eauto|].
  eexists. split; [exact E|]. split.
  - intros Hsk tm' t Hin Ht. apply in_flat_map in Hin. destruct Hin as (tm & Htm & Hin). destruct (H tm Htm) as (y & Ey & Hy & _). rewrite (HV tm Htm) in Ey. injection Ey as Ey. rewrite Ey in Hin. eapply Hy; eauto.
  - intros a. unfold expr_value. rewrite sum_flat_map. apply sum_ext. intros tm Ht. destruct (H tm Ht) as (y & Ey & _ & Hy). rewrite (HV tm Ht) in Ey. injection Ey as ->. apply Hy.
Qed.

(** With spins: components that do not conserve the spin are left out, which is right when the
    tensors conserve the spin. *)
Theorem C70_spin_labelled : forall (K : qalg) (O : Type) (T : nat -> list (O * bool) -> list (O * bool) -> list (O * bool) -> K) vars lt,
  total_order lt -> column_symmetric T -> spin_conserving T -> forall skip e, expandable_expr e ->
  (forall tm t, In tm e -> In (Ten t) (factors tm) -> is_operator (Ten t) = false /\ forall i, In i (t_bra t ++ t_ket t) -> snd i <> any) ->
  exists e', expand_antisymm lt skip e = Some e' /\
    forall range ext b, spin_labelled_value range vars T ext e' b = spin_labelled_value range vars T ext e b.
Proof.
  intros K O T vars lt TO CS SC skip e He Ha.
  assert (H : forall tm, In tm e -> exists y, expand_antisymm_term lt skip tm = Some y /\
     (forall tm', In tm' y -> Permutation (all_indices (factors tm)) (all_indices (factors tm'))) /\ forall b, expr_value T vars y (lab b) = term_value T vars tm (lab b)).
  { intros tm Ht. destruct (expand_antisymm_term_ok T vars CS lt TO skip tm) as (y & Ey & Hy & Hv & _); [intros t H; exact (He tm t Ht H)|].
    exists y. split; auto. split.
    - intros tm' Hin. eapply all_indices_rel; [|exact (Hy tm' Hin)]. intros; eapply expands_same; eauto.
    - intros b. apply Hv.
      + assert (G : forall fs, (forall t, In (Ten t) fs -> is_operator (Ten t) = false) -> filter is_operator fs = []).
        { induction fs as [|x fs IH]; intros G; auto. cbn [filter]. destruct x as [t|v]; [rewrite (G t (or_introl eq_refl))|cbn]; apply IH; intros; apply G; right; auto. }
        apply G. intros t Hin. apply (Ha tm t Ht Hin).
      + intros t Hin. apply labelled_vanishing; auto. exact (proj2 (Ha tm t Ht Hin)). }
  destruct (concat_mapM_total (expand_antisymm_term lt skip) e) as (E & HV); [intros tm Ht; destruct (H tm Ht) as (y & Ey & _); eauto|].
  eexists. split; [exact E|]. intros range ext b. unfold spin_labelled_value. rewrite sum_flat_map. apply sum_ext. intros tm Ht.
  destruct (H tm Ht) as (y & Ey & Hp & Hy). rewrite (HV tm Ht) in Ey. injection Ey as ->.
  rewrite (sum_ext _ (fun tm' => index_sum range (summed ext (all_indices (factors tm))) (fun b' => term_value T vars tm' (lab b')) b)).
  2:{ intros tm' Hin. apply index_sum_perm; [apply summed_perm, Permutation_sym, Hp; auto|apply resp_lab]. }
  rewrite <- index_sum_sum. apply index_sum_ext. intros b'. apply Hy.
Qed.

(** *** C71: permutation operators *)

(** At most one operator, with the label [L] and distinct indices. *)
Definition one_operator (L : label) (tm : term) : Prop :=
  filter is_operator (factors tm) = [] \/
  exists A, filter is_operator (factors tm) = [Ten A] /\ t_label A = L /\ NoDup (t_bra A ++ t_ket A).

Theorem C71_antisymmetrizer : forall (K : qalg) (V : Type) (T : nat -> list V -> list V -> list V -> K) vars lt,
  total_order lt -> forall e, (forall tm, In tm e -> one_operator L_A tm) ->
  exists e', expand_A_op lt e = Some e' /\ (forall tm, In tm e' -> filter is_operator (factors tm) = []) /\
    forall a, expr_value T vars e' a = expr_value T vars e a.
Proof.
  intros K V T vars lt TO e He.
  assert (H : forall tm, In tm e -> exists y, expand_A_term lt tm = Some y /\ (forall tm', In tm' y -> filter is_operator (factors tm') = []) /\ forall a, expr_value T vars y a = term_value T vars tm a).
  { intros tm Ht. destruct (He tm Ht) as [Hop|(A & Hop & EA & N)].
    - exists [tm]. unfold expand_A_term. rewrite (find_none L_A _ Hop) by discriminate. split; auto. split; [intros tm' [<-|[]]; auto|].
      intros a. apply single_value.
    - destruct (expand_A_ok lt TO T vars tm A Hop EA N) as (y & Ey & Hy & Hv). exists y. split; auto. split; auto.
      intros tm' Hin. destruct (Hy tm' Hin) as (q & r & _ & _ & ->). unfold renamed. apply rename_nonops, nonops_nonops. }
  destruct (concat_mapM_total (expand_A_term lt) e) as (E & HV); [intros tm Ht; destruct (H tm Ht) as (y & Ey & _); eauto|].
  eexists. split; [exact E|]. split.
  - intros tm' Hin. apply in_flat_map in Hin. destruct Hin as (tm & Htm & Hin). destruct (H tm Htm) as (y & Ey & Hy & _). rewrite (HV tm Htm) in Ey. injection Ey as Ey. rewrite Ey in Hin. auto.
  - intros a. unfold expr_value. rewrite sum_flat_map. apply sum_ext. intros tm Ht. destruct (H tm Ht) as (y & Ey & _ & Hy). rewrite (HV tm Ht) in Ey. injection Ey as ->. apply Hy.
Qed.

(** The antisymmetrizer replaced by the symmetrizer: the result contains only symmetrizers. *)
Theorem C71_symmetrize : forall (K : qalg) (V : Type) (T : nat -> list V -> list V -> list V -> K) vars lt,
  total_order lt -> forall e, (forall tm, In tm e -> one_operator L_A tm) ->
  (forall tm A, In tm e -> In (Ten A) (factors tm) -> t_label A = L_A -> length (t_bra A) = length (t_ket A) /\ 1 <= length (t_bra A)) ->
  exists e', symmetrize_expr lt e = Some e' /\ (forall tm, In tm e' -> one_operator L_S tm) /\
    forall a, expr_value T vars e' a = expr_value T vars e a.
Proof.
  intros K V T vars lt TO e He Hr.
  assert (H : forall tm, In tm e -> exists y, symmetrize_term lt tm = Some y /\ (forall tm', In tm' y -> one_operator L_S tm') /\ forall a, expr_value T vars y a = term_value T vars tm a).
  { intros tm Ht. destruct (He tm Ht) as [Hop|(A & Hop & EA & N)].
    - exists [tm]. unfold symmetrize_term. rewrite (find_none L_A _ Hop) by discriminate. split; auto. split; [intros tm' [<-|[]]; left; auto|].
      intros a. apply single_value.
    - destruct (Hr tm A Ht) as (L & R); auto.
      { assert (G : In (Ten A) (filter is_operator (factors tm))) by (rewrite Hop; left; auto). apply filter_In in G. apply G. }
      destruct (symmetrize_ok lt TO T vars tm A Hop EA N L R) as (y & Ey & Hy & Hv). exists y. split; auto. split; auto.
      intros tm' Hin. destruct Hy as [(_ & ->)|(_ & Hy)].
      + destruct Hin as [<-|[]]. left. cbn [factors]. apply nonops_nonops.
      + destruct (Hy tm' Hin) as (q & _ & Hf). unfold one_operator. rewrite Hf. right. exists (Tensor L_S (t_bra A) (t_ket A) (t_aux A) Nonsymm). split; [|split; [reflexivity|exact N]].
        cbn [filter is_operator t_label]. f_equal. unfold half_renamed. apply rename_nonops, nonops_nonops. }
  destruct (concat_mapM_total (symmetrize_term lt) e) as (E & HV); [intros tm Ht; destruct (H tm Ht) as (y & Ey & _); eauto|].
  eexists. split; [exact E|]. split.
  - intros tm' Hin. apply in_flat_map in Hin. destruct Hin as (tm & Htm & Hin). destruct (H tm Htm) as (y & Ey & Hy & _). rewrite (HV tm Htm) in Ey. injection Ey as Ey. rewrite Ey in Hin. auto.
  - intros a. unfold expr_value. rewrite sum_flat_map. apply sum_ext. intros tm Ht. destruct (H tm Ht) as (y & Ey & _ & Hy). rewrite (HV tm Ht) in Ey. injection Ey as ->. apply Hy.
Qed.

(** The symmetrizer, in a sum of products. *)
Theorem C71_symmetrizer : forall (K : qalg) (V : Type) (T : nat -> list V -> list V -> list V -> K) vars lt,
  total_order lt -> forall e, (forall tm, In tm e -> one_operator L_S tm) ->
  (forall tm A, In tm e -> In (Ten A) (factors tm) -> t_label A = L_S -> length (t_bra A) = length (t_ket A) /\ 1 < length (t_bra A)) ->
  exists e', S_maps lt (map S_product e) = Some e' /\ (forall tm, In tm e' -> filter is_operator (factors tm) = []) /\
    forall a, expr_value T vars e' a = expr_value T vars e a.
Proof.
  intros K V T vars lt TO e He Hr.
  assert (H : forall tm, In tm e -> exists y, expand_S_term lt tm = Some y /\ (forall tm', In tm' y -> filter is_operator (factors tm') = []) /\ forall a, expr_value T vars y a = term_value T vars tm a).
  { intros tm Ht. destruct (He tm Ht) as [Hop|(A & Hop & EA & N)].
    - exists [tm]. unfold expand_S_term. rewrite (find_none L_S _ Hop) by discriminate. split; auto. split; [intros tm' [<-|[]]; auto|].
      intros a. apply single_value.
    - destruct (Hr tm A Ht) as (L & R); auto.
      { assert (G : In (Ten A) (filter is_operator (factors tm))) by (rewrite Hop; left; auto). apply filter_In in G. apply G. }
      destruct (expand_S_ok lt TO T vars tm A Hop EA N L R) as (y & Ey & Hy & Hv). eauto. }
  unfold S_maps.
  destruct (existsb (fun s => has_tensor L_S (as_term s)) (map S_product e)) eqn:Ex; cbn [negb].
  - assert (E0 : forall l, concat_mapM (fun s => match s with S_product tm => expand_S_term lt tm | S_tensor t => Some [as_term s] | S_variable v => Some [] | S_constant c => Some [as_term s] end) (map S_product l) = concat_mapM (expand_S_term lt) l).
    { unfold concat_mapM. intros l. f_equal. induction l as [|x l IH]; auto. cbn [map mapM]. rewrite IH. reflexivity. }
    rewrite E0. destruct (concat_mapM_total (expand_S_term lt) e) as (E & HV); [intros tm Ht; destruct (H tm Ht) as (y & Ey & _); eauto|].
    eexists. split; [exact E|]. split.
    + intros tm' Hin. apply in_flat_map in Hin. destruct Hin as (tm & Htm & Hin). destruct (H tm Htm) as (y & Ey & Hy & _). rewrite (HV tm Htm) in Ey. injection Ey as Ey. rewrite Ey in Hin. auto.
    + intros a. unfold expr_value. rewrite sum_flat_map. apply sum_ext. intros tm Ht. destruct (H tm Ht) as (y & Ey & _ & Hy). rewrite (HV tm Ht) in Ey. injection Ey as ->. apply Hy.
  - rewrite map_map. eexists. split; [reflexivity|]. cbn [as_term]. rewrite map_id. split; auto.
    intros tm Ht. destruct (He tm Ht) as [Hop|(A & Hop & EA & N)]; auto. exfalso.
    assert (G : In (Ten A) (filter is_operator (factors tm))) by (rewrite Hop; left; auto). apply filter_In in G.
    rewrite <- not_true_iff_false in Ex. apply Ex. apply existsb_exists. exists (S_product tm). split; [apply in_map, Ht|].
    cbn [as_term]. unfold has_tensor. apply existsb_exists. exists (Ten A). split; [apply G|]. cbn [has_label]. rewrite EA. reflexivity.
Qed.

(** The transposition operator. *)
Theorem C71_transposition : forall (K : qalg) (V : Type) (T : nat -> list V -> list V -> list V -> K) vars lt,
  total_order lt -> forall tm, one_operator L_P tm ->
  (forall P, In (Ten P) (factors tm) -> t_label P = L_P ->
     Nat.even (length (t_bra P)) = true /\ Nat.even (length (t_ket P)) = true /\ 1 < length (t_bra P) + length (t_ket P)) ->
  exists e', expand_P_term lt tm = Some e' /\ (forall tm', In tm' e' -> filter is_operator (factors tm') = []) /\
    forall a, expr_value T vars e' a = term_value T vars tm a.
Proof.
  intros K V T vars lt TO tm [Hop|(P & Hop & EP & N)] Hr.
  - assert (G : P_scan lt (factors tm) = Some ([], false)).
    { clear - Hop. induction (factors tm) as [|x fs IH]; auto. cbn [filter] in Hop. destruct x as [t|v]; cbn [P_scan].
      - cbn [is_operator] in Hop. destruct (t_label t); try discriminate. cbn. auto.
      - auto. }
    unfold expand_P_term. rewrite G. eexists. split; [reflexivity|]. split; [intros tm' [<-|[]]; auto|].
    intros a. apply single_value.
  - destruct (Hr P) as (E1 & E2 & E3); auto.
    { assert (G : In (Ten P) (filter is_operator (factors tm))) by (rewrite Hop; left; auto). apply filter_In in G. apply G. }
    apply (expand_P_ok lt TO T vars tm P Hop EP N E1 E2).
    destruct (t_bra P) as [|? [|]]; [right; cbn in E3; lia|discriminate|left; cbn; lia].
Qed.

(** *** C72: spin tracing by summation *)

Theorem C72_spintrace_labelled : forall (K : qalg) (O : Type) range vars (T : nat -> list (O * bool) -> list (O * bool) -> list (O * bool) -> K) lt,
  total_order lt -> column_symmetric T -> spin_conserving T ->
  forall groups e, good_groups groups ->
  (forall tm, In tm e -> good_term (names (concat groups)) tm /\ no_aux (factors tm) /\
     length (summed (names (concat groups)) (orbital_indices (factors tm))) + length groups <= 63) ->
  exists e', spintrace lt false groups e = Some e' /\
    (forall tm, In tm e' -> filter is_operator (factors tm) = []) /\
    ((forall tm t, In tm e -> In (Ten t) (factors tm) -> is_operator (Ten t) = false -> t_symm t = Antisymm \/ length (t_bra t) <= 1) ->
     forall tm t, In tm e' -> In (Ten t) (factors tm) -> t_symm t <> Antisymm /\
       (forall i, In i (t_bra t ++ t_ket t) -> snd i <> any) /\
       forall i j, In (i, j) (combine (t_bra t) (t_ket t)) -> snd i = snd j) /\
    forall b, spin_labelled_value range vars T (names (concat groups)) e' b = spin_traced_value range vars T (map names groups) e b.
Proof.
  intros K O range vars T lt TO CS SC groups e Hg He.
  destruct (spintrace_ok range vars T lt TO CS SC groups e Hg He) as (e' & E & Hp & Hv). exists e'. split; auto. split; [intros tm Hin; apply (Hp tm Hin)|]. split; auto.
  intros Ha tm t Hin Ht. destruct (proj2 (Hp tm Hin) Ha t Ht) as (H1 & H2 & H3). split; auto. split; auto.
  intros i j Hij. unfold ms_conserving_columns in H3. rewrite forallb_forall in H3. specialize (H3 _ Hij). cbn in H3. destruct (snd i), (snd j); auto; discriminate.
Qed.

Theorem C72_spintrace_spinfree : forall (K : qalg) (O : Type) range vars (T : nat -> list O -> list O -> list O -> K) lt,
  total_order lt -> column_symmetric T ->
  forall groups e, good_groups groups ->
  (forall tm, In tm e -> good_term (names (concat groups)) tm /\ no_aux (factors tm) /\
     length (summed (names (concat groups)) (orbital_indices (factors tm))) + length groups <= 63 /\
     forall t, In (Ten t) (nonops (factors tm)) -> t_symm t = Antisymm \/ length (t_bra t) <= 1) ->
  exists e', spintrace lt true groups e = Some e' /\
    (forall tm t, In tm e' -> In (Ten t) (factors tm) -> spin_any (t_bra t ++ t_ket t)) /\
    forall b, spin_free_value range vars T (names (concat groups)) e' b =
              spin_traced_value range vars (spin_independent T) (map names groups) e b.
Proof.
  intros K O range vars T lt TO CS groups e Hg He. destruct (spintrace_free_ok range vars T lt TO CS groups e Hg He) as (e' & E & Hv). exists e'. split; auto. split; auto.
  rewrite spintrace_spinfree in E. destruct (spintrace lt false groups e) as [e0|]; [|discriminate]. injection E as <-.
  intros tm t Hin Ht. apply in_map_iff in Hin. destruct Hin as (tm0 & <- & _). cbn [remove_spin factors] in Ht. apply in_map_iff in Ht. destruct Ht as (x & Ex & _).
  destruct x as [t0|v]; [|discriminate]. injection Ex as <-. cbn. intros i Hi. rewrite <- map_app in Hi. apply in_map_iff in Hi. destruct Hi as (i0 & <- & _). reflexivity.
Qed.

(** *** C73: closed-shell spin tracing *)

Lemma expand_tensor_symm lt t s : expand_antisymm_tensor lt false t = Some s -> forall bt, In bt s -> t_symm (snd bt) <> Antisymm.
Proof.
  unfold expand_antisymm_tensor. destruct (Nat.eqb _ _); cbn [negb]; [|discriminate]. destruct (Nat.leb _ 1).
  - intros E bt Hin. injection E as <-. destruct Hin as [<-|[]]. cbn; discriminate.
  - destruct (t_symm t) eqn:Es; cbv zeta.
    1,2: intros E bt Hin; injection E as <-; destruct Hin as [<-|[]]; cbn; congruence.
    destruct (tensor_phase lt (t_bra t) (t_ket t)) as [p|]; [|discriminate]. destruct (permutation_loop lt (set_of lt (t_bra t))) as [Q|]; [|discriminate].
    unfold concat_mapM. intros E. destruct (mapM _ Q) as [ys|] eqn:Em; [|discriminate]. injection E as <-.
    revert ys Em. induction Q as [|q Q IH]; cbn [mapM]; intros ys Em bt Hin.
    + injection Em as <-. destruct Hin.
    + destruct (ms_conserving_columns q (set_of lt (t_ket t))).
      * destruct (tensor_phase lt q (set_of lt (t_ket t))) as [ph|]; [|discriminate]. cbn [option_map] in Em. destruct (mapM _ Q) as [zs|]; [|discriminate]. injection Em as <-.
        cbn in Hin. destruct Hin as [<-|Hin]; [cbn; discriminate|]. eapply IH; eauto.
      * destruct (mapM _ Q) as [zs|]; [|discriminate]. injection Em as <-. cbn in Hin. eapply IH; eauto.
Qed.
Lemma expand_factors_symm lt fs : forall e, expand_factors (expand_antisymm_tensor lt false) fs = Some e ->
  forall tm t, In tm e -> In (Ten t) (factors tm) -> t_symm t <> Antisymm.
Proof.
  induction fs as [|x fs IH]; cbn [expand_factors]; intros e E tm t Hin Ht.
  - injection E as <-. destruct Hin as [<-|[]]. destruct Ht.
  - destruct (expand_factors _ fs) as [e0|]; [|discriminate]. destruct x as [t0|v].
    + destruct (expand_antisymm_tensor lt false t0) as [sg|] eqn:Et; [|discriminate]. injection E as <-.
      apply in_flat_map in Hin. destruct Hin as (bt & Hbt & Hin). apply in_map_iff in Hin. destruct Hin as (tm0 & <- & Hin). cbn [factors] in Ht.
      destruct Ht as [Ht|Ht]; [injection Ht as <-; eapply expand_tensor_symm; eauto|eapply IH; eauto].
    + injection E as <-. apply in_map_iff in Hin. destruct Hin as (tm0 & <- & Hin). destruct Ht as [Ht|Ht]; [discriminate|eapply IH; eauto].
Qed.
Lemma mapM_In {X Y} (f : X -> option Y) l : forall ys, mapM f l = Some ys -> forall y, In y ys -> exists x, In x l /\ f x = Some y.
Proof.
  induction l as [|x l IH]; cbn; intros ys E y Hin; [injection E as <-; destruct Hin|].
  destruct (f x) as [z|] eqn:Ef; [|discriminate]. destruct (mapM f l) as [zs|]; [|discriminate]. injection E as <-. destruct Hin as [->|Hin]; [eauto|].
  destruct (IH _ eq_refl y Hin) as (x' & ? & ?). eauto.
Qed.
Lemma closed_shell_symm lt code full groups e e' : closed_shell_spintrace lt code full groups e = Some e' ->
  forall tm t, In tm e' -> In (Ten t) (factors tm) -> t_symm t <> Antisymm.
Proof.
  unfold closed_shell_spintrace. destruct (if existsb (has_tensor L_A) e then _ else _) as [e1|]; [|discriminate].
  destruct (expand_antisymm lt false e1) as [e2|] eqn:E2; [|discriminate]. intros Em tm t Hin Ht.
  destruct (mapM_In _ _ _ Em tm Hin) as (tm2 & Hin2 & Ec).
  assert (Ef : factors tm = factors tm2).
  { unfold closed_shell_term in Ec. cbv zeta in Ec. destruct (substitute_ext groups _); [|discriminate]. destruct (substitute_ext groups _); [|discriminate]. destruct (count_cycles _ _); [|discriminate]. injection Ec as <-. reflexivity. }
  rewrite Ef in Ht. unfold expand_antisymm, concat_mapM in E2. unfold expr in *. destruct (mapM _ e1) as [ys|] eqn:E1; [|discriminate]. injection E2 as <-.
  apply in_concat in Hin2. destruct Hin2 as (y & Hy & Hin2). destruct (mapM_In _ _ _ E1 y Hy) as (tm1 & _ & Ey).
  unfold expand_antisymm_term in Ey. destruct (expand_factors _ _) as [e3|] eqn:E3; [|discriminate]. injection Ey as <-.
  apply in_map_iff in Hin2. destruct Hin2 as (tm3 & <- & Hin3). eapply expand_factors_symm; eauto.
Qed.

Theorem C73_closed_shell : forall (K : qalg) (O : Type) range vars (T : nat -> list O -> list O -> list O -> K) lt code,
  total_order lt -> column_symmetric T -> (forall i j, code i = code j -> i = j) ->
  forall full groups e, good_groups groups -> pairs groups ->
  (forall tm, In tm e -> good_term (names (concat groups)) tm /\
     incl (names (concat groups)) (orbital_indices (nonops (factors tm))) /\
     (full = false -> columns_are_groups groups tm)) ->
  exists e', closed_shell_spintrace lt code full groups e = Some e' /\
    (forall tm t, In tm e' -> In (Ten t) (factors tm) -> t_symm t <> Antisymm) /\
    forall b, spin_free_value range vars T (names (concat groups)) e' b =
              spin_traced_value range vars (spin_independent T) (map names groups) e b.
Proof.
  intros K O range vars T lt code TO CS CI full groups e H1 H2 H3. destruct (closed_shell_ok range vars T CS lt TO code CI full groups e H1 H2 H3) as (e' & E & Hv).
  exists e'. split; auto. split; auto. eapply closed_shell_symm; eauto.
Qed.

(** The two algorithms agree. *)
Theorem C73_algorithms_agree : forall (K : qalg) (O : Type) range vars (T : nat -> list O -> list O -> list O -> K) lt code,
  total_order lt -> column_symmetric T -> (forall i j, code i = code j -> i = j) ->
  forall full groups e, good_groups groups -> pairs groups ->
  (forall tm, In tm e -> good_term (names (concat groups)) tm /\
     incl (names (concat groups)) (orbital_indices (nonops (factors tm))) /\
     (full = false -> columns_are_groups groups tm)) ->
  (forall tm, In tm e -> no_aux (factors tm) /\
     length (summed (names (concat groups)) (orbital_indices (factors tm))) + length groups <= 63 /\
     forall t, In (Ten t) (nonops (factors tm)) -> t_symm t = Antisymm \/ length (t_bra t) <= 1) ->
  exists e1 e2, closed_shell_spintrace lt code full groups e = Some e1 /\ spintrace lt true groups e = Some e2 /\
    forall b, spin_free_value range vars T (names (concat groups)) e1 b = spin_free_value range vars T (names (concat groups)) e2 b.
Proof.
  intros K O range vars T lt code TO CS CI full groups e Hg Hp He Hx.
  destruct (C73_closed_shell K O range vars T lt code TO CS CI full groups e Hg Hp He) as (e1 & E1 & _ & H1).
  destruct (C72_spintrace_spinfree K O range vars T lt TO CS groups e Hg) as (e2 & E2 & _ & H2).
  { intros tm Ht. destruct (He tm Ht) as (G & _). destruct (Hx tm Ht) as (G1 & G2 & G3). auto. }
  exists e1, e2. split; auto. split; auto. intros b. rewrite H1, H2. reflexivity.
Qed.

(** *** C74: open-shell spin tracing *)

(** The result for the spin case [c] is the expression with the last [c] groups of external indices
    beta and the others alpha, summed over the spins of the internal indices. *)
Theorem C74_open_shell_partial : forall (K : qalg) (O : Type) range vars (T : nat -> list (O * bool) -> list (O * bool) -> list (O * bool) -> K) lt,
  total_order lt -> column_symmetric T -> spin_conserving T ->
  forall groups c s0 e, good_groups groups ->
  (forall tm, In tm e -> good_term (names (concat groups)) tm /\ no_aux (factors tm) /\
     length (summed (names (concat groups)) (orbital_indices (factors tm))) <= 63) ->
  (forall tm tm' x, In tm e -> In tm' e -> In x (summed (names (concat groups)) (orbital_indices (factors tm))) -> In x (orbital_indices (factors tm'))) ->
  (forall j h i, nth_error groups j = Some h -> In i h -> s0 (fst i) = negb (Nat.leb (length groups - c) j)) ->
  exists e', open_shell_spintrace lt groups c e = Some e' /\
    forall b, spin_labelled_value range vars T (names (concat groups)) e' b =
              spin_orbital_value range vars T (names (concat groups)) e b s0.
Proof. intros K O range vars T lt TO CS SC. exact (open_shell_ok range vars T lt TO CS SC). Qed.

(** *** C75: the signs of the results for the permutations of antisymmetric external indices *)

Theorem C75_signs_partial : forall lt, total_order lt -> forall l, NoDup l -> length l <= 2 ->
  exists r, wrap_trace_signs lt l = Some r /\ Permutation r (signed_perms l).
Proof.
  intros lt (irr & tr & tri) l N L. destruct l as [|i [|j [|k l]]]; [exists [(false, [])]; split; reflexivity|exists [(false, [i])]; split; reflexivity| |cbn in L; lia].
  unfold wrap_trace_signs. rewrite (sort_parity_ok lt (conj irr (conj tr tri))).
  assert (Hij : i <> j) by (inversion N as [|? ? G _]; subst; intros ->; apply G; left; auto).
  destruct (tri i j) as [?|[H|H]]; [contradiction| |].
  - assert (H' : lt j i = false). { destruct (lt j i) eqn:E; auto. rewrite <- (irr i). symmetry. eapply tr; eauto. }
    unfold set_of. cbn. rewrite ?H, ?H'. cbn. unfold permutation_loop, antisym_loop. cbn. rewrite ?H, ?H', ?irr. cbn. rewrite ?H, ?H', ?irr. cbn.
    eexists. split; [reflexivity|]. reflexivity.
  - assert (H' : lt i j = false). { destruct (lt i j) eqn:E; auto. rewrite <- (irr i). symmetry. eapply tr; eauto. }
    unfold set_of. cbn. rewrite ?H, ?H'. cbn. unfold permutation_loop, antisym_loop. cbn. rewrite ?H, ?H', ?irr. cbn. rewrite ?H, ?H', ?irr. cbn.
    eexists. split; [reflexivity|]. apply perm_swap.
Qed.

(** *** Examples and refutations *)
Module SpnExample.
  Definition Q_ring : ring_theory 0%Qc 1%Qc Qcplus Qcmult (fun x y => Qcplus x (Qcopp y)) Qcopp eq.
  Proof. exact Qcrt. Qed.
  (** The rational numbers. *)
  Definition QA : qalg := QAlg Qc 0%Qc 1%Qc Qcplus Qcmult Qcopp Q_ring (fun x => x) eq_refl (fun _ _ => eq_refl) (fun _ _ => eq_refl).

  (** Indices ordered by their number and then by their spin. *)
  Definition rank (s : spin) : nat := match s with any => 0 | alpha => 1 | beta => 2 end.
  Definition code (i : index) : nat := 3 * fst i + rank (snd i).
  Definition lt (i j : index) : bool := Nat.ltb (code i) (code j).
  Lemma code_inj i j : code i = code j -> i = j.
  Proof. destruct i as [n s], j as [m t]. unfold code. cbn [fst snd]. intros H. assert (n = m /\ rank s = rank t) as (-> & E) by (destruct s, t; cbn [rank] in *; lia). destruct s, t; try discriminate; reflexivity. Qed.
  Lemma lt_total : total_order lt.
  Proof.
    unfold total_order, lt. split; [intros i; apply Nat.ltb_irrefl|]. split.
    - intros i j k. rewrite !Nat.ltb_lt. lia.
    - intros i j. rewrite !Nat.ltb_lt. destruct (Nat.lt_trichotomy (code i) (code j)) as [H|[H|H]]; auto. left. apply code_inj, H.
  Qed.

  (** Components that depend on the values and are symmetric: the product over the columns. *)
  Definition T2 (n : nat) (b k x : list bool) : QA :=
    fold_right (fun c r => (if Bool.eqb (fst c) (snd c) then Q2Qc 2 else Q2Qc 3) * r)%Qc 1%Qc (combine b k).
  Lemma T2_symmetric : column_symmetric T2.
  Proof.
    intros n c d x P. unfold T2.
    assert (E : forall l : list (bool * bool), combine (map fst l) (map snd l) = l) by (induction l as [|[p q] l IH]; [reflexivity|cbn; f_equal; exact IH]).
    rewrite !E. induction P; cbn [fold_right]; try congruence. rewrite !Qcmult_assoc. f_equal. apply Qcmult_comm.
  Qed.
  Definition T2s := @spin_independent QA bool T2.
  Definition T1 (n : nat) (b k x : list unit) : QA := 1%Qc.
  Lemma T1_symmetric : column_symmetric T1.
  Proof. intros n c d x _. reflexivity. Qed.
  Definition T1s := @spin_independent QA unit T1.

  Definition i (n : nat) : index := (n, any).
  Definition up (n : nat) : index := (n, alpha).
  Definition dn (n : nat) : index := (n, beta).
  Definition ten n b k := Ten (Tensor (L_named n) b k [] Antisymm).
  Definition novars (v : nat) : QA := 1%Qc.
  Definition quarter : Qc := Q2Qc (1 # 4).

  Ltac nodup := repeat (constructor; [cbn; intuition discriminate|]); constructor.
  Ltac spinany := intros ? Hi; cbn in Hi; repeat (destruct Hi as [<-|Hi]; [reflexivity|]); destruct Hi.

  (** A doubles-like expression: (1/4) A g t. *)
  Definition AA := Ten (Tensor L_A [i 0; i 1] [i 2; i 3] [] Antisymm).
  Definition gt : term := Term quarter [AA; ten 0 [i 2; i 3] [i 4; i 5]; ten 1 [i 4; i 5] [i 0; i 1]].
  Definition groups := [[i 0; i 2]; [i 1; i 3]].

  Lemma groups_ok : good_groups groups /\ pairs groups.
  Proof. split; [split; [cbn; nodup|spinany]|]. intros g Hg. cbn in Hg. repeat (destruct Hg as [<-|Hg]; [reflexivity|]). destruct Hg. Qed.
  Lemma gt_good : good_term (names (concat groups)) gt /\ no_aux (factors gt) /\
    length (summed (names (concat groups)) (orbital_indices (factors gt))) + length groups <= 63 /\
    incl (names (concat groups)) (orbital_indices (nonops (factors gt))) /\ columns_are_groups groups gt /\
    (forall t, In (Ten t) (nonops (factors gt)) -> t_symm t = Antisymm \/ length (t_bra t) <= 1).
  Proof.
    split; [split|split; [|split; [|split; [|split]]]].
    - intros t Ht n El. cbn in Ht. destruct Ht as [E|[E|[E|[]]]]; injection E as <-; [discriminate| |];
        (split; [reflexivity|split; [cbn; nodup|split; [cbn; nodup|spinany]]]).
    - right. eexists. split; [reflexivity|split; [reflexivity|]]. split; [cbn; nodup|split; [spinany|split; [reflexivity|]]].
      intros x Hx. cbn in *. tauto.
    - intros t Ht. cbn in Ht. destruct Ht as [E|[E|[E|[]]]]; injection E as <-; reflexivity.
    - vm_compute. lia.
    - intros x Hx. cbn in *. tauto.
    - intros A HA El. cbn in HA. destruct HA as [E|[E|[E|[]]]]; injection E as <-; try discriminate.
      split; [reflexivity|split; [cbn; lia|]]. intros x y H. cbn in H. destruct H as [E|[E|[]]]; injection E as <- <-; left; cbn; auto.
    - intros t Ht. cbn in Ht. destruct Ht as [E|[E|[]]]; injection E as <-; left; reflexivity.
  Qed.

  Example C70_case : exists e, expand_antisymm lt false [Term quarter [ten 0 [i 0; i 1] [i 2; i 3]; Var 7]] = Some e /\ length e = 2 /\
    expandable_expr [Term quarter [ten 0 [i 0; i 1] [i 2; i 3]; Var 7]] /\
    (forall tm t, In tm [Term quarter [ten 0 [i 0; i 1] [i 2; i 3]; Var 7]] -> In (Ten t) (factors tm) -> spin_any (t_bra t ++ t_ket t)).
  Proof.
    eexists. split; [vm_compute; reflexivity|split; [reflexivity|]]. split.
    - intros tm t [<-|[]] Ht. cbn in Ht. destruct Ht as [E|[E|[]]]; [injection E as <-|discriminate]. cbn.
      split; [reflexivity|split; [nodup|split; [nodup|discriminate]]].
    - intros tm t [<-|[]] Ht. cbn in Ht. destruct Ht as [E|[E|[]]]; [injection E as <-|discriminate]. spinany.
  Qed.
  (** With spins only the conserving component is left. *)
  Example C70_labelled_case : exists e, expand_antisymm lt false [Term quarter [ten 0 [up 0; dn 1] [dn 2; up 3]]] = Some e /\ length e = 1 /\
    expandable_expr [Term quarter [ten 0 [up 0; dn 1] [dn 2; up 3]]] /\
    (forall tm t, In tm [Term quarter [ten 0 [up 0; dn 1] [dn 2; up 3]]] -> In (Ten t) (factors tm) -> is_operator (Ten t) = false /\ forall j, In j (t_bra t ++ t_ket t) -> snd j <> any).
  Proof.
    eexists. split; [vm_compute; reflexivity|split; [reflexivity|]]. split.
    - intros tm t [<-|[]] Ht. cbn in Ht. destruct Ht as [E|[]]. injection E as <-. cbn.
      split; [reflexivity|split; [nodup|split; [nodup|discriminate]]].
    - intros tm t [<-|[]] Ht. cbn in Ht. destruct Ht as [E|[]]. injection E as <-. split; [reflexivity|].
      intros j Hj. cbn in Hj. destruct Hj as [<-|[<-|[<-|[<-|[]]]]]; discriminate.
  Qed.
  (** Tensors that conserve the spin exist. *)
  Example C70_tensors : column_symmetric T2s /\ spin_conserving T2s /\ T2s 0 [(true, true); (false, false)] [(true, true); (true, false)] [] <> 0%Qc.
  Proof. split; [apply SI_column_symmetric, T2_symmetric|split; [apply SI_conserving|]]. intros H. apply (f_equal this) in H. vm_compute in H. discriminate H. Qed.

  Example C71_case : one_operator L_A gt /\ exists e, expand_A_op lt [gt] = Some e /\ length e = 4.
  Proof. split; [right; eexists; split; [reflexivity|split; [reflexivity|cbn; nodup]]|]. eexists. split; [vm_compute; reflexivity|reflexivity]. Qed.
  Example C71_symmetrize_case : exists e, symmetrize_expr lt [gt] = Some e /\ length e = 2 /\
    exists e', S_maps lt (map S_product e) = Some e' /\ length e' = 4.
  Proof. eexists. split; [vm_compute; reflexivity|split; [reflexivity|]]. eexists. split; [vm_compute; reflexivity|reflexivity]. Qed.
  Definition Pg : term := Term quarter [Ten (Tensor L_P [i 0; i 1] [] [] Nonsymm); ten 0 [i 0] [i 1]].
  Example C71_transposition_case : one_operator L_P Pg /\ expand_P_term lt Pg = Some [Term quarter [ten 0 [i 1] [i 0]]].
  Proof. split; [right; eexists; split; [reflexivity|split; [reflexivity|cbn; nodup]]|]. vm_compute. reflexivity. Qed.

  Definition b0 (n : nat) : unit := tt.
  Definition r0 (n : nat) : list unit := [tt].

  (** C71: a lone variable of a sum with a symmetrizer is lost. *)
  Definition with_variable : list summand :=
    [S_product (Term 1%Qc [Ten (Tensor L_S [i 0; i 1] [i 2; i 3] [] Nonsymm); Ten (Tensor (L_named 0) [i 0; i 1] [i 2; i 3] [] Nonsymm)]); S_variable 5].
  Theorem C71_lone_variable_refuted : ~ (forall (e : list summand),
    (forall s, In s e -> one_operator L_S (as_term s)) ->
    (forall s A, In s e -> In (Ten A) (factors (as_term s)) -> t_label A = L_S -> length (t_bra A) = length (t_ket A) /\ 1 < length (t_bra A)) ->
    exists e', S_maps lt e = Some e' /\ forall (a : index -> unit), expr_value T1 novars e' a = expr_value T1 novars (map as_term e) a).
  Proof.
    intros H. destruct (H with_variable) as (e' & E & Hv).
    - intros s [<-|[<-|[]]]; [right; eexists; split; [reflexivity|split; [reflexivity|cbn; nodup]]|left; reflexivity].
    - intros s A [<-|[<-|[]]] HA El; cbn in HA.
      + destruct HA as [E|[E|[]]]; injection E as <-; [cbn; lia|discriminate].
      + destruct HA as [E|[]]; discriminate.
    - vm_compute in E. injection E as <-. specialize (Hv (fun _ => tt)). apply (f_equal this) in Hv. vm_compute in Hv. discriminate Hv.
  Qed.

  (** C71: two transposition operators are added, not composed. *)
  Definition PP : term := Term 1%Qc [Ten (Tensor L_P [i 0; i 1] [] [] Nonsymm); Ten (Tensor L_P [i 2; i 3] [] [] Nonsymm); ten 0 [i 0; i 2] [i 1; i 3]].
  Theorem C71_two_transpositions_refuted : exists e', expand_P_term lt PP = Some e' /\
    ~ (forall a : index -> bool, expr_value T2 novars e' a = term_value T2 novars PP a).
  Proof.
    eexists. split; [vm_compute; reflexivity|]. intros H. specialize (H (fun j => Nat.eqb (fst j) 0 || Nat.eqb (fst j) 1)). apply (f_equal this) in H. vm_compute in H. discriminate H.
  Qed.

  (** C71: an antisymmetrizer with different numbers of bra and ket indices is not symmetrized. *)
  Theorem C71_unequal_ranks_refuted : one_operator L_A (Term 1%Qc [Ten (Tensor L_A [i 0; i 1] [i 2] [] Antisymm)]) /\
    symmetrize_expr lt [Term 1%Qc [Ten (Tensor L_A [i 0; i 1] [i 2] [] Antisymm)]] = None.
  Proof. split; [right; eexists; split; [reflexivity|split; [reflexivity|cbn; nodup]]|reflexivity]. Qed.

  (** C72 and C73: the traced expression meets the hypotheses; the values are not zero. *)
  Example C72_case : good_groups groups /\ good_term (names (concat groups)) gt /\ no_aux (factors gt) /\
    option_map (@length term) (spintrace lt true groups [gt]) = Some 48 /\
    option_map (@length term) (spintrace lt false groups [gt]) = Some 48 /\
    spin_traced_value r0 novars T1s (map names groups) [gt] b0 <> 0%Qc.
  Proof.
    destruct gt_good as (H1 & H2 & _). split; [apply groups_ok|split; [exact H1|split; [exact H2|split; [vm_compute; reflexivity|split; [vm_compute; reflexivity|]]]]].
    intros H. apply (f_equal this) in H. vm_compute in H. discriminate H.
  Qed.
  Example C73_case : pairs groups /\ incl (names (concat groups)) (orbital_indices (nonops (factors gt))) /\ columns_are_groups groups gt /\
    option_map (@length term) (closed_shell_spintrace lt code true groups [gt]) = Some 16 /\
    option_map (@length term) (closed_shell_spintrace lt code false groups [gt]) = Some 8.
  Proof.
    destruct gt_good as (_ & _ & _ & H3 & H4 & _). split; [apply groups_ok|split; [exact H3|split; [exact H4|split; vm_compute; reflexivity]]].
  Qed.

  (** C72: without the condition on the symmetry the spin-free result is wrong: a tensor of rank two
      that is not antisymmetric is kept for spins that are not conserved in each column. *)
  Definition exch : term := Term 1%Qc [Ten (Tensor (L_named 0) [i 0; i 1] [i 1; i 0] [] Nonsymm)].
  Theorem C72_nonsymm_refuted : ~ (forall groups e, good_groups groups ->
    (forall tm, In tm e -> good_term (names (concat groups)) tm /\ no_aux (factors tm) /\
       length (summed (names (concat groups)) (orbital_indices (factors tm))) + length groups <= 63) ->
    exists e', spintrace lt true groups e = Some e' /\
      forall b, spin_free_value r0 novars T1 (names (concat groups)) e' b =
                spin_traced_value r0 novars T1s (map names groups) e b).
  Proof.
    intros H. destruct (H [] [exch]) as (e' & E & Hv).
    - split; [constructor|intros ? []].
    - intros tm [<-|[]]. split; [split; [|left; reflexivity]|split].
      + intros t [E|[]] n _. injection E as <-. split; [reflexivity|split; [cbn; nodup|split; [cbn; nodup|spinany]]].
      + intros t [E|[]]. injection E as <-. reflexivity.
      + vm_compute. lia.
    - vm_compute in E. injection E as <-. specialize (Hv b0). apply (f_equal this) in Hv. vm_compute in Hv. discriminate Hv.
  Qed.
  (** The closed-shell algorithm gives the right number for it. *)
  Theorem C73_algorithms_disagree_refuted : exists e1 e2,
    closed_shell_spintrace lt code true [] [exch] = Some e1 /\ spintrace lt true [] [exch] = Some e2 /\
    spin_free_value r0 novars T1 [] e1 b0 = Q2Qc 2 /\ spin_free_value r0 novars T1 [] e2 b0 = Q2Qc 4.
  Proof. eexists. eexists. split; [vm_compute; reflexivity|split; [vm_compute; reflexivity|]]. split; apply Qc_is_canon; vm_compute; reflexivity. Qed.

  (** C72: each auxiliary index is given a spin and doubles the result. *)
  Definition withaux : term := Term 1%Qc [Ten (Tensor (L_named 0) [i 0] [i 0] [i 1] Nonsymm)].
  Theorem C72_auxiliary_refuted : ~ (forall groups e, good_groups groups ->
    (forall tm, In tm e -> good_term (names (concat groups)) tm /\
       length (summed (names (concat groups)) (orbital_indices (factors tm))) + length groups <= 63 /\
       forall t, In (Ten t) (nonops (factors tm)) -> t_symm t = Antisymm \/ length (t_bra t) <= 1) ->
    exists e', spintrace lt true groups e = Some e' /\
      forall b, spin_free_value r0 novars T1 (names (concat groups)) e' b =
                spin_traced_value r0 novars T1s (map names groups) e b).
  Proof.
    intros H. destruct (H [] [withaux]) as (e' & E & Hv).
    - split; [constructor|intros ? []].
    - intros tm [<-|[]]. split; [split; [|left; reflexivity]|split].
      + intros t [E|[]] n _. injection E as <-. split; [reflexivity|split; [cbn; nodup|split; [cbn; nodup|spinany]]].
      + vm_compute. lia.
      + intros t [E|[]]. injection E as <-. right. cbn. lia.
    - vm_compute in E. injection E as <-. specialize (Hv b0). apply (f_equal this) in Hv. vm_compute in Hv. discriminate Hv.
  Qed.

  Example C74_case : (forall j h x, nth_error groups j = Some h -> In x h -> (fun n => negb (Nat.eqb n 1 || Nat.eqb n 3)) (fst x) = negb (Nat.leb (length groups - 1) j)) /\
    option_map (@length term) (open_shell_spintrace lt groups 1 [gt]) = Some 8.
  Proof.
    split; [|vm_compute; reflexivity]. intros [|[|[|j]]] h x E Hx; try (injection E as <-); try discriminate E; cbn in Hx;
      repeat (destruct Hx as [<-|Hx]; [reflexivity|]); destruct Hx.
  Qed.

  (** C74: a term that lacks internal indices of another term is counted too often. *)
  Definition h1 : term := Term 1%Qc [ten 0 [i 0] [i 0]].
  Definition h2 : term := Term 1%Qc [ten 0 [i 0] [i 0]; ten 0 [i 1] [i 1]].
  Theorem C74_sums_refuted : ~ (forall groups c s0 e, good_groups groups ->
    (forall tm, In tm e -> good_term (names (concat groups)) tm /\ no_aux (factors tm) /\
       length (summed (names (concat groups)) (orbital_indices (factors tm))) <= 63) ->
    (forall j h i, nth_error groups j = Some h -> In i h -> s0 (fst i) = negb (Nat.leb (length groups - c) j)) ->
    exists e', open_shell_spintrace lt groups c e = Some e' /\
      forall b, spin_labelled_value r0 novars T1s (names (concat groups)) e' b =
                spin_orbital_value r0 novars T1s (names (concat groups)) e b s0).
  Proof.
    intros H. destruct (H [] 0 (fun _ => true) [h1; h2]) as (e' & E & Hv).
    - split; [constructor|intros ? []].
    - intros tm [<-|[<-|[]]]; (split; [split; [|left; reflexivity]|split]);
        try (intros t Ht; cbn in Ht; repeat (destruct Ht as [E|Ht]; [injection E as <-|]); try destruct Ht; reflexivity);
        try (vm_compute; lia);
        intros t Ht n _; cbn in Ht; repeat (destruct Ht as [E|Ht]; [injection E as <-; split; [reflexivity|split; [cbn; nodup|split; [cbn; nodup|spinany]]]|]); destruct Ht.
    - intros [|j] h x E; discriminate.
    - vm_compute in E. injection E as <-. specialize (Hv b0). apply (f_equal this) in Hv. vm_compute in Hv. discriminate Hv.
  Qed.

  Example C75_case : wrap_trace_signs lt [i 1; i 0] = Some [(true, [i 0; i 1]); (false, [i 1; i 0])].
  Proof. vm_compute. reflexivity. Qed.
  (** C75: with three indices the signs do not alternate. *)
  Theorem C75_three_indices_refuted : ~ (forall l, NoDup l ->
    exists r, wrap_trace_signs lt l = Some r /\ Permutation r (signed_perms l)).
  Proof.
    intros H. destruct (H [i 0; i 1; i 2]) as (r & E & P); [nodup|]. vm_compute in E. injection E as <-.
    assert (G : In (false, [i 1; i 0; i 2]) (signed_perms [i 0; i 1; i 2])) by (eapply Permutation_in; [exact P|cbn; auto]).
    cbn in G. repeat (destruct G as [G|G]; [discriminate G|]). destruct G.
  Qed.
End SpnExample.

Print Assumptions C70_spin_free.
Print Assumptions C73_algorithms_agree.
