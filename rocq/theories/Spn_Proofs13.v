(** Removal of spin labels; expansion of expressions. *)
From Coq Require Import ZArith NArith QArith Qcanon List Arith Bool Permutation Sorted Relations Lia Ring.
From Verif Require Import Alg_Model Alg_Spec Alg_Proofs1 Alg_Proofs2 Alg_Proofs3 Spn_Model Spn_Spec Spn_Proofs1 Spn_Proofs2 Spn_Proofs3 Spn_Proofs4 Spn_Proofs5 Spn_Proofs6 Spn_Proofs7 Spn_Proofs8 Spn_Proofs9 Spn_Proofs10 Spn_Proofs11 Spn_Proofs12.
Import ListNotations.
Local Open Scope nat_scope.

Lemma mapM_ext {X Y} (f g : X -> option Y) l : (forall x, f x = g x) -> mapM f l = mapM g l.
Proof. intros H. induction l as [|x l IH]; cbn; auto. rewrite H, IH. auto. Qed.
Lemma concat_mapM_map {X Y} (f : X -> option (list Y)) (g : Y -> Y) l : concat_mapM (fun x => option_map (map g) (f x)) l = option_map (map g) (concat_mapM f l).
Proof.
  unfold concat_mapM. induction l as [|x l IH]; cbn; auto. destruct (f x) as [y|]; cbn; auto.
  destruct (mapM (fun x => option_map (map g) (f x)) l) as [ys|], (mapM f l) as [zs|]; cbn in *; try discriminate; auto.
  injection IH as IH. rewrite IH, map_app. auto.
Qed.

Lemma spintrace_spinfree lt groups e : spintrace lt true groups e = option_map (map remove_spin) (spintrace lt false groups e).
Proof.
  unfold spintrace. destruct (expand_A_op lt e) as [e1|]; auto. rewrite <- concat_mapM_map. unfold concat_mapM. f_equal. apply mapM_ext. intros tm.
  unfold trace_product. cbv zeta. destruct (spincases lt _) as [cs|]; auto.
  transitivity (concat_mapM (fun m => option_map (map remove_spin) (spintrace_product lt (rename_term (lookup m) tm))) cs).
  - reflexivity.
  - rewrite concat_mapM_map. f_equal. unfold concat_mapM. f_equal. apply mapM_ext. intros m. destruct (spintrace_product _ _); auto.
Qed.

Section Remove.
  Context {K : qalg} {O : Type}.
  Local Open Scope q_scope.
  Add Ring Kring21 : (qring K).
  Variable range : nat -> list O.
  Variable vars : nat -> K.
  Variable T : nat -> list O -> list O -> list O -> K.
  Notation SI := (spin_independent T).

  Lemma remove_spin_names fs : all_indices (map remove_spin_factor fs) = all_indices fs.
  Proof.
    unfold all_indices. rewrite flat_map_concat_map, map_map, <- flat_map_concat_map. induction fs as [|[t|v] fs IH]; cbn; auto. rewrite IH. f_equal.
    rewrite !map_app, !map_map. reflexivity.
  Qed.
  Lemma remove_spin_ops fs : filter is_operator fs = [] -> filter is_operator (map remove_spin_factor fs) = [].
  Proof. induction fs as [|[t|v] fs IH]; cbn; auto. destruct (t_label t); try discriminate; auto. Qed.

  Lemma remove_spin_value tm b : filter is_operator (factors tm) = [] -> (forall t, In (Ten t) (factors tm) -> spin_pure t) ->
    term_value T vars (remove_spin tm) (fun i => b (fst i)) = term_value SI vars tm (lab b).
  Proof.
    intros Ho Hp. unfold term_value. cbn [remove_spin scalar factors]. rewrite !ops_none by (auto; apply remove_spin_ops; auto). f_equal.
    unfold product_value, prod. revert Ho Hp. generalize (factors tm). intros fs Ho Hp.
    induction fs as [|x fs IH]; cbn [fold_right map]; auto. cbn in Ho. destruct (is_operator x) eqn:Ex; [discriminate|].
    rewrite IH by (auto; intros; apply Hp; right; auto). f_equal. destruct x as [t|v]; cbn; auto.
    cbn in Ex. destruct (t_label t) as [| | |n]; try discriminate.
    destruct (Hp t (or_introl eq_refl)) as (H1 & H2 & H3). unfold tensor_value. cbn [remove_spin_tensor t_symm t_bra t_ket t_aux].
    destruct (t_symm t) eqn:Es; [| |destruct H1; reflexivity]; unfold spin_independent; rewrite conserving_lab, H3 by auto; rewrite !map_map; reflexivity.
  Qed.

  Variable lt : index -> index -> bool.
  Hypothesis TO : total_order lt.
  Hypothesis CS : column_symmetric T.

  Lemma spintrace_free_ok groups e : good_groups groups ->
    (forall tm, In tm e -> good_term (names (concat groups)) tm /\ no_aux (factors tm) /\
       (length (summed (names (concat groups)) (orbital_indices (factors tm))) + length groups <= 63)%nat /\
       forall t, In (Ten t) (nonops (factors tm)) -> t_symm t = Antisymm \/ (length (t_bra t) <= 1)%nat) ->
    exists e', spintrace lt true groups e = Some e' /\
      forall b, spin_free_value range vars T (names (concat groups)) e' b = spin_traced_value range vars SI (map names groups) e b.
  Proof.
    intros Hgr He. destruct (spintrace_ok range vars SI lt TO (SI_column_symmetric T CS) (SI_conserving T) groups e Hgr) as (e' & Ee & Hp & Hv).
    { intros tm Hin. destruct (He tm Hin) as (H1 & H2 & H3 & _). auto. }
    rewrite spintrace_spinfree, Ee. cbn [option_map]. eexists. split; [reflexivity|]. intros b. rewrite <- Hv.
    unfold spin_free_value, spin_labelled_value. rewrite sum_map. apply sum_ext. intros tm' Hin. cbn [remove_spin factors]. rewrite remove_spin_names.
    apply index_sum_ext. intros b'. destruct (Hp tm' Hin) as (Ho & Hs). apply (remove_spin_value tm' b' Ho). apply Hs.
    intros tm t Ht Hin' Eo. destruct (He tm Ht) as (_ & _ & _ & H). apply H. unfold nonops. apply filter_In. split; auto. rewrite Eo. auto.
  Qed.
End Remove.

(** *** Expressions *)
Section Exprs.
  Context {K : qalg} {V : Type}.
  Local Open Scope q_scope.
  Variable T : nat -> list V -> list V -> list V -> K.
  Variable vars : nat -> K.

  Lemma lift_expr (f : term -> option expr) e (P : term -> Prop) a :
    (forall tm, In tm e -> exists y, f tm = Some y /\ (forall tm', In tm' y -> P tm') /\ expr_value T vars y a = term_value T vars tm a) ->
    exists e', concat_mapM f e = Some e' /\ (forall tm', In tm' e' -> P tm') /\ expr_value T vars e' a = expr_value T vars e a.
  Proof.
    intros H. destruct (concat_mapM_total f e) as (E & HV); [intros tm Ht; destruct (H tm Ht) as (y & Ey & _); eauto|].
    eexists. split; [exact E|]. split.
    - intros tm' Hin. apply in_flat_map in Hin. destruct Hin as (tm & Ht & Hin). destruct (H tm Ht) as (y & Ey & Hy & _). rewrite (HV tm Ht) in Ey. injection Ey as Ey. rewrite Ey in Hin. auto.
    - unfold expr_value. rewrite sum_flat_map. apply sum_ext. intros tm Ht. destruct (H tm Ht) as (y & Ey & _ & Hy). rewrite (HV tm Ht) in Ey. injection Ey as ->. exact Hy.
  Qed.
End Exprs.
