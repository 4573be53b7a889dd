(** * Proofs about remove_tensor, has_tensor and transform_expr *)
From Coq Require Import List Bool Arith Lia QArith Qcanon.
From Verif Require Import Num_Model Num_Proofs1 Pop_Model Pop_Spec Pop_Proofs.
Import ListNotations.
Local Open Scope nat_scope.

Section V.
  Variable rho : nat -> list nat -> cplx.
  Variable sigma : nat -> cplx.
  Notation val := (val rho sigma).
  Notation vals l := (map val l).

  Definition pval (p : cplx * list expr) : cplx := c_mul (fst p) (prod (vals (snd p))).

  Fixpoint append_flat_list (s : cplx) (acc fs : list expr) : cplx * list expr :=
    match fs with [] => (s, acc) | x :: r => let '(s', acc') := prod_append_flat s acc x in append_flat_list s' acc' r end.
  Lemma append_flat_prod : forall s acc c fs, prod_append_flat s acc (EProd c fs) = append_flat_list (c_mul s c) acc fs.
  Proof.
    intros s acc c fs. cbn [prod_append_flat]. generalize (c_mul s c). clear s c. revert acc.
    induction fs as [|x fs IH]; intros acc s; cbn [append_flat_list]; [reflexivity|]. destruct (prod_append_flat s acc x). apply IH.
  Qed.
  Lemma pval_push : forall s acc e, pval (s, acc ++ [e]) = c_mul (pval (s, acc)) (val e).
  Proof. intros s acc e. unfold pval. cbn [fst snd]. rewrite map_app, prod_app. unfold prod. cbn [map fold_right]. ring. Qed.
  Lemma append_flat_val : forall e s acc, pval (prod_append_flat s acc e) = c_mul (pval (s, acc)) (val e).
  Proof.
    induction e as [t|c|v|c fs IH|ts IH] using expr_ind'; intros s acc.
    - apply pval_push.
    - cbn [prod_append_flat Pop_Spec.val]. unfold pval. cbn [fst snd]. ring.
    - apply pval_push.
    - rewrite append_flat_prod. cbn [Pop_Spec.val].
      assert (G : forall s acc, pval (append_flat_list s acc fs) = c_mul (pval (s, acc)) (prod (vals fs))).
      { clear s acc c. induction IH as [|x fs H _ IHl]; intros s acc; cbn [append_flat_list].
        - unfold prod at 1. cbn [map fold_right]. ring.
        - specialize (H s acc). destruct (prod_append_flat s acc x) as [s' acc']. rewrite IHl, H. unfold prod. cbn [map fold_right]. ring. }
      rewrite G. unfold pval. cbn [fst snd]. ring.
    - apply pval_push.
  Qed.

  (** remove_tensor *)
  Notation val1 l := (Pop_Spec.val (set_one l rho) sigma).
  Lemma remove_factors_val : forall l fs s acc, forallb is_atom fs = true ->
    pval (remove_factors l s acc fs) = c_mul (pval (s, acc)) (prod (map (val1 l) fs)).
  Proof.
    intros l. induction fs as [|x fs IH]; intros s acc A; cbn [remove_factors].
    - unfold prod at 1. cbn [map fold_right]. ring.
    - cbn [forallb] in A. apply andb_true_iff in A. destruct A as [A1 A2].
      destruct (is_labelled l x) eqn:L.
      + rewrite (IH _ _ A2). unfold prod at 2. cbn [map fold_right].
        assert (X : val1 l x = c1) by (destruct x; try discriminate; cbn in *; unfold set_one; now rewrite L).
        rewrite X. fold (prod (map (val1 l) fs)). ring.
      + pose proof (append_flat_val x s acc) as P. destruct (prod_append_flat s acc x) as [s' acc']. rewrite (IH _ _ A2), P.
        assert (X : val1 l x = val x) by (destruct x; try discriminate; cbn in *; unfold set_one; now rewrite ?L).
        unfold prod at 2. cbn [map fold_right]. rewrite X. fold (prod (map (val1 l) fs)). ring.
  Qed.

  Lemma remove_term : forall l e, flat_term e = true -> val (remove_tensor l e) = val1 l e.
  Proof.
    intros l e F. destruct e; cbn [flat_term] in F; try discriminate; cbn [remove_tensor Pop_Spec.val]; try reflexivity.
    - unfold set_one. destruct (Nat.eqb (t_label t) l); reflexivity.
    - pose proof (remove_factors_val l factors scalar [] F) as P. destruct (remove_factors l scalar [] factors) as [s acc].
      cbn [Pop_Spec.val]. unfold pval in P. cbn [fst snd] in P. rewrite P. unfold prod at 1. cbn [map fold_right]. ring.
  Qed.

  Theorem remove_flat : forall l e, flat e = true -> val (remove_tensor l e) = val1 l e.
  Proof.
    intros l e F. destruct e as [t|c|v|c fs|ts]; try (now apply remove_term). cbn [flat] in F. cbn [remove_tensor Pop_Spec.val].
    assert (G : forall acc, total (vals ((fix go acc ts := match ts with [] => acc | x :: r => go (sum_append acc (remove_tensor l x)) r end) acc ts))
               = c_add (total (vals acc)) (total (map (val1 l) ts))).
    { induction ts as [|x ts IH]; intros acc; [unfold total; cbn [map fold_right]; ring|].
      cbn [forallb] in F. apply andb_true_iff in F. destruct F as [F1 F2]. rewrite (IH F2), sum_append_val, (remove_term l x F1).
      unfold total. cbn [map fold_right]. ring. }
    rewrite G. unfold total. cbn [map fold_right]. ring.
  Qed.

  (** transform_expr *)
  Notation valr m := (Pop_Spec.val (renamed m rho) sigma).
  Lemma transform_factors_val : forall m fs s acc r, transform_factors m s acc fs = Some r ->
    pval r = c_mul (pval (s, acc)) (prod (map (valr m) fs)).
  Proof.
    intros m. induction fs as [|x fs IH]; intros s acc r E; cbn [transform_factors] in E.
    - injection E as <-. unfold prod. cbn [map fold_right]. ring.
    - unfold prod. cbn [map fold_right]. fold (prod (map (valr m) fs)). destruct x; try discriminate; rewrite (IH _ _ _ E).
      + rewrite pval_push. cbn [Pop_Spec.val transform_tensor t_label t_idx]. unfold renamed at 2. ring.
      + unfold pval. cbn [fst snd Pop_Spec.val]. ring.
      + rewrite pval_push. cbn [Pop_Spec.val]. ring.
  Qed.
  Lemma transform_factors_some : forall m fs s acc, (exists r, transform_factors m s acc fs = Some r) <-> forallb is_atom fs = true.
  Proof.
    intros m. induction fs as [|x fs IH]; intros s acc; cbn [transform_factors forallb].
    - split; [reflexivity|]. intros _. eexists. reflexivity.
    - destruct x; cbn [is_atom andb]; try apply IH; (split; [intros (r & E); discriminate|discriminate]).
  Qed.

  Fixpoint transform_list (m : list (nat * nat)) (k : cplx) (acc ts : list expr) : option expr :=
    match ts with [] => Some (ESum acc) | x :: r => match transform m k x with None => None | Some x' => transform_list m k (sum_append acc x') r end end.
  Lemma transform_sum : forall m k ts, transform m k (ESum ts) = transform_list m k [] ts.
  Proof.
    intros m k ts. cbn [transform]. generalize (@nil expr) as acc. induction ts as [|x ts IH]; intros acc; cbn [transform_list]; [reflexivity|].
    destruct (transform m k x); [apply IH|reflexivity].
  Qed.

  Theorem transform_val : forall m k e e', transform m k e = Some e' -> val e' = c_mul k (valr m e).
  Proof.
    intros m k. induction e as [t|c|v|c fs IH|ts IH] using expr_ind'; intros e' E.
    - cbn [transform] in E. injection E as <-. destruct (c_is_identity k) eqn:I.
      + apply is_identity_true in I. subst k. cbn [Pop_Spec.val transform_tensor t_label t_idx]. unfold renamed. ring.
      + cbn [Pop_Spec.val map transform_tensor t_label t_idx]. unfold prod, renamed. cbn [fold_right]. ring.
    - cbn [transform] in E. injection E as <-. destruct (c_is_identity k) eqn:I.
      + apply is_identity_true in I. subst k. cbn [Pop_Spec.val]. ring.
      + cbn [Pop_Spec.val map]. unfold prod. cbn [fold_right]. ring.
    - cbn [transform] in E. injection E as <-. destruct (c_is_identity k) eqn:I.
      + apply is_identity_true in I. subst k. cbn [Pop_Spec.val]. ring.
      + cbn [Pop_Spec.val map]. unfold prod. cbn [fold_right]. ring.
    - cbn [transform] in E. destruct (transform_factors m c [] fs) as [[s acc]|] eqn:F; [|discriminate]. injection E as <-.
      apply transform_factors_val in F. unfold pval in F. cbn [fst snd] in F. cbn [Pop_Spec.val].
      transitivity (c_mul k (c_mul s (prod (vals acc)))); [ring|]. rewrite F. unfold prod at 1. cbn [map fold_right]. ring.
    - rewrite transform_sum in E. cbn [Pop_Spec.val].
      assert (G : forall acc, transform_list m k acc ts = Some e' -> val e' = c_add (total (vals acc)) (c_mul k (total (map (valr m) ts)))).
      { clear E. induction IH as [|x ts H _ IHl]; intros acc E; cbn [transform_list] in E.
        - injection E as <-. cbn [Pop_Spec.val]. unfold total at 3. cbn [map fold_right]. ring.
        - destruct (transform m k x) as [x'|] eqn:X; [|discriminate]. rewrite (IHl _ E), sum_append_val, (H _ Logic.eq_refl).
          unfold total. cbn [map fold_right]. ring. }
      rewrite (G _ E). unfold total at 1. cbn [map fold_right]. ring.
  Qed.

  Theorem transform_some : forall m k e, (exists e', transform m k e = Some e') <-> transformable e = true.
  Proof.
    intros m k. induction e as [t|c|v|c fs IH|ts IH] using expr_ind'; try (split; [reflexivity|]; intros _; eexists; reflexivity).
    - cbn [transform transformable]. rewrite <- (transform_factors_some m fs c []).
      destruct (transform_factors m c [] fs) as [[s acc]|].
      + split; intros _; eexists; reflexivity.
      + split; intros (r & E); discriminate.
    - rewrite transform_sum. cbn [transformable]. generalize (@nil expr) as acc. induction IH as [|x ts H _ IHl]; intros acc; cbn [transform_list forallb].
      + split; [reflexivity|]. intros _. eexists. reflexivity.
      + destruct (transform m k x) as [x'|] eqn:X.
        * rewrite (proj1 H (ex_intro _ x' Logic.eq_refl)). cbn [andb]. apply IHl.
        * assert (T : transformable x = false).
          { destruct (transformable x) eqn:T; [|reflexivity]. destruct (proj2 H Logic.eq_refl) as (y & E). discriminate. }
          rewrite T. cbn [andb]. split; [intros (r & E); discriminate|discriminate].
  Qed.
End V.

Lemma atom_labelled : forall l x, is_atom x = true -> (is_labelled l x = false <-> absent l x).
Proof.
  intros l x A. destruct x; try discriminate; cbn; try (split; auto; fail).
  destruct (Nat.eqb_spec (t_label t) l); split; intros; congruence.
Qed.
Lemma has_term : forall l e, flat_term e = true -> (has_tensor l e = false <-> absent l e).
Proof.
  intros l e F. destruct e as [t|c|v|c fs|ts]; try discriminate.
  1: exact (atom_labelled l (ETensor t) Logic.eq_refl).
  1: exact (atom_labelled l (EConst c) Logic.eq_refl).
  1: exact (atom_labelled l (EVar v) Logic.eq_refl).
  cbn [has_tensor].
  cbn [flat_term absent] in *. rewrite all_and. induction fs as [|x fs IH]; [cbn; split; auto|].
  cbn [forallb existsb] in *. apply andb_true_iff in F. destruct F as [F1 F2]. rewrite orb_false_iff, (IH F2), (atom_labelled l x F1).
  split; [intros [? ?]; now constructor|]. intros H. inversion H. now split.
Qed.
Theorem has_flat : forall l e, flat e = true -> (has_tensor l e = false <-> absent l e).
Proof.
  intros l e F. destruct e as [t|c|v|c fs|ts]; try (now apply has_term). cbn [flat has_tensor absent] in *. rewrite all_and.
  induction ts as [|x ts IH]; [cbn; split; auto|]. cbn [forallb existsb] in *. apply andb_true_iff in F. destruct F as [F1 F2].
  rewrite orb_false_iff, (IH F2), (has_term l x F1). split; [intros [? ?]; now constructor|]. intros H. inversion H. now split.
Qed.
