(** Replacing a leaf by an expression with new summation indices, alone and within a product. *)
From Coq Require Import List Bool Arith Lia Ring Ring_theory Permutation.
From Verif Require Import Wick_Spec Idx_Model Bin_Spec Bin_Sums Expr_Model Expr_Spec Expr_Proofs1 Df_Model Df_Spec Df_Poly.
Import ListNotations.

Section Replace.
  Variable k : kops.
  Variable ksub : K k -> K k -> K k.
  Hypothesis RT : ring_theory (k0 k) (k1 k) (kadd k) (kmul k) ksub (kopp k) eq.
  Hypothesis EQ : forall x y, keqb k x y = true <-> x = y.
  Declare Scope kscope.
  Notation "0" := (k0 k) : kscope.
  Notation "1" := (k1 k) : kscope.
  Notation "x + y" := (kadd k x y) : kscope.
  Notation "x * y" := (kmul k x y) : kscope.
  Notation "- x" := (kopp k x) : kscope.
  Local Open Scope kscope.
  Add Ring Kring31 : RT.
  Lemma SR : semi_ring_theory (k0 k) (k1 k) (kadd k) (kmul k) eq.
  Proof. constructor; intros; ring. Qed.

  Variable protos : idx -> list idx.
  Variable dom : idx -> list nat.
  Variable tv : nat -> symm -> list (list nat) -> list (list nat) -> list (list nat) -> K k.
  Variable ov : nat -> list (list nat) -> K k.
  Notation a := (leaf_ops k).
  Notation At := (A (leaf_ops k)).
  Notation E := (expr (K k) (A (leaf_ops k))).
  Notation ksum := (ksum (K k) (k0 k) (kadd k)).
  Notation kprod := (kprod (K k) (k1 k) (kmul k)).
  Notation sum_over := (sum_over (K k) (k0 k) (kadd k) dom).
  Notation leaf_value := (leaf_value k protos tv ov).
  Notation indices := (indices protos).
  Notation dummies := (dummies protos).
  Notation TV := (term_value k protos dom tv ov).
  Notation poly := (poly k a).
  Notation polys := (polys k a).
  Notation lin := (lin k a).
  Notation leaves := (leaves k At).
  Notation ok := (@Expr_Spec.ok k a).

  Definition pr (t : list At) (r : env) : K k := kprod (map (fun x => leaf_value x r) t).
  Definition ixs (t : list At) : list idx := flat_map indices t.

  Lemma kprod_app l m : kprod (l ++ m) = kprod l * kprod m.
  Proof. induction l; cbn; [ring|]. rewrite IHl. ring. Qed.
  Lemma pr_app t u r : pr (t ++ u) r = pr t r * pr u r.
  Proof. unfold pr. rewrite map_app. apply kprod_app. Qed.
  Lemma ixs_app t u : ixs (t ++ u) = ixs t ++ ixs u. Proof. apply flat_map_app. Qed.
  Lemma slot_local r r' x : (forall y, In y (x :: protos x) -> r y = r' y) -> slot_value protos r x = slot_value protos r' x.
  Proof. intros H. unfold slot_value. f_equal; [apply H; left; auto|]. apply map_ext_in. intros y Hy. apply H. right; auto. Qed.
  Lemma slots_local r r' l : (forall y, In y (flat_map (fun i => i :: protos i) l) -> r y = r' y) -> map (slot_value protos r) l = map (slot_value protos r') l.
  Proof. intros H. apply map_ext_in. intros x Hx. apply slot_local. intros y Hy. apply H. apply in_flat_map. eauto. Qed.
  Lemma leaf_local r r' x : (forall y, In y (indices x) -> r y = r' y) -> leaf_value x r = leaf_value x r'.
  Proof.
    unfold indices. destruct x as [l s b q c|n ix]; cbn [slots Df_Spec.leaf_value]; intros H; [|f_equal; apply slots_local; auto].
    rewrite !flat_map_app in H. f_equal; apply slots_local; intros y Hy; apply H; rewrite !in_app_iff; auto.
  Qed.
  Lemma pr_local r r' t : (forall y, In y (ixs t) -> r y = r' y) -> pr t r = pr t r'.
  Proof. intros H. unfold pr. f_equal. apply map_ext_in. intros x Hx. apply leaf_local. intros y Hy. apply H. apply in_flat_map. eauto. Qed.
  Lemma pr_ext t : ext (K k) (pr t).
  Proof. intros r r' H. apply pr_local. auto. Qed.
  Lemma mem_In x l : mem x l = true <-> In x l.
  Proof. unfold mem. rewrite existsb_exists. split; [intros (y & H & E); apply Nat.eqb_eq in E; subst; auto|]. intros H. exists x. split; auto. apply Nat.eqb_refl. Qed.
  Lemma In_dummies ext t x : In x (dummies ext t) <-> In x (ixs t) /\ ~ In x ext.
  Proof.
    unfold dummies. rewrite filter_In, nodup_In, negb_true_iff. unfold ixs. rewrite <- (mem_In x ext). destruct (mem x ext); intuition congruence.
  Qed.
  Lemma NoDup_dummies ext t : NoDup (dummies ext t).
  Proof. apply NoDup_filter, NoDup_nodup. Qed.
  Lemma NoDup_join {X} (l m : list X) : NoDup l -> NoDup m -> (forall x, In x l -> ~ In x m) -> NoDup (l ++ m).
  Proof.
    induction 1 as [|x l H1 H2 IH]; intros Hm H; cbn; auto. constructor.
    - rewrite in_app_iff. intros [Q|Q]; auto. apply (H x); [left|]; auto.
    - apply IH; auto. intros y Hy. apply H. right; auto.
  Qed.

  Lemma sum_over_lin ys (l : list (term k At)) (F : list At -> env -> K k) r :
    sum_over ys (fun r => lin l (fun t => F t r)) r = lin l (fun t => sum_over ys (F t) r).
  Proof.
    revert r. induction ys as [|y ys IH]; intros r; cbn [Bin_Spec.sum_over].
    - apply (lin_ext k a); auto.
    - rewrite (ksum_ext _ (k0 k) (kadd k) _ (fun v => lin l (fun t => sum_over ys (F t) (set r y v)))) by (intros; apply IH).
      unfold Df_Poly.lin. rewrite (ksum_swap _ _ _ _ _ SR). apply ksum_ext. intros t _.
      rewrite (ksum_ext _ (k0 k) (kadd k) _ (fun x => sum_over ys (F (snd t)) (set r y x) * fst t)) by (intros; ring).
      rewrite (ksum_mul_r _ _ _ _ _ SR). ring.
  Qed.

  (** A term with new summation indices [ys] in the middle. *)
  Lemma term_split ext u m' t w r ys : NoDup ys ->
    (forall x, In x ys -> ~ In x ext /\ ~ In x (ixs u) /\ ~ In x (ixs w) /\ ~ In x (ixs t)) ->
    (forall x, In x (ixs m') <-> In x (ixs t) \/ In x ys) ->
    TV ext (u ++ m' ++ w) r = sum_over (dummies ext (u ++ t ++ w)) (fun r => sum_over ys (pr m') r * (pr u r * pr w r)) r.
  Proof.
    intros ND Hf Hm. unfold term_value.
    rewrite (sum_over_same _ _ _ _ _ SR dom _ (dummies ext (u ++ t ++ w) ++ ys)).
    - rewrite sum_over_app. apply sum_over_ext. intros r'.
      rewrite <- (sum_over_mul_r _ _ _ _ _ SR _ ys (pr m') (fun r => pr u r * pr w r) r').
      + apply sum_over_ext. intros r''. fold (pr (u ++ m' ++ w) r''). rewrite !pr_app. ring.
      + intros r'' x v Hx. destruct (Hf x Hx) as (_ & Hu & Hw & _). f_equal; apply pr_local; intros y Hy; unfold set; destruct (Nat.eqb_spec y x) as [->|]; auto; tauto.
    - apply (pr_ext (u ++ m' ++ w)).
    - apply NoDup_dummies.
    - apply NoDup_join; auto using NoDup_dummies. intros x Hx Hy. apply In_dummies in Hx as [Hx _]. rewrite !ixs_app, !in_app_iff in Hx. specialize (Hf x Hy). tauto.
    - intros x. rewrite in_app_iff, !In_dummies, !ixs_app, !in_app_iff, Hm. specialize (Hf x). tauto.
  Qed.

  (** [e] and [e'] have the same value in all terms that do not use the indices [Y]. *)
  Definition ceq (Y : idx -> Prop) (e e' : E) : Prop := forall ext u w r,
    (forall x, Y x -> ~ In x ext /\ ~ In x (ixs u) /\ ~ In x (ixs w)) ->
    poly e' (fun t => TV ext (u ++ t ++ w) r) = poly e (fun t => TV ext (u ++ t ++ w) r).

  Lemma leaf_ceq (Y : idx -> Prop) ys x e' ts : NoDup ys -> (forall y, In y ys -> Y y) -> (forall y, In y ys -> ~ In y (indices x)) ->
    (forall F, poly e' F = lin ts F) ->
    (forall t, In t ts -> forall y, In y (ixs (snd t)) <-> In y (indices x) \/ In y ys) ->
    (forall r, leaf_value x r = lin ts (fun t => sum_over ys (pr t) r)) -> ceq Y (EAtom x) e'.
  Proof.
    intros ND HY Hx He Ht Hv ext u w r Hf. rewrite He, (poly_atom k ksub RT a).
    rewrite (lin_ext k a ts _ (fun t => sum_over (dummies ext (u ++ [x] ++ w)) (fun r => sum_over ys (pr t) r * (pr u r * pr w r)) r)).
    - rewrite <- sum_over_lin. unfold term_value. apply sum_over_ext. intros r'.
      symmetry. transitivity (pr (u ++ [x] ++ w) r'); [reflexivity|]. rewrite !pr_app. unfold pr at 2. cbn [map Bin_Spec.kprod]. rewrite Hv.
      transitivity (lin ts (fun t => (pr u r' * pr w r') * sum_over ys (pr t) r')).
      + rewrite (lin_scale k ksub RT a). ring.
      + apply (lin_ext k a). intros t _. apply (ARmul_comm (Rth_ARth (Eqsth (K k)) (Eq_ext (kadd k) (kmul k) (kopp k)) RT)).
    - intros t Hin. apply term_split; auto.
      + intros y Hy. specialize (Hf y (HY y Hy)). assert (~ In y (ixs [x])) by (unfold ixs; cbn; rewrite app_nil_r; auto). tauto.
      + intros y. rewrite (Ht t Hin). unfold ixs. cbn. rewrite app_nil_r. tauto.
  Qed.
  Lemma ceq_refl Y e : ceq Y e e. Proof. intros ext u w r _. reflexivity. Qed.

  Lemma expanded_leaves (e : E) : forall t, In t (expanded k At e) -> incl (snd t) (leaves e).
  Proof.
    induction e as [z|y|kd s fs IH|ci ss IH|] using expr_ind'; intros t Ht; cbn [expanded] in Ht.
    - destruct Ht as [<-|[]]. intros ? [].
    - destruct Ht as [<-|[]]. intros ? H; exact H.
    - assert (G : forall t, In t (fold_right (fun f acc => cross k At (expanded k At f) acc) [(1, [])] fs) -> incl (snd t) (flat_map leaves fs)).
      { clear t Ht. induction IH as [|f fs Hf IH IHH]; cbn [fold_right]; intros t Ht; [destruct Ht as [<-|[]]; intros ? []|].
        apply in_flat_map in Ht as (u & Hu & Ht). apply in_map_iff in Ht as (v & <- & Hv). cbn. apply incl_app; [apply incl_appl; auto|apply incl_appr; auto]. }
      apply in_flat_map in Ht as (u & Hu & Ht). apply in_map_iff in Ht as (v & <- & Hv). destruct Hu as [<-|[]]. cbn. apply G. exact Hv.
    - apply in_flat_map in Ht as (x & Hx & Ht). rewrite Forall_forall in IH. intros y Hy. cbn. apply in_flat_map. exists x. split; auto. apply (IH x Hx t Ht). exact Hy.
    - destruct Ht.
  Qed.
  Lemma cr_leaves fs t : In t (cr k a fs) -> incl (snd t) (flat_map leaves fs).
  Proof. intros Ht. apply (expanded_leaves (EProd PPlain 1 fs) (1 * fst t, snd t)). cbn. apply in_app_iff. left. apply in_map_iff. exists t. auto. Qed.

  Definition eixs (e : E) : list idx := ixs (leaves e).
  Lemma ixs_incl t u : incl t u -> incl (ixs t) (ixs u).
  Proof. intros H y Hy. apply in_flat_map in Hy as (x & Hx & Hy). apply in_flat_map. eauto. Qed.

  (** *** The loop over the factors of a product *)
  Section Loop.
    Context {S : Type}.
    Variable step : S -> E -> E * ftag * S.
    (** The indices that may still be introduced. *)
    Variable fresh : S -> idx -> Prop.

    Definition good_step (st : S) (f : E) : Prop := let '(g, tag, st') := step st f in
      ok g /\ ceq (fresh st) f g /\ (forall x, fresh st' x -> fresh st x) /\
      (forall x, In x (eixs g) -> In x (eixs f) \/ (fresh st x /\ ~ fresh st' x)).

    Lemma build_ok fs : (forall st f, In f fs -> (forall x, fresh st x -> ~ In x (eixs f)) -> good_step st f) ->
      forall st p, okp k a p -> (forall x, fresh st x -> forall f, In f fs -> ~ In x (eixs f)) ->
      (forall x, fresh st x -> ~ In x (ixs (lin_leaves k a (snd p)))) ->
      let q := build k step st fs p in
      okp k a (fst q) /\
      (forall x, fresh (snd q) x -> fresh st x) /\
      (forall x, In x (ixs (lin_leaves k a (snd (fst q)))) -> In x (ixs (lin_leaves k a (snd p))) \/ In x (ixs (flat_map leaves fs)) \/ (fresh st x /\ ~ fresh (snd q) x)) /\
      forall ext u w r, (forall x, fresh st x -> ~ In x ext /\ ~ In x (ixs u) /\ ~ In x (ixs w)) ->
        pv k a (fst q) (fun t => TV ext (u ++ t ++ w) r) = pv k a p (fun t => polys fs (fun v => TV ext (u ++ (t ++ v) ++ w) r)).
    Proof.
      induction fs as [|f fs IH]; intros Hs st p Hp Hfs Hpi; cbn [build].
      - cbn [fst snd]. repeat split; auto. intros ext u w r _. apply (pv_ext k a). intros t. rewrite (polys_nil k ksub RT a), app_nil_r. reflexivity.
      - pose proof (Hs st f (or_introl eq_refl) (fun x Hx => Hfs x Hx f (or_introl eq_refl))) as G. unfold good_step in G.
        destruct (step st f) as [[g tag] st'] eqn:Es. destruct G as (Gok & Gc & Gsub & Gix).
        destruct (append_clone k ksub RT EQ a (fun _ => eq_refl) tag g (scale k a 1 p) Gok Hp) as (A1 & A2 & A3).
        set (p' := append k a (Expr_Model.clone k a) tag g (scale k a 1 p)) in *.
        assert (Hlv : forall x, In x (ixs (lin_leaves k a (snd p'))) -> In x (ixs (lin_leaves k a (snd p))) \/ In x (eixs g)).
        { intros x Hx. apply in_flat_map in Hx as (y & Hy & Hx). destruct (A3 y Hy); [left|right]; apply in_flat_map; eauto. }
        assert (Hpi' : forall x, fresh st' x -> ~ In x (ixs (lin_leaves k a (snd p')))).
        { intros x Hx Hin. destruct (Hlv x Hin) as [Q|Q]; [revert Q; apply Hpi; auto|]. destruct (Gix x Q) as [Q'|[_ Q']]; [revert Q'; apply Hfs; [auto|left; auto]|]. auto. }
        destruct (IH (fun st f Hf => Hs st f (or_intror Hf)) st' p' A1) as (B1 & B2 & B3 & B4); auto.
        { intros x Hx f' Hf'. apply Hfs; [auto|right; auto]. }
        split; auto. split; auto. split.
        + intros x Hx. destruct (B3 x Hx) as [Q|[Q|[Q1 Q2]]].
          * destruct (Hlv x Q) as [Q'|Q']; auto. destruct (Gix x Q') as [Q''|Q''].
            -- right; left. cbn [flat_map]. rewrite ixs_app. apply in_app_iff. auto.
            -- right; right. destruct Q'' as [C1 C2]. split; auto.
          * right; left. cbn [flat_map]. rewrite ixs_app. apply in_app_iff. auto.
          * right; right. auto.
        + intros ext u w r Hf. rewrite B4 by (intros; apply Hf; auto). rewrite A2, (pv_scale k ksub RT a).
          transitivity (pv k a p (fun t => poly g (fun v => polys fs (fun v' => TV ext (u ++ ((t ++ v) ++ v') ++ w) r)))); [ring|].
          unfold pv. f_equal. apply (lin_ext k a). intros t Ht. rewrite (polys_cons k ksub RT a). unfold Df_Poly.poly, Df_Poly.polys.
          rewrite (lin_swap k ksub RT a), (lin_swap k ksub RT a (expanded k At f)). apply (lin_ext k a). intros v Hv.
          pose proof (Gc ext (u ++ snd t) (snd v ++ w) r) as H. unfold Df_Poly.poly in H.
          rewrite (lin_ext k a (expanded k At g) _ (fun t0 => TV ext ((u ++ snd t) ++ t0 ++ snd v ++ w) r)) by (intros; now rewrite <- !app_assoc).
          rewrite H; [apply (lin_ext k a); intros; now rewrite <- !app_assoc|].
          intros x Hx. destruct (Hf x Hx) as (C1 & C2 & C3). rewrite !ixs_app, !in_app_iff. split; auto. split.
          * intros [Q|Q]; auto. revert Q. intros Q. apply (Hpi x Hx). apply (ixs_incl _ _ (cr_leaves _ _ Ht)). exact Q.
          * intros [Q|Q]; auto. apply (ixs_incl _ _ (cr_leaves _ _ Hv)) in Q. apply in_flat_map in Q as (y & Hy & Q). apply in_flat_map in Hy as (f' & Hf' & Hy).
            apply (Hfs x Hx f' (or_intror Hf')). apply in_flat_map. eauto.
    Qed.
  End Loop.
End Replace.
