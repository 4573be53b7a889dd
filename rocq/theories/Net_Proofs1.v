(** Equivalent networks have the same value up to sign. *)
From Coq Require Import ZArith List Arith Bool Permutation Ring Lia.
From Verif Require Import Alg_Model Alg_Spec Tsr_Model Tsr_Spec Tsr_Proofs5 Net_Spec.
Import ListNotations.

Section Values.
  Context {K : cring} {D : Type}.
  Add Ring Kring23 : (rring K).
  Variable range : space -> list D.
  Variable E : list Z -> symmetry -> bksymmetry -> colsymmetry -> list D -> list D -> list D -> K.
  Hypothesis HE : symmetric_elements E.
  Notation element := (element E).
  Notation product := (product E).
  Notation total := (total range).
  Fixpoint rsum (f : D -> K) (l : list D) : K := match l with [] => r0 | d :: l' => radd (f d) (rsum f l') end.
  Lemma rsum_fold f l : fold_right (fun d x => radd (f d) x) r0 l = rsum f l.
  Proof. induction l as [|d l IH]; cbn; congruence. Qed.

  Lemma rsum_ext f g l : (forall d, In d l -> f d = g d) -> rsum f l = rsum g l.
  Proof. induction l as [|d l IH]; intros H; cbn; auto. rewrite H, IH; auto with datatypes. Qed.
  Lemma rsum_add f g l : rsum (fun d => radd (f d) (g d)) l = radd (rsum f l) (rsum g l).
  Proof. induction l as [|d l IH]; cbn; [ring|]. rewrite IH. ring. Qed.
  Lemma rsum_zero l : rsum (fun _ => r0) l = r0.
  Proof. induction l as [|d l IH]; cbn; [auto|]. rewrite IH. ring. Qed.
  Lemma rsum_opp f l : rsum (fun d => ropp (f d)) l = ropp (rsum f l).
  Proof. induction l as [|d l IH]; cbn; [ring|]. rewrite IH. ring. Qed.
  Lemma rsum_swap (f : D -> D -> K) l m : rsum (fun d => rsum (f d) m) l = rsum (fun e => rsum (fun d => f d e) l) m.
  Proof.
    induction l as [|d l IH]; cbn; [rewrite rsum_zero; auto|]. rewrite IH, rsum_add. f_equal.
  Qed.
  Lemma total_cons i is f a : total (i :: is) f a = rsum (fun d => total is f (update a i d)) (range (ix_space i)).
  Proof. cbn. apply rsum_fold. Qed.

  (** [f] depends only on the values of the indices in [L]. *)
  Definition local (L : list index) (f : (index -> D) -> K) : Prop :=
    forall a b, (forall i, In i L -> a i = b i) -> f a = f b.

  Lemma total_local L f is : local L f -> forall a b, (forall i, In i L -> ~ In i is -> a i = b i) -> total is f a = total is f b.
  Proof.
    intros HL. induction is as [|i is IH]; intros a b H.
    - apply HL. intros j J. apply H; auto.
    - rewrite !total_cons. apply rsum_ext. intros d _. apply IH. intros j J N. unfold update.
      destruct (index_eq_dec j i); auto. apply H; auto. intros [->|X]; auto.
  Qed.

  Lemma update_swap (a : index -> D) i j d e : i <> j -> forall k, update (update a i d) j e k = update (update a j e) i d k.
  Proof. intros N k. unfold update. destruct (index_eq_dec k j), (index_eq_dec k i); subst; auto. contradiction. Qed.

  Lemma total_perm L f is js : local L f -> Permutation is js -> NoDup is -> forall a, total is f a = total js f a.
  Proof.
    intros HL P. induction P; intros ND a.
    - reflexivity.
    - rewrite !total_cons. apply rsum_ext. intros d _. apply IHP. inversion ND; auto.
    - rewrite total_cons. rewrite (rsum_ext _ (fun d => rsum (fun e => total l f (update (update a y d) x e)) (range (ix_space x)))) by (intros; apply total_cons).
      rewrite (total_cons x). rewrite (rsum_ext (fun d => total (y :: l) f (update a x d)) (fun e => rsum (fun d => total l f (update (update a x e) y d)) (range (ix_space y)))) by (intros; apply total_cons).
      rewrite rsum_swap. apply rsum_ext. intros e _. apply rsum_ext. intros d _.
      apply (total_local L); auto. intros k _ _. apply update_swap. inversion ND; subst. intros ->. apply H1. left; auto.
    - rewrite IHP1, IHP2; auto. eapply Permutation_NoDup; eauto.
  Qed.

  Lemma total_signed s is (f : (index -> D) -> K) a : total is (fun b => signed s (f b)) a = signed s (total is f a).
  Proof.
    destruct s; cbn; [|reflexivity]. revert a. induction is as [|i is IH]; intros a; [reflexivity|].
    rewrite !total_cons, <- rsum_opp. apply rsum_ext. intros d _. apply IH.
  Qed.
  Lemma total_ext is (f g : (index -> D) -> K) : (forall a, f a = g a) -> forall a, total is f a = total is g a.
  Proof. intros H. induction is as [|i is IH]; intros a; [apply H|]. rewrite !total_cons. apply rsum_ext. intros; apply IH. Qed.

  Lemma element_local t : local (slots t) (fun a => element a t).
  Proof.
    intros a b H. unfold Net_Spec.element, slots in *. f_equal; apply map_ext_in; intros i I; apply H; rewrite !in_app_iff; auto.
  Qed.
  Lemma product_local N : local (indices N) (product N).
  Proof.
    induction N as [|t N IH]; intros a b H; [reflexivity|]. cbn. f_equal.
    - apply element_local. intros i I. apply H. apply in_or_app; auto.
    - apply IH. intros i I. apply H. apply in_or_app; auto.
  Qed.

  Lemma total_rename f N is : forall a b,
    (forall i j, In i (indices N) -> In j (indices N) -> f i = f j -> i = j) ->
    (forall i, In i (indices N) -> ix_space (f i) = ix_space i) -> (forall i, In i is -> In i (indices N)) ->
    (forall i, In i (indices N) -> In i is \/ a i = b (f i)) ->
    total is (product N) a = total (map f is) (product (map (renamed f) N)) b.
  Proof.
    induction is as [|i is IH]; intros a b Inj Sp Sub H.
    - cbn. clear Inj Sp Sub. induction N as [|t N IHN]; [reflexivity|]. cbn. f_equal.
      + unfold Net_Spec.element, renamed. cbn. rewrite !map_map.
        f_equal; apply map_ext_in; intros i I; destruct (H i) as [[]|]; auto; cbn; unfold slots; rewrite !in_app_iff; auto.
      + apply IHN. intros i I. apply H. apply in_or_app; auto.
    - cbn [map]. rewrite !total_cons. rewrite Sp by (apply Sub; left; auto). apply rsum_ext. intros d _. apply IH; auto.
      { intros j J. apply Sub. right; auto. }
      intros j J. destruct (in_dec index_eq_dec j is) as [X|X]; auto. right. unfold update.
      destruct (index_eq_dec j i) as [->|X1]; [destruct (index_eq_dec (f i) (f i)); congruence|].
      destruct (index_eq_dec (f j) (f i)) as [X2|X2].
      { exfalso. apply X1. apply Inj; auto. apply Sub; left; auto. }
      destruct (H j J) as [[Y|Y]|Y]; auto; congruence.
  Qed.

  (** Elements of related tensors. *)
  Lemma related_element t u s a : related t u s -> element a t = signed s (element a u).
  Proof.
    intros (L & A & Sy & B & C & _ & _ & R). unfold Net_Spec.element. rewrite <- L, <- A, <- Sy, <- B, <- C.
    destruct HE as (H1 & H2 & H3 & _). destruct (t_col t) eqn:EC.
    - destruct (t_symm t) eqn:ES.
      + destruct R as (P & Q & ->). cbn. apply H1; apply Permutation_map; auto.
      + destruct R as (n & m & P & Q & ->). apply H2; apply exchanges_map; auto.
      + destruct R as (b & b' & r & r' & k & k' & q & q' & E1 & E2 & E3 & E4 & L1 & L2 & Z1 & Z2 & P & P1 & P2 & ->). cbn.
        rewrite E1, E2, E3, E4, !map_app.
        pose proof (H3 (t_label t) (t_bk t) (map a (t_aux t)) (combine (map a b) (map a k)) (combine (map a b') (map a k')) (map a r) (map a r') (map a q) (map a q')) as X.
        assert (F : forall (x y : list D), length x = length y -> map fst (combine x y) = x /\ map snd (combine x y) = y).
        { induction x as [|x0 x IH]; intros [|y0 y] LL; try discriminate; auto. cbn. destruct (IH y) as (F1 & F2); [auto|]. rewrite F1, F2. auto. }
        destruct (F (map a b) (map a k)) as (F1 & F2); [rewrite !map_length; auto|].
        destruct (F (map a b') (map a k')) as (F3 & F4); [rewrite !map_length; auto|].
        rewrite F1, F2, F3, F4 in X. apply X.
        * destruct Z1 as [->| ->]; auto.
        * rewrite !combine_map. apply Permutation_map. auto.
        * apply Permutation_map; auto.
        * apply Permutation_map; auto.
    - destruct R as (-> & -> & ->). reflexivity.
  Qed.
  Lemma mirror_element t u a : t_bk t = BKSymm -> mirror t u -> element a t = element a u.
  Proof.
    intros B (L & A & Sy & B' & C & X & Y). unfold Net_Spec.element. rewrite L, A, Sy, B', C, X, Y, B.
    apply HE.
  Qed.

  Definition same_value (named : list index) (N M : list tensor) (s : bool) : Prop :=
    (forall i, In i named -> (In i (indices N) <-> In i (indices M))) /\
    forall ds ds' a, dummies named N ds -> dummies named M ds' ->
      total ds (product N) a = signed s (total ds' (product M) a).

  Lemma dummies_ex named N : exists ds, dummies named N ds.
  Proof.
    exists (nodup index_eq_dec (filter (fun i => if in_dec index_eq_dec i named then false else true) (indices N))).
    split; [apply NoDup_nodup|]. intros i. rewrite nodup_In, filter_In. destruct (in_dec index_eq_dec i named); intuition discriminate.
  Qed.
  Lemma dummies_perm named N M ds ds' : (forall i, In i (indices N) <-> In i (indices M)) -> dummies named N ds -> dummies named M ds' -> Permutation ds ds'.
  Proof. intros H (ND & X) (ND' & Y). apply NoDup_Permutation; auto. intros i. rewrite X, Y, H. tauto. Qed.

  Lemma indices_perm N M : Permutation N M -> Permutation (indices N) (indices M).
  Proof. unfold indices. intros P. apply Permutation_flat_map; auto. Qed.
  Lemma product_perm N M a : Permutation N M -> product N a = product M a.
  Proof.
    induction 1 as [|t N M P IH|t u N|N M P P1 IH1 P2 IH2]; [reflexivity| | |congruence].
    - cbn. unfold Net_Spec.product in IH. rewrite IH. reflexivity.
    - cbn. ring.
  Qed.

  Lemma same_indices_value named N M s : (forall i, In i (indices N) <-> In i (indices M)) ->
    (forall a, product N a = signed s (product M a)) -> same_value named N M s.
  Proof.
    intros I P. split; [intros; apply I|]. intros ds ds' a H H'.
    rewrite <- total_signed. rewrite (total_perm (indices N) _ ds ds').
    - apply total_ext. exact P.
    - apply product_local.
    - eapply dummies_perm; eauto.
    - apply H.
  Qed.

  Lemma signed_signed s s' (x : K) : signed s (signed s' x) = signed (xorb s s') x.
  Proof. destruct s, s'; cbn; auto; ring. Qed.

  Lemma related_slots t u s : related t u s -> forall i, In i (slots t) <-> In i (slots u).
  Proof.
    intros (L & A & Sy & B & C & _ & _ & R) i. unfold slots. rewrite !in_app_iff, <- A. destruct (t_col t) eqn:EC.
    - destruct (t_symm t) eqn:ES.
      + destruct R as (P & Q & _). split; intros [X|[X|X]]; auto.
        * left. eapply Permutation_in; eauto.
        * right; left. eapply Permutation_in; eauto.
        * left. eapply Permutation_in; [apply Permutation_sym|]; eauto.
        * right; left. eapply Permutation_in; [apply Permutation_sym|]; eauto.
      + assert (F : forall n (x y : list index), exchanges n x y -> In i x <-> In i y).
        { intros n x y X. induction X as [l|k a x b y c m X IH]; [tauto|]. rewrite <- IH, !in_app_iff. cbn. rewrite ?in_app_iff. cbn. tauto. }
        destruct R as (n & m & P & Q & _). rewrite (F _ _ _ P), (F _ _ _ Q). tauto.
      + destruct R as (b & b' & r & r' & k & k' & q & q' & E1 & E2 & E3 & E4 & L1 & L2 & Z1 & Z2 & P & P1 & P2 & _).
        rewrite E1, E2, E3, E4, !in_app_iff.
        assert (F : forall (x y : list index), length x = length y -> map fst (combine x y) = x /\ map snd (combine x y) = y).
        { induction x as [|x0 x IH]; intros [|y0 y] LL; try discriminate; auto. cbn. destruct (IH y) as (F1 & F2); [auto|]. rewrite F1, F2. auto. }
        destruct (F _ _ L1) as (F1 & F2), (F _ _ L2) as (F3 & F4).
        assert (Pb : Permutation b b') by (rewrite <- F1, <- F3; apply Permutation_map; auto).
        assert (Pk : Permutation k k') by (rewrite <- F2, <- F4; apply Permutation_map; auto).
        assert (G : forall x y : list index, Permutation x y -> (In i x <-> In i y)).
        { intros x y X. split; apply Permutation_in; [|apply Permutation_sym]; auto. }
        rewrite (G _ _ Pb), (G _ _ Pk), (G _ _ P1), (G _ _ P2). tauto.
    - destruct R as (-> & -> & _). tauto.
  Qed.

  Theorem equivalent_value named N M s : equivalent named N M s -> same_value named N M s.
  Proof.
    induction 1 as [N|N M P s s' H1 IH1 H2 IH2|N M s H IH|N M P|t u s N R|t u N B R|f N Inj Sp].
    - apply same_indices_value; [tauto|reflexivity].
    - destruct IH1 as (A1 & A2), IH2 as (B1 & B2). split; [intros i I; rewrite A1, B1; auto; tauto|].
      intros ds ds' a X Y. destruct (dummies_ex named M) as (es & Z). rewrite (A2 ds es), (B2 es ds'); auto. apply signed_signed.
    - destruct IH as (A1 & A2). split; [intros i I; rewrite A1; auto; tauto|].
      intros ds ds' a X Y. rewrite (A2 ds' ds) by auto. rewrite signed_signed, xorb_nilpotent. reflexivity.
    - apply same_indices_value; [|intros; apply product_perm; auto].
      intros i. split; apply Permutation_in; [|apply Permutation_sym]; apply indices_perm; auto.
    - apply same_indices_value.
      + intros i. cbn. rewrite !in_app_iff, (related_slots _ _ _ R). tauto.
      + intros a. cbn. rewrite (related_element _ _ _ a R). destruct s; cbn; ring.
    - apply same_indices_value.
      + intros i. cbn. destruct R as (_ & A & _ & _ & _ & X & Y). unfold slots. rewrite X, Y, A, !in_app_iff. tauto.
      + intros a. cbn. rewrite (mirror_element t u); auto.
    - assert (II : indices (map (renamed f) N) = map f (indices N)).
      { clear. induction N as [|t N IH]; [reflexivity|]. cbn. unfold indices in IH. rewrite IH, map_app. f_equal. unfold slots, renamed. cbn. rewrite !map_app. auto. }
      split.
      + intros i I. rewrite II, in_map_iff. split.
        * intros J. exists i. split; auto. apply Sp; auto.
        * intros (j & <- & J). destruct (Sp j J) as (_ & A & B). destruct (in_dec index_eq_dec j named) as [X|X].
          { rewrite A; auto. } { destruct (B X I). }
      + intros ds ds' a X Y. cbn. rewrite (total_rename f N ds a a).
        * apply (total_perm (indices (map (renamed f) N))).
          { apply product_local. }
          { apply NoDup_Permutation; [|apply Y|].
            { assert (SubD : forall i, In i ds -> In i (indices N)) by (intros; apply X; auto). destruct X as (ND & _). clear Y Sp II.
              induction ND as [|d ds ND ND' IH]; cbn; constructor.
              - rewrite in_map_iff. intros (e & E1 & E2). apply Inj in E1; auto with datatypes. subst; auto.
              - apply IH. intros; apply SubD; right; auto. }
            intros i. destruct Y as (_ & Y). rewrite Y, II, !in_map_iff. destruct X as (_ & X). split.
            { intros (j & <- & J). apply X in J. destruct J as (J & NJ). split; [eauto|]. apply Sp; auto. }
            { intros ((j & <- & J) & NJ). exists j. split; auto. apply X. split; auto.
              intros Z. apply NJ. destruct (Sp j J) as (_ & A & _). rewrite A; auto. } }
          { assert (SubD : forall i, In i ds -> In i (indices N)) by (intros; apply X; auto). destruct X as (ND & _). clear Y Sp II.
            induction ND as [|d ds ND ND' IH]; cbn; constructor.
            - rewrite in_map_iff. intros (e & E1 & E2). apply Inj in E1; auto with datatypes. subst; auto.
            - apply IH. intros; apply SubD; right; auto. }
        * auto.
        * intros i I. apply Sp; auto.
        * intros i I. apply X; auto.
        * intros i I. destruct (in_dec index_eq_dec i named) as [Z|Z].
          { right. destruct (Sp i I) as (_ & A & _). rewrite A; auto. }
          { left. apply X. auto. }
  Qed.
End Values.
