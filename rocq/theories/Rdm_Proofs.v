From Coq Require Import List Arith Bool ZArith QArith Qcanon Permutation Lia.
From Verif Require Import Ant_Model Rdm_Model Rdm_Spec.
Import ListNotations.
Local Open Scope Qc_scope.

Lemma vz1 : Q2Qc (inject_Z 1) = 1. Proof. apply Qc_is_canon; reflexivity. Qed.
Lemma vzm1 : Q2Qc (inject_Z (-1)) = - (1). Proof. apply Qc_is_canon; reflexivity. Qed.

Section Ind.
  Context {I : Type} (P : rex I -> Prop).
  Hypothesis HT : forall l b k, P (XT l b k).
  Hypothesis HO : forall c a, P (XO c a).
  Hypothesis HC : forall c, P (XC c).
  Hypothesis HP : forall c fs, Forall P fs -> P (XP c fs).
  Hypothesis HS : forall l, Forall P l -> P (XS l).
  Fixpoint rex_ind2 (e : rex I) : P e :=
    let go := fix go (l : list (rex I)) : Forall P l :=
      match l with [] => Forall_nil P | x :: l' => Forall_cons x (rex_ind2 x) (go l') end in
    match e with
    | XT l b k => HT l b k
    | XO c a => HO c a
    | XC c => HC c
    | XP c fs => HP c fs (go fs)
    | XS l => HS l (go l)
    end.
End Ind.

(** ** Replacement *)
Section Subst.
  Context {I : Type}.
  Notation rex := (rex I).
  Definition leaf (e : rex) : bool := match e with XP _ _ | XS _ => false | _ => true end.
  Definition isP (e : rex) : bool := match e with XP _ _ => true | _ => false end.

  Lemma every_mono (P Q : rex -> Prop) : (forall e, leaf e = true -> P e -> Q e) -> forall e, every P e -> every Q e.
  Proof.
    intros H. induction e as [l b k|c a|c|c fs IH|l IH] using rex_ind2; cbn [every]; try (apply H; reflexivity).
    - induction IH as [|x l Hx IH IH2]; cbn; [tauto|]. intros [A B]. split; auto.
    - induction IH as [|x l Hx IH IH2]; cbn; [tauto|]. intros [A B]. split; auto.
  Qed.

  Variables (vT vT' : nat -> list I -> list I -> Qc) (vO vO' : list I -> list I -> Qc).
  Variables (f : rex -> option (rout rex)) (Pin Pout : rex -> Prop).
  Hypothesis Hleaf : forall e, leaf e = true -> Pin e ->
    match f e with
    | Some r => exists e', r = ROk e' /\ every Pout e' /\ xval vT vO e' = xval vT' vO' e
    | None => Pout e /\ xval vT vO e = xval vT' vO' e
    end.
  Hypothesis Hnode : forall e, leaf e = false -> f e = None.

  Let sl := fix go (l : list rex) : rout (list rex) :=
      match l with
      | [] => ROk []
      | x :: l' => rbind (subst f x) (fun y => rbind (go l') (fun ys => ROk (y :: ys)))
      end.

  Lemma sl_ok l : Forall (fun e => every Pin e -> exists e', subst f e = ROk e' /\ every Pout e' /\
                     xval vT vO e' = xval vT' vO' e) l ->
    fold_right and True (map (every Pin) l) ->
    exists m, sl l = ROk m /\ fold_right and True (map (every Pout) m) /\
              map (xval vT vO) m = map (xval vT' vO') l.
  Proof.
    induction 1 as [|x l Hx Hl IH].
    - intros _. exists []. cbn. auto.
    - cbn [map fold_right]. intros [A B]. destruct (Hx A) as [y [E1 [E2 E3]]]. destruct (IH B) as [m [F1 [F2 F3]]].
      exists (y :: m).
      change (sl (x :: l)) with (rbind (subst f x) (fun y => rbind (sl l) (fun ys => ROk (y :: ys)))).
      rewrite E1. cbn [rbind]. rewrite F1. cbn [rbind map fold_right]. rewrite E3, F3. auto.
  Qed.

  Lemma subst_ok e : every Pin e ->
    exists e', subst f e = ROk e' /\ every Pout e' /\ xval vT vO e' = xval vT' vO' e.
  Proof.
    induction e as [l b k|c a|c|c fs IH|l IH] using rex_ind2; cbn [every]; intros H.
    - pose proof (Hleaf (XT l b k) eq_refl H) as L. cbn [subst]. destruct (f (XT l b k)) as [r|].
      + exact L.
      + exists (XT l b k). destruct L. auto.
    - pose proof (Hleaf (XO c a) eq_refl H) as L. cbn [subst]. destruct (f (XO c a)) as [r|].
      + exact L.
      + exists (XO c a). destruct L. auto.
    - pose proof (Hleaf (XC c) eq_refl H) as L. cbn [subst]. destruct (f (XC c)) as [r|].
      + exact L.
      + exists (XC c). destruct L. auto.
    - destruct (sl_ok fs IH H) as [m [E1 [E2 E3]]]. exists (XP c m). cbn [subst].
      rewrite (Hnode (XP c fs) eq_refl). unfold sl in E1. rewrite E1. cbn [rbind every xval]. rewrite E3. auto.
    - destruct (sl_ok l IH H) as [m [E1 [E2 E3]]]. exists (XS m). cbn [subst].
      rewrite (Hnode (XS l) eq_refl). unfold sl in E1. rewrite E1. cbn [rbind every xval]. rewrite E3. auto.
  Qed.

  Lemma subst_isP c fs e' : subst f (XP c fs) = ROk e' -> isP e' = true.
  Proof.
    cbn [subst]. rewrite (Hnode (XP c fs) eq_refl).
    match goal with |- rbind ?x _ = _ -> _ => destruct x as [gs| |] end; cbn; try discriminate.
    intros E. inversion E. reflexivity.
  Qed.

  (** A sum whose other summands have the same value and need no replacement. *)
  Lemma replace_ok l :
    fold_right and True (map (every Pin) l) ->
    Forall (fun s => isP s = true \/ (every Pout s /\ xval vT vO s = xval vT' vO' s)) l ->
    exists m, replace_in_products f (XS l) = ROk (XS m) /\ every Pout (XS m) /\
              xval vT vO (XS m) = xval vT' vO' (XS l) /\
              Forall2 (fun s s' => isP s = true /\ isP s' = true \/ isP s = false /\ s' = s) l m.
  Proof.
    intros H F. cbn [replace_in_products].
    assert (G : exists m, rmapm (fun s => match s with XP _ _ => subst f s | _ => ROk s end) l = ROk m /\
              every Pout (XS m) /\ xval vT vO (XS m) = xval vT' vO' (XS l) /\
              Forall2 (fun s s' => isP s = true /\ isP s' = true \/ isP s = false /\ s' = s) l m).
    { induction F as [|s l Hs F IH].
      - exists []. cbn. auto.
      - cbn in H. destruct H as [H1 H2]. destruct (IH H2) as [m [E1 [E2 [E3 E4]]]].
        assert (G : exists s', (match s with XP _ _ => subst f s | _ => ROk s end) = ROk s' /\ every Pout s' /\
                     xval vT vO s' = xval vT' vO' s /\ (isP s = true /\ isP s' = true \/ isP s = false /\ s' = s)).
        { destruct (isP s) eqn:K.
          - destruct s; try discriminate. destruct (subst_ok _ H1) as [s' [A [B C]]].
            exists s'. repeat split; auto. left. split; [reflexivity|]. exact (subst_isP _ _ _ A).
          - destruct Hs as [Hs|[Hs Hv]]; [discriminate|]. exists s. destruct s; try discriminate; repeat split; auto. }
        destruct G as [s' [A [B [C D]]]]. exists (s' :: m). cbn [rmapm]. rewrite A. cbn [rbind]. rewrite E1. cbn [rbind].
        split; [reflexivity|]. split; [cbn; split; [exact B|exact E2]|].
        split; [cbn [xval map fold_right] in *; rewrite C, E3; reflexivity|].
        constructor; [exact D|exact E4]. }
    destruct G as [m [E R]]. rewrite E. cbn [rbind]. exists m. auto.
  Qed.
End Subst.

(** ** Screening of renamed terms *)
Definition factor_dec (x y : factor nat Z) : {x = y} + {x <> y}.
Proof. repeat decide equality. Defined.

Definition permb (l m : list (factor nat Z)) : bool :=
  forallb (fun x => count_occ factor_dec l x =? count_occ factor_dec m x)%nat (l ++ m).

Lemma permb_iff l m : permb l m = true <-> Permutation l m.
Proof.
  unfold permb. rewrite forallb_forall. split.
  - intros H. apply (Permutation_count_occ factor_dec). intros x.
    destruct (in_dec factor_dec x (l ++ m)) as [Hin|Hn].
    + apply Nat.eqb_eq. apply H. exact Hin.
    + assert (Hl : ~ In x l) by (intros X; apply Hn; apply in_or_app; auto).
      assert (Hm : ~ In x m) by (intros X; apply Hn; apply in_or_app; auto).
      apply (count_occ_not_In factor_dec) in Hl. apply (count_occ_not_In factor_dec) in Hm. congruence.
  - intros H x _. apply Nat.eqb_eq. apply (proj1 (Permutation_count_occ factor_dec l m) H).
Qed.

Definition same0 (p q : product nat Z) : bool := Z.eqb (p_scalar p) (p_scalar q) && permb (p_factors p) (p_factors q).

Section Screen.
  Context {A B : Type} (g : A -> B).
  Lemma screen_aux (sA : A -> A -> bool) (sB : B -> B -> bool) l : forall acc,
    (forall x y, In x (acc ++ l) -> In y (acc ++ l) -> sB (g x) (g y) = sA x y) ->
    fold_left (fun acc t => if existsb (sB t) acc then acc else acc ++ [t]) (map g l) (map g acc)
    = map g (fold_left (fun acc t => if existsb (sA t) acc then acc else acc ++ [t]) l acc).
  Proof.
    induction l as [|t l IH]; intros acc H; cbn; [reflexivity|].
    assert (E : existsb (sB (g t)) (map g acc) = existsb (sA t) acc).
    { assert (K : forall y, In y acc -> sB (g t) (g y) = sA t y).
      { intros y Hy. apply H; apply in_or_app; [right; left; reflexivity|left; exact Hy]. }
      clear H. induction acc as [|y acc IH2]; cbn; [reflexivity|].
      rewrite (K y) by (left; reflexivity). f_equal. apply IH2. intros z Hz. apply K. right. exact Hz. }
    rewrite E. destruct (existsb (sA t) acc).
    - apply IH. intros x y Hx Hy. apply H; apply in_app_or in Hx; apply in_app_or in Hy; apply in_or_app; cbn; tauto.
    - change [g t] with (map g [t]). rewrite <- map_app. apply IH.
      intros x y Hx Hy. rewrite <- app_assoc in Hx, Hy. apply H; assumption.
  Qed.
End Screen.

Section Rename.
  Context {I : Type} (fb fk : nat -> I).
  Definition ren (f : factor nat Z) : factor I Z :=
    match f with
    | FTensor lab b k => FTensor lab (map fb b) (map fk k)
    | FConst c => FConst c
    | FOp c a => FOp (map fk c) (map fb a)
    end.
  Definition renp (p : product nat Z) : product I Z := mkProduct (p_scalar p) (map ren (p_factors p)).

  Definition small (n : nat) (f : factor nat Z) : bool :=
    match f with
    | FTensor _ b k => forallb (fun i => i <? n)%nat b && forallb (fun i => i <? n)%nat k
    | FConst _ => true
    | FOp c a => forallb (fun i => i <? n)%nat c && forallb (fun i => i <? n)%nat a
    end.

  Variable n : nat.
  Hypothesis fb_inj : forall i j, (i < n)%nat -> (j < n)%nat -> fb i = fb j -> i = j.
  Hypothesis fk_inj : forall i j, (i < n)%nat -> (j < n)%nat -> fk i = fk j -> i = j.

  Lemma map_inj_small (h : nat -> I) l m :
    (forall i j, (i < n)%nat -> (j < n)%nat -> h i = h j -> i = j) ->
    forallb (fun i => i <? n)%nat l = true -> forallb (fun i => i <? n)%nat m = true -> map h l = map h m -> l = m.
  Proof.
    intros Hh. revert m. induction l as [|x l IH]; intros [|y m]; cbn; intros A B E; try discriminate; [reflexivity|].
    apply andb_prop in A. apply andb_prop in B. destruct A as [A1 A2], B as [B1 B2]. inversion E.
    apply Nat.ltb_lt in A1. apply Nat.ltb_lt in B1. f_equal; auto.
  Qed.

  Lemma ren_inj f g : small n f = true -> small n g = true -> ren f = ren g -> f = g.
  Proof.
    destruct f, g; cbn; intros A B E; try discriminate; try (inversion E; subst; reflexivity).
    - apply andb_prop in A. apply andb_prop in B. destruct A as [A1 A2], B as [B1 B2].
      injection E as E1 E2 E3. subst. f_equal;
        [exact (map_inj_small fb _ _ fb_inj A1 B1 E2)|exact (map_inj_small fk _ _ fk_inj A2 B2 E3)].
    - apply andb_prop in A. apply andb_prop in B. destruct A as [A1 A2], B as [B1 B2].
      injection E as E1 E2. f_equal;
        [exact (map_inj_small fk _ _ fk_inj A1 B1 E1)|exact (map_inj_small fb _ _ fb_inj A2 B2 E2)].
  Qed.

  Lemma map_ren_inj l m : forallb (small n) l = true -> forallb (small n) m = true -> map ren l = map ren m -> l = m.
  Proof.
    revert m. induction l as [|x l IH]; intros [|y m]; cbn; intros A B E; try discriminate; [reflexivity|].
    apply andb_prop in A. apply andb_prop in B. destruct A, B. inversion E.
    f_equal; [apply ren_inj; assumption|apply IH; assumption].
  Qed.

  Lemma same_ren same p q : canonical_equality same ->
    forallb (small n) (p_factors p) = true -> forallb (small n) (p_factors q) = true ->
    same (renp p) (renp q) = same0 p q.
  Proof.
    intros Hs A B. apply eq_true_iff_eq. rewrite (Hs (renp p) (renp q)). unfold same0, renp. cbn [p_scalar p_factors].
    rewrite andb_true_iff, Z.eqb_eq, permb_iff. split; intros [E P]; (split; [exact E|]).
    - apply Permutation_map_inv in P. destruct P as [l [E2 P]].
      assert (Hl : forallb (small n) l = true).
      { apply forallb_forall. intros x Hx. rewrite forallb_forall in A, B. apply B. apply (Permutation_in x (Permutation_sym P)) || apply (Permutation_in x P); exact Hx. }
      apply map_ren_inj in E2; auto. subst l. apply Permutation_sym. exact P.
    - apply Permutation_map. exact P.
  Qed.
End Rename.
