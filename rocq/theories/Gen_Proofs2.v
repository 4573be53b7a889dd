(** The optimizer preserves what the program does. *)
From Coq Require Import List Arith Bool Lia Relations Permutation.
From Verif Require Import Gen_Model Gen_Spec Gen_Proofs.
Import ListNotations.
Local Arguments Nat.eqb : simpl never.

(** * Facts that do not need the machine *)
Lemma cancels_is : forall x y, cancels x y = true ->
  exists o, (x = Load o /\ y = Unload o) \/ (x = Unload o /\ y = Load o).
Proof.
  intros [] [] H; cbn in H; try discriminate; apply Nat.eqb_eq in H; subst; eauto.
Qed.
Lemma opt1_incl : forall l l', opt1 l l' -> incl l' l.
Proof.
  intros l l' [] w Hw; repeat (rewrite in_app_iff in * || cbn [In] in * ); tauto.
Qed.
Lemma opts_incl : forall l l', opts l l' -> incl l' l.
Proof.
  induction 1; [eapply opt1_incl; eauto|apply incl_refl|eapply incl_tran; eauto].
Qed.
Lemma filter_none : forall A (f : A -> bool) x l, f x = false -> filter f (x :: l) = filter f l.
Proof. intros; cbn; rewrite H; reflexivity. Qed.
Lemma compute_alloc : forall x, memory_action x <> NoAction -> is_compute x = false.
Proof. intros [] H; cbn in *; congruence. Qed.
Lemma opt1_computes : forall l l', opt1 l l' -> filter is_compute l' = filter is_compute l.
Proof.
  intros l l' [].
  - apply cancels_is in H. destruct H as (o & [[-> ->]|[-> ->]]); rewrite !filter_app; reflexivity.
  - rewrite !filter_app. f_equal.
    assert (Hu : is_compute u = false) by (apply compute_alloc; congruence).
    assert (Hv : is_compute v = false) by (apply compute_alloc; congruence).
    assert (Hx : is_compute x = false) by (apply compute_alloc; congruence).
    assert (Hy : is_compute y = false) by (apply compute_alloc; congruence).
    assert (Hz : is_compute z = false) by (apply compute_alloc; congruence).
    rewrite !filter_none by assumption. rewrite !filter_app. rewrite !filter_none by assumption. reflexivity.
Qed.
Lemma opts_computes : forall l l', opts l l' -> filter is_compute l' = filter is_compute l.
Proof. induction 1; [apply opt1_computes; auto|reflexivity|congruence]. Qed.

Definition specials (l : list op) : nat := length (filter special l).
Lemma specials_app : forall l l', specials (l ++ l') = specials l + specials l'.
Proof. intros; unfold specials; rewrite filter_app, app_length; reflexivity. Qed.
Lemma specials_cons : forall x l, specials (x :: l) = (if special x then 1 else 0) + specials l.
Proof. intros; unfold specials; cbn; destruct (special x); reflexivity. Qed.
Lemma opt1_specials : forall l l', opt1 l l' -> specials l' <= specials l.
Proof.
  intros l l' []; rewrite !specials_app, !specials_cons, ?specials_app, ?specials_cons; lia.
Qed.
Lemma opts_specials : forall l l', opts l l' -> specials l' <= specials l.
Proof. induction 1; [apply opt1_specials; auto|lia|lia]. Qed.
Lemma opt1_shorter : forall l l', opt1 l l' -> S (S (length l')) = length l.
Proof. intros l l' []; repeat (rewrite !app_length || cbn [length]); lia. Qed.
Lemma opts_shorter : forall l l', opts l l' -> length l' <= length l.
Proof. induction 1; [apply opt1_shorter in H; lia|lia|lia]. Qed.

Lemma inputs_incl : forall l l', incl l' l -> inputs_only_read l -> inputs_only_read l'.
Proof. intros l l' I H o H0 H1 x Hx. apply (H o); auto. Qed.

Lemma not_special_dealloc : forall x, memory_action x = Deallocate -> special x = false -> x = Unload (object x).
Proof. intros [] H H0; cbn in *; congruence. Qed.
Lemma not_special_alloc : forall x, memory_action x = Allocate -> special x = false -> x = Load (object x).
Proof. intros [] H H0; cbn in *; congruence. Qed.

Section Run.
Context {V : Type}.
Variable zero : V.
Variable add : V -> V -> V.
Variable ev : list nat -> list V -> V.
Variable garbage : obj -> V.
Notation step := (step zero add ev garbage).
Notation run := (run zero add ev garbage).
Notation machine := (@machine V).

Lemma run_app : forall l l' m, run (l ++ l') m =
  match run l m with
  | Some (m1, t) => match run l' m1 with Some (m2, t') => Some (m2, t ++ t') | None => None end
  | None => None
  end.
Proof.
  induction l; intros; cbn.
  - destruct (run l' m) as [[]|]; reflexivity.
  - destruct (step a m) as [[m1 t]|]; [|reflexivity]. rewrite IHl.
    destruct (run l m1) as [[m2 t2]|]; [|reflexivity].
    destruct (run l' m2) as [[m3 t3]|]; [|reflexivity]. rewrite app_assoc. reflexivity.
Qed.

(** ** States *)
Definition agree (m m' : machine) : Prop :=
  (forall o, memory m o = memory m' o) /\ (forall o, store m o = store m' o).
Definition wf (m : machine) : Prop := NoDup (stack m) /\ (forall o, In o (stack m) <-> memory m o <> None).
Definition clean (o : obj) (m : machine) : Prop := forall v, memory m o = Some v -> store m o = Some v.

Lemma update_same : forall (f : obj -> option V) o v, update f o v o = v.
Proof. intros; unfold update; rewrite Nat.eqb_refl; reflexivity. Qed.
Lemma update_other : forall (f : obj -> option V) o v o', o' <> o -> update f o v o' = f o'.
Proof. intros; unfold update; rewrite (proj2 (Nat.eqb_neq o' o)); auto. Qed.
Lemma update_ext : forall (f g : obj -> option V) o v, (forall o, f o = g o) -> forall o', update f o v o' = update g o v o'.
Proof. intros; unfold update; destruct (Nat.eqb o' o); auto. Qed.
Lemma values_ext : forall (f g : obj -> option V) l, (forall o, f o = g o) -> values f l = values g l.
Proof. induction l; intros; cbn; [reflexivity|]. rewrite H, IHl; auto. Qed.

Lemma allocate_is : forall o v (m m1 : machine), allocate o v m = Some m1 ->
  memory m o = None /\ v <> None /\ m1 = mkMachine (o :: stack m) (update (memory m) o v) (store m).
Proof.
  intros o v m m1 H. unfold allocate in H. destruct (memory m o); [discriminate|].
  destruct v; [|discriminate]. inversion H. repeat split; congruence.
Qed.
Lemma deallocate_is : forall o (m m1 : machine), deallocate o m = Some m1 ->
  stack m = o :: stack m1 /\ memory m1 = update (memory m) o None /\ store m1 = store m.
Proof.
  intros o m m1 H. unfold deallocate in H. destruct (stack m) as [|o' r] eqn:E; [discriminate|].
  destruct (Nat.eqb o o') eqn:Eo; [|discriminate]. apply Nat.eqb_eq in Eo. subst o'. inversion H; subst; auto.
Qed.

(** the value given to an object when it is allocated *)
Definition initial (x : op) (m : machine) : option V :=
  match x with
  | Create o z => Some (if z then zero else garbage o)
  | Load o => store m o
  | _ => Some zero
  end.
Lemma step_alloc : forall x m m1 t, memory_action x = Allocate ->
  (step x m = Some (m1, t) <-> t = [] /\ allocate (object x) (initial x m) m = Some m1).
Proof.
  intros x m m1 t H. split.
  - intros H0. destruct x; cbn in H; try discriminate; cbn in *;
      (destruct (allocate _ _ m) as [m'|]; inversion H0; subst; auto).
  - intros [-> H0]. destruct x; cbn in H; try discriminate; cbn in *; rewrite H0; reflexivity.
Qed.
(** the store after an object is released *)
Definition stored (x : op) (m : machine) : obj -> option V :=
  match x with
  | Destroy o => update (store m) o None
  | Persist o => update (store m) o (memory m o)
  | _ => store m
  end.
Lemma step_dealloc : forall x m m1 t, memory_action x = Deallocate ->
  (step x m = Some (m1, t) <->
   t = [] /\ exists r, stack m = object x :: r /\ m1 = mkMachine r (update (memory m) (object x) None) (stored x m)).
Proof.
  intros x m m1 t H. split.
  - intros H0. destruct x; cbn in H; try discriminate; cbn in *;
      (destruct (deallocate o m) as [m'|] eqn:E; [|discriminate]; injection H0 as <- <-; split; [reflexivity|];
       apply deallocate_is in E; destruct E as (E1 & E2 & E3); exists (stack m'); split; [exact E1|];
       destruct m'; cbn in *; subst; reflexivity).
  - intros (-> & r & E & ->). destruct x; cbn in H; try discriminate; cbn in *;
      unfold deallocate; rewrite E, Nat.eqb_refl; reflexivity.
Qed.
Lemma step_none : forall x m m1 t, memory_action x = NoAction -> step x m = Some (m1, t) ->
  stack m1 = stack m /\ store m1 = store m /\
  exists v, memory m (object x) <> None /\ memory m1 = update (memory m) (object x) (Some v).
Proof.
  intros x m m1 t H H0. destruct x; cbn in H; try discriminate; cbn in *.
  - destruct (memory m o) eqn:E; [|discriminate]. inversion H0; subst; cbn.
    repeat split. exists zero. split; [congruence|reflexivity].
  - destruct (memory m result) eqn:E; [|discriminate].
    destruct (values (memory m) args); [|discriminate]. inversion H0; subst; cbn.
    repeat split. exists (add v (ev expr l)). split; [congruence|reflexivity].
Qed.

Lemma step_wf : forall x m m1 t, wf m -> step x m = Some (m1, t) -> wf m1.
Proof.
  intros x m m1 t [N W] H. destruct (memory_action x) eqn:A.
  - apply step_dealloc in H; [|exact A]. destruct H as (-> & r & E & ->). split; cbn.
    + rewrite E in N. inversion N; auto.
    + intros o. destruct (Nat.eq_dec o (object x)) as [->|Hn].
      * rewrite update_same. rewrite E in N. inversion N; subst. tauto.
      * rewrite update_other by exact Hn. rewrite <- W, E. cbn. intuition congruence.
  - apply step_none in H; [|exact A]. destruct H as (E1 & _ & v & E2 & E3). split; [rewrite E1; exact N|].
    intros o. rewrite E1, E3. destruct (Nat.eq_dec o (object x)) as [->|Hn].
    + rewrite update_same, W. split; [discriminate|auto].
    + rewrite update_other by exact Hn. apply W.
  - apply step_alloc in H; [|exact A]. destruct H as [-> H]. apply allocate_is in H. destruct H as (E1 & E2 & ->).
    split; cbn.
    + constructor; [rewrite W; congruence|exact N].
    + intros o. destruct (Nat.eq_dec o (object x)) as [->|Hn].
      * rewrite update_same. tauto.
      * rewrite update_other by exact Hn. rewrite <- W. intuition congruence.
Qed.
Lemma run_wf : forall l m m1 t, wf m -> run l m = Some (m1, t) -> wf m1.
Proof.
  induction l; intros m m1 t W H; cbn in H; [inversion H; subst; exact W|].
  destruct (step a m) as [[m2 t2]|] eqn:E; [|discriminate].
  destruct (run l m2) as [[m3 t3]|] eqn:E'; [|discriminate]. inversion H; subst.
  eapply IHl; [|exact E']. eapply step_wf; eauto.
Qed.

Lemma stored_other : forall x m o, o <> object x -> stored x m o = store m o.
Proof. intros [] m o' H; cbn in *; auto; apply update_other; auto. Qed.
Lemma step_clean : forall x m m1 t o, (object x = o -> x = Load o \/ x = Unload o) ->
  clean o m -> step x m = Some (m1, t) -> clean o m1.
Proof.
  intros x m m1 t o R C H v Hv. destruct (memory_action x) eqn:A.
  - apply step_dealloc in H; [|exact A]. destruct H as (-> & r & E & ->). cbn in *.
    destruct (Nat.eq_dec o (object x)) as [Ho|Hn].
    + rewrite Ho, update_same in Hv. discriminate.
    + rewrite update_other in Hv by exact Hn. rewrite stored_other by exact Hn. auto.
  - apply step_none in H; [|exact A]. destruct H as (_ & E1 & w & E2 & E3). rewrite E1, E3 in *.
    destruct (Nat.eq_dec o (object x)) as [Ho|Hn].
    + destruct (R (eq_sym Ho)) as [->| ->]; discriminate.
    + rewrite update_other in Hv by exact Hn. auto.
  - apply step_alloc in H; [|exact A]. destruct H as [-> H]. apply allocate_is in H. destruct H as (E1 & E2 & ->).
    cbn in *. destruct (Nat.eq_dec o (object x)) as [Ho|Hn].
    + destruct (R (eq_sym Ho)) as [->| ->]; [|discriminate]. cbn in *. rewrite update_same in Hv. exact Hv.
    + rewrite update_other in Hv by exact Hn. auto.
Qed.
Lemma run_clean : forall l m m1 t o, only_read o l -> clean o m -> run l m = Some (m1, t) -> clean o m1.
Proof.
  induction l; intros m m1 t o R C H; cbn in H; [inversion H; subst; exact C|].
  destruct (step a m) as [[m2 t2]|] eqn:E; [|discriminate].
  destruct (run l m2) as [[m3 t3]|] eqn:E'; [|discriminate]. inversion H; subst.
  eapply IHl; [| |exact E'].
  - intros x Hx. apply R. right; exact Hx.
  - eapply step_clean; [|exact C|exact E]. intros Ho. apply R; [left; reflexivity|exact Ho].
Qed.

(** ** Runs from states that agree *)
Lemma step_frame : forall x m m' m1 t D R R', stack m = D ++ R -> stack m' = D ++ R' -> agree m m' ->
  (memory_action x = Deallocate -> D <> []) -> step x m = Some (m1, t) ->
  exists m1' D1, step x m' = Some (m1', t) /\ stack m1 = D1 ++ R /\ stack m1' = D1 ++ R' /\ agree m1 m1' /\
    match memory_action x with
    | Deallocate => D = object x :: D1
    | NoAction => D1 = D
    | Allocate => D1 = object x :: D
    end.
Proof.
  intros x m m' m1 t D R R' S1 S2 [M St] Hd H. destruct (memory_action x) eqn:A.
  - apply step_dealloc in H; [|exact A]. destruct H as (-> & r & E & ->).
    destruct D as [|d D]; [exfalso; apply Hd; auto|]. rewrite S1 in E. cbn in E. inversion E; subst d r.
    exists (mkMachine (D ++ R') (update (memory m') (object x) None) (stored x m')), D.
    split; [apply step_dealloc; [exact A|]; split; [reflexivity|]; exists (D ++ R'); split; [exact S2|reflexivity]|].
    cbn. split; [reflexivity|]. split; [reflexivity|]. split; [|reflexivity]. split; cbn.
    + apply update_ext. exact M.
    + intros o. destruct x; cbn; auto; try (apply update_ext; auto). rewrite M. apply update_ext. exact St.
  - assert (E : exists m1', step x m' = Some (m1', t) /\ agree m1 m1').
    { destruct x; cbn in A; try discriminate; cbn in *.
      - destruct (memory m o) eqn:E; [|discriminate]. inversion H; subst. rewrite <- M, E.
        eexists; split; [reflexivity|]. split; cbn; auto. apply update_ext; exact M.
      - destruct (memory m result) eqn:E; [|discriminate]. rewrite <- M, E.
        rewrite <- (values_ext _ _ args M). destruct (values (memory m) args); [|discriminate].
        inversion H; subst. eexists; split; [reflexivity|]. split; cbn; auto. apply update_ext; exact M. }
    destruct E as (m1' & E & Ag). exists m1', D.
    apply step_none in H; [|exact A]. assert (E' := E). apply step_none in E'; [|exact A].
    destruct H as [H _]. destruct E' as [E' _]. rewrite H, E'. auto.
  - apply step_alloc in H; [|exact A]. destruct H as [-> H]. apply allocate_is in H. destruct H as (E1 & E2 & ->).
    assert (Ei : initial x m' = initial x m) by (destruct x; cbn; auto).
    exists (mkMachine (object x :: stack m') (update (memory m') (object x) (initial x m')) (store m')), (object x :: D).
    split.
    + apply step_alloc; [exact A|]. split; [reflexivity|]. unfold allocate. rewrite <- M, E1, Ei.
      destruct (initial x m); [reflexivity|congruence].
    + cbn. rewrite S1, S2. split; [reflexivity|]. split; [reflexivity|]. split; [|reflexivity].
      split; cbn; auto. rewrite Ei. apply update_ext. exact M.
Qed.
Lemma run_same : forall l m m' m1 t, same m m' -> run l m = Some (m1, t) ->
  exists m1', run l m' = Some (m1', t) /\ same m1 m1'.
Proof.
  induction l; intros m m' m1 t [S0 Ag] H; cbn in H.
  - inversion H; subst. exists m'. split; [reflexivity|split; auto].
  - destruct (step a m) as [[m2 t2]|] eqn:E; [|discriminate].
    destruct (run l m2) as [[m3 t3]|] eqn:E'; [|discriminate]. inversion H; subst.
    destruct (step_frame a m m' m2 t2 (stack m) [] []) as (m2' & D1 & E1 & S1 & S2 & Ag' & _); auto.
    + rewrite app_nil_r; reflexivity.
    + rewrite app_nil_r; auto.
    + intros Ad. apply step_dealloc in E; [|exact Ad]. destruct E as (_ & r & E & _). rewrite E. discriminate.
    + destruct (IHl m2 m2' _ _ (conj (eq_trans S1 (eq_sym S2)) Ag') E') as (m3' & E3 & Sm).
      exists m3'. cbn. rewrite E1, E3. auto.
Qed.
Lemma run_frame : forall p st m m' m1 t R R', scan p = Some st ->
  stack m = map object st ++ R -> stack m' = map object st ++ R' -> agree m m' -> run p m = Some (m1, t) ->
  exists m1', run p m' = Some (m1', t) /\ stack m1 = R /\ stack m1' = R' /\ agree m1 m1'.
Proof.
  induction p as [|x p IH]; intros st m m' m1 t R R' Sc S1 S2 Ag H; cbn in H.
  - inversion Sc; subst. inversion H; subst. exists m'. auto.
  - destruct (step x m) as [[m2 t2]|] eqn:E; [|discriminate].
    destruct (run p m2) as [[m3 t3]|] eqn:E'; [|discriminate]. inversion H; subst; clear H.
    cbn in Sc. destruct (scan p) as [st1|] eqn:Es; [|discriminate]. unfold bstep in Sc.
    destruct (step_frame x m m' m2 t2 _ R R' S1 S2 Ag) as (m2' & D1 & E1 & T1 & T2 & Ag' & HD); auto.
    + intros A. rewrite A in Sc. inversion Sc; subst. discriminate.
    + assert (HD1 : D1 = map object st1).
      { destruct (memory_action x) eqn:A.
        - inversion Sc; subst. cbn in HD. inversion HD; reflexivity.
        - inversion Sc; subst. reflexivity.
        - destruct st1 as [|d st1]; [discriminate|]. destruct (pairs_with x d) eqn:Ep; [|discriminate].
          inversion Sc; subst. apply pairs_cases in Ep. destruct Ep as [-> _]. reflexivity. }
      subst D1. destruct (IH st1 m2 m2' m1 t3 R R' eq_refl T1 T2 Ag' E') as (m3' & E3 & U1 & U2 & Ag3).
      exists m3'. cbn. rewrite E1, E3. auto.
Qed.
Lemma scan_top : forall p st m m1 t, scan p = Some st -> run p m = Some (m1, t) ->
  exists R, stack m = map object st ++ R.
Proof.
  induction p as [|x p IH]; intros st m m1 t Sc H; cbn in H.
  - inversion Sc; subst. exists (stack m). reflexivity.
  - destruct (step x m) as [[m2 t2]|] eqn:E; [|discriminate].
    destruct (run p m2) as [[m3 t3]|] eqn:E'; [|discriminate].
    cbn in Sc. destruct (scan p) as [st1|] eqn:Es; [|discriminate]. unfold bstep in Sc.
    destruct (IH _ _ _ _ eq_refl E') as [R ER]. destruct (memory_action x) eqn:A.
    + apply step_dealloc in E; [|exact A]. destruct E as (_ & r & E & ->). cbn in ER. subst r.
      inversion Sc; subst. exists R. exact E.
    + apply step_none in E; [|exact A]. destruct E as [E _]. inversion Sc; subst. exists R. congruence.
    + apply step_alloc in E; [|exact A]. destruct E as [_ E]. apply allocate_is in E. destruct E as (_ & _ & ->).
      cbn in ER. destruct st1 as [|d st1]; [discriminate|]. destruct (pairs_with x d); [|discriminate].
      inversion Sc; subst. cbn in ER. inversion ER. exists R. auto.
Qed.

(** ** One step of the optimizer *)
Lemma opt1_run : forall l l' m m1 t, opt1 l l' -> inputs_only_read l -> specials l' = specials l ->
  wf m -> (forall o, clean o m) -> run l m = Some (m1, t) ->
  exists m1', run l' m = Some (m1', t) /\ same m1 m1'.
Proof.
  intros l l' m m1 t O RO Sp W C H. destruct O.
  - rewrite run_app in *. destruct (run pre m) as [[m2 t2]|] eqn:E2; [|discriminate].
    assert (W2 : wf m2) by (eapply run_wf; eauto).
    cbn in H. destruct (step x m2) as [[m3 t3]|] eqn:E3; [|discriminate].
    destruct (step y m3) as [[m4 t4]|] eqn:E4; [|discriminate].
    destruct (run post m4) as [[m5 t5]|] eqn:E5; [|discriminate].
    assert (Hs : same m4 m2 /\ t3 = [] /\ t4 = []).
    { destruct (cancels_is _ _ H0) as (o & [[-> ->]|[-> ->]]).
      - apply step_alloc in E3; [|reflexivity]. destruct E3 as [-> E3]. apply allocate_is in E3.
        destruct E3 as (Hn & Hv & ->). apply step_dealloc in E4; [|reflexivity].
        destruct E4 as (-> & r & E4 & ->). cbn in E4. inversion E4; subst r.
        repeat split; cbn. intros o'. destruct (Nat.eq_dec o' o) as [->|Hno].
        + rewrite update_same. symmetry; exact Hn.
        + rewrite !update_other by exact Hno. reflexivity.
      - apply step_dealloc in E3; [|reflexivity]. destruct E3 as (-> & r & E3 & ->).
        apply step_alloc in E4; [|reflexivity]. destruct E4 as [-> E4]. apply allocate_is in E4.
        destruct E4 as (Hn & Hv & ->). cbn in *. repeat split; cbn; auto.
        intros o'. destruct (Nat.eq_dec o' o) as [->|Hno].
        + rewrite update_same. assert (Cl : clean o m2).
          { eapply run_clean; [|apply C|exact E2]. intros w Hw. apply RO; rewrite ?in_app_iff; cbn; auto. }
          destruct W2 as [_ W2]. assert (Hm : memory m2 o <> None) by (apply W2; rewrite E3; left; reflexivity).
          destruct (memory m2 o) eqn:Em; [|congruence]. rewrite (Cl _ Em). reflexivity.
        + rewrite !update_other by exact Hno. reflexivity. }
    destruct Hs as (Hs & -> & ->). destruct (run_same _ _ _ _ _ Hs E5) as (m5' & E5' & Hs').
    rewrite E5'. inversion H; subst. exists m5'. auto.
  - (* the special operations are kept *)
    rewrite !specials_app, !specials_cons, !specials_app, !specials_cons in Sp.
    assert (Sx : special x = false) by (destruct (special x); [lia|reflexivity]).
    assert (Sz : special z = false) by (destruct (special x); destruct (special z); [lia|lia|lia|reflexivity]).
    clear Sp. apply not_special_dealloc in Sx; [|assumption]. apply not_special_alloc in Sz; [|assumption].
    remember (object x) as A eqn:EA. rewrite H6 in Sz. remember (object y) as B eqn:EB. subst x z. clear EA.
    assert (ROA : only_read A (p0 ++ u :: v :: p1 ++ Unload A :: y :: Load A :: post)).
    { apply RO; repeat (rewrite in_app_iff || cbn [In]); tauto. }
    assert (Ev : v = Load A).
    { destruct (ROA v) as [->| ->]; auto; [|discriminate]. repeat (rewrite in_app_iff || cbn [In]); tauto. }
    subst v.
    (* the original run *)
    rewrite run_app in *. destruct (run p0 m) as [[m2 t2]|] eqn:E2; [|discriminate].
    assert (W2 : wf m2) by (eapply run_wf; eauto).
    cbn [Gen_Spec.run] in H. destruct (step u m2) as [[m3 t3]|] eqn:E3; [|discriminate].
    destruct (step (Load A) m3) as [[m4 t4]|] eqn:E4; [|discriminate].
    rewrite run_app in H. destruct (run p1 m4) as [[m5 t5]|] eqn:E5; [|discriminate].
    cbn [Gen_Spec.run] in H. destruct (step (Unload A) m5) as [[m6 t6]|] eqn:E6; [|discriminate].
    destruct (step y m6) as [[m7 t7]|] eqn:E7; [|discriminate].
    destruct (step (Load A) m7) as [[m8 t8]|] eqn:E8; [|discriminate].
    destruct (run post m8) as [[m9 t9]|] eqn:E9; [|discriminate].
    assert (W5 : wf m5).
    { eapply run_wf; [|exact E5]. eapply step_wf; [|exact E4]. eapply step_wf; [|exact E3]. exact W2. }
    assert (C5 : clean A m5).
    { assert (Rp0 : only_read A p0) by (intros w Hw; apply ROA; repeat (rewrite in_app_iff || cbn [In]); tauto).
      assert (Rp1 : only_read A p1) by (intros w Hw; apply ROA; repeat (rewrite in_app_iff || cbn [In]); tauto).
      assert (Ru : object u = A -> u = Load A \/ u = Unload A) by (apply ROA; repeat (rewrite in_app_iff || cbn [In]); tauto).
      eapply run_clean; [exact Rp1| |exact E5]. eapply step_clean; [|  |exact E4]; [auto|].
      eapply step_clean; [exact Ru| |exact E3]. eapply run_clean; [exact Rp0|apply C|exact E2]. }
    apply step_alloc in E3; [|assumption]. destruct E3 as [-> E3]. apply allocate_is in E3. rewrite H7 in E3.
    destruct E3 as (N3 & V3 & ->).
    apply step_alloc in E4; [|reflexivity]. destruct E4 as [-> E4]. apply allocate_is in E4.
    destruct E4 as (N4 & V4 & ->). cbn [object initial memory stack store] in *.
    assert (AB : A <> B).
    { intros Eq. rewrite Eq, update_same in N4. congruence. }
    rewrite update_other in N4 by exact AB.
    (* nothing below the two objects is touched *)
    assert (Est : st = []).
    { destruct (scan_top _ _ _ _ _ H8 E5) as [R ER]. cbn in ER. destruct st as [|d st]; [reflexivity|].
      exfalso. cbn in ER. inversion ER as [[Ed Er]]. specialize (H9 d st eq_refl).
      assert (Ad : memory_action d = Deallocate).
      { clear - H8. assert (G : forall p s, scan p = Some s -> Forall (fun d => memory_action d = Deallocate) s).
        { induction p; intros s Hs; cbn in Hs; [inversion Hs; constructor|].
          destruct (scan p) as [s1|]; [|discriminate]. specialize (IHp _ eq_refl). unfold bstep in Hs.
          destruct (memory_action a) eqn:Ea.
          - inversion Hs; constructor; auto.
          - inversion Hs; subst; auto.
          - destruct s1; [discriminate|]. destruct (pairs_with a o); [|discriminate]. inversion Hs; subst.
            inversion IHp; auto. }
        apply G in H8. inversion H8; auto. }
      rewrite pairs_alloc in H9 by auto. cbn in H9. rewrite <- Ed, Nat.eqb_refl in H9. discriminate. }
    subst st.
    (* the new run *)
    set (n4 := mkMachine (B :: A :: stack m2)
                 (update (update (memory m2) A (store m2 A)) B (initial u m2)) (store m2)).
    assert (Ag : agree (mkMachine (A :: B :: stack m2)
                   (update (update (memory m2) B (initial u m2)) A (store m2 A)) (store m2)) n4).
    { split; cbn; auto. intros o. unfold update. destruct (Nat.eqb o A) eqn:E; destruct (Nat.eqb o B) eqn:E'; auto.
      apply Nat.eqb_eq in E, E'. congruence. }
    set (k4 := mkMachine (A :: B :: stack m2)
                   (update (update (memory m2) B (initial u m2)) A (store m2 A)) (store m2)) in *.
    destruct (run_frame p1 [] k4 n4 m5 t5 (A :: B :: stack m2) (B :: A :: stack m2) H8 eq_refl eq_refl Ag E5)
      as (n5 & F5 & T5 & T5' & Ag5).
    apply step_dealloc in E6; [|reflexivity]. destruct E6 as (-> & r & E6 & ->). cbn [object] in *.
    rewrite T5 in E6. inversion E6; subst r. clear E6.
    apply step_dealloc in E7; [|assumption]. destruct E7 as (-> & r & E7 & ->). rewrite <- EB in E7. cbn [stack memory store] in *.
    inversion E7; subst r. clear E7.
    apply step_alloc in E8; [|reflexivity]. destruct E8 as [-> E8]. apply allocate_is in E8.
    destruct E8 as (N8 & V8 & ->). cbn [object initial memory stack store] in *.
    rewrite <- EB in N8, E9.
    assert (F7 : step y n5 = Some (mkMachine (A :: stack m2) (update (memory n5) B None) (stored y n5), [])).
    { apply step_dealloc; [assumption|]. split; [reflexivity|]. exists (A :: stack m2). rewrite <- EB. split; [exact T5'|reflexivity]. }
    destruct Ag5 as [M5 St5].
    assert (Hs : same (mkMachine (A :: stack m2)
                   (update (update (update (memory m5) A None) B None) A
                      (stored y (mkMachine (B :: stack m2) (update (memory m5) A None) (store m5)) A))
                   (stored y (mkMachine (B :: stack m2) (update (memory m5) A None) (store m5))))
                 (mkMachine (A :: stack m2) (update (memory n5) B None) (stored y n5))).
    { split; [reflexivity|]. split; cbn.
      - intros o. destruct (Nat.eq_dec o A) as [->|Hn].
        + rewrite update_same. rewrite stored_other by (rewrite <- EB; exact AB). cbn. rewrite update_other by exact AB.
          rewrite <- M5. destruct W5 as [_ W5]. assert (Hm : memory m5 A <> None) by (apply W5; rewrite T5; left; reflexivity).
          destruct (memory m5 A) eqn:Em; [|congruence]. rewrite (C5 _ Em). reflexivity.
        + rewrite (update_other _ A) by exact Hn. unfold update at 1 3. destruct (Nat.eqb o B); [reflexivity|].
          rewrite update_other by exact Hn. apply M5.
      - intros o. destruct y; cbn in *; auto; try (apply update_ext; auto).
        rewrite (update_other (memory m5)) by congruence. rewrite M5. apply update_ext. exact St5. }
    destruct (run_same _ _ _ _ _ Hs E9) as (n9 & F9 & Hs9).
    exists n9. injection H as <- <-. split; [|exact Hs9].
    cbn [Gen_Spec.run].
    assert (F3 : step (Load A) m2 = Some (mkMachine (A :: stack m2) (update (memory m2) A (store m2 A)) (store m2), [])).
    { apply step_alloc; [reflexivity|]. split; [reflexivity|]. unfold allocate. cbn [object initial]. rewrite N4.
      destruct (store m2 A) eqn:Es; [reflexivity|]. congruence. }
    rewrite F3.
    assert (F4 : step u (mkMachine (A :: stack m2) (update (memory m2) A (store m2 A)) (store m2)) = Some (n4, [])).
    { apply step_alloc; [assumption|]. split; [reflexivity|]. unfold allocate. rewrite H7. cbn [memory].
      rewrite update_other by (intros Eq; apply AB; symmetry; exact Eq). rewrite N3.
      assert (Ei : initial u (mkMachine (A :: stack m2) (update (memory m2) A (store m2 A)) (store m2)) = initial u m2)
        by (destruct u; reflexivity).
      rewrite Ei. destruct (initial u m2) eqn:Eu; [|congruence]. unfold n4. rewrite ?Eu. reflexivity. }
    rewrite F4. rewrite run_app, F5. cbn [Gen_Spec.run]. rewrite F7, F9. reflexivity.
Qed.

Theorem opts_run : forall l l' m m1 t, opts l l' -> inputs_only_read l -> specials l' = specials l ->
  wf m -> (forall o, clean o m) -> run l m = Some (m1, t) ->
  exists m1', run l' m = Some (m1', t) /\ same m1 m1'.
Proof.
  intros l l' m m1 t O. apply clos_rt_rt1n in O. revert m1. induction O as [|l l1 l' O1 O IH]; intros m1 RO Sp W C H.
  - exists m1. split; [exact H|]. repeat split; auto.
  - apply clos_rt1n_rt in O. assert (S1 := opt1_specials _ _ O1). assert (S2 := opts_specials _ _ O).
    destruct (opt1_run _ _ _ _ _ O1 RO ltac:(lia) W C H) as (m2 & H2 & Sm).
    destruct (IH m2) as (m3 & H3 & Sm'); auto; [|lia|].
    + eapply inputs_incl; [|exact RO]. eapply opt1_incl; eauto.
    + exists m3. split; [exact H3|]. destruct Sm as (A1 & A2 & A3), Sm' as (B1 & B2 & B3).
      repeat split; intros; congruence.
Qed.
End Run.
Lemma wf_start : forall V (s : obj -> option V), wf (start s).
Proof. intros V s. split; cbn; [constructor|]. intros o. split; [intros []|]. intros H; exfalso; apply H; reflexivity. Qed.
Lemma clean_start : forall V (s : obj -> option V) o, clean o (start s).
Proof. intros V s o v H. discriminate. Qed.
