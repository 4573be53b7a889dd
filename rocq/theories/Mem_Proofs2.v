(** Proofs about memoize, continued: the invariant is kept, and iterators stay valid while no key is added. *)
From Coq Require Import List Bool Arith Lia Sorted Permutation.
From Verif Require Import Mem_Model Mem_Proofs1.
Import ListNotations.

Section Memoize.
  Context {V : Type}.
  Variable f : nat -> V.
  Variable grow : nat -> nat.
  Notation state := (@state V).
  Notation step := (step f grow).
  Notation run := (run f grow).
  Notation activity := (@activity V).
  Notation inv := (@inv V f).

  Lemma sorted_nodup (l : list nat) : StronglySorted lt l -> NoDup l.
  Proof. induction 1 as [|x l HS IH HF]; constructor; auto. intros H. rewrite Forall_forall in HF. specialize (HF x H). lia. Qed.
  Lemma change_sorted i s s' : inv s -> change f i s s' -> StronglySorted lt (keys (elems s')).
  Proof.
    intros HI [-> _ _|k _ H -> _|k H -> _ _]; [apply (inv_sorted _ _ HI)|apply insert_sorted; auto; apply (inv_sorted _ _ HI)|].
    rewrite keys_replace by auto. apply (inv_sorted _ _ HI).
  Qed.
  Lemma change_in i s s' k : change f i s s' -> In k (keys (elems s)) -> In k (keys (elems s')).
  Proof.
    intros [-> _ _|k0 _ H -> _|k0 H -> _ _] Hk; [auto| |now rewrite keys_replace].
    apply in_map_iff in Hk as (x & <- & Hx). apply (in_map fst). apply (proj2 (insert_in _ _ _ _)). now right.
  Qed.
  Lemma change_found i s s' k : inv s -> change f i s s' -> found k (elems s) = true -> found k (elems s') = true.
  Proof. intros HI HC H. apply in_found; [apply (change_sorted i s s' HI HC)|]. apply (change_in i s s' k HC). now apply found_in. Qed.
  Lemma replace_in k v (c : @cache V) x : StronglySorted lt (keys c) -> found k c = true -> In x (replace_at (lower_bound k c) (k, Some v) c) -> x = (k, Some v) \/ In x c /\ fst x <> k.
  Proof.
    intros HS H Hx. apply In_nth_error in Hx as [j Hj]. rewrite replace_other in Hj by auto. destruct (j =? lower_bound k c) eqn:E; [left; congruence|]. right.
    apply Nat.eqb_neq in E. split; [now apply nth_error_In in Hj|]. intros Hk. destruct (found_nth k c H) as [o Ho].
    pose proof (proj1 (NoDup_nth_error (keys c)) (sorted_nodup _ HS) j (lower_bound k c)) as N. unfold keys in N. rewrite map_length in N.
    apply E, N; [now apply nth_bound in Hj|]. rewrite !nth_error_map, Hj, Ho. cbn. now f_equal.
  Qed.

  Theorem step_inv s i b s' : inv s -> step s i b = Some s' -> inv s'.
  Proof.
    intros HI H. pose proof (step_change f grow s i b s' HI H) as HC. destruct (step_acts f grow s i b s' H) as (a & a' & Ea & Ek & Hacts).
    assert (Hi : forall j, j <> i -> nth_error (acts s') j = option_map (match a with Storing _ _ => @woken V | _ => fun x => x end) (nth_error (acts s) j)).
    { intros j Hj. rewrite Hacts. destruct (Nat.eqb_spec j i); congruence. }
    assert (Hi' : nth_error (acts s') i = Some a') by now rewrite Hacts, Nat.eqb_refl.
    assert (Hw : forall k x, busy k ((match a with Storing _ _ => @woken V | _ => fun x => x end) x) <-> busy k x) by (clear; intros k x; destruct a; try reflexivity; apply busy_woken).
    (* what the new activity is busy with *)
    assert (Hb : forall k, busy k a' -> found k (elems s') = true).
    { intros k Hk. unfold Mem_Model.step in H. rewrite Ea in H. destruct a as [k0|k0 it|k0 it|k0|k0 v|k0 r|k0 v|k0|k0]; try discriminate.
      - destruct (found k0 (elems s)) eqn:Ef.
        + destruct (nth_error (elems s) (lower_bound k0 (elems s))) as [[k' [v|]]|]; injection H as <-; cbn in Hi'; unfold set_act in Hi'; rewrite nth_update, Nat.eqb_refl in Hi' by (now apply nth_bound in Ea); injection Hi' as <-; destruct Hk.
        + unfold insertion in H. injection H as <-. cbn in Hi'. unfold set_act in Hi'. rewrite nth_update, Nat.eqb_refl in Hi' by (now apply nth_bound in Ea). injection Hi' as <-. cbn in Hk. subst k0.
          apply in_found; [apply insert_sorted; auto; apply (inv_sorted _ _ HI)|]. cbn [elems]. apply in_map_iff. exists (k, None). split; auto. apply insert_in. auto.
      - destruct b; [|discriminate]. injection H as <-. cbn in Hi'. unfold set_act in Hi'. rewrite nth_update, Nat.eqb_refl in Hi' by (now apply nth_bound in Ea). injection Hi' as <-. destruct Hk.
      - injection H as <-. cbn in Hi'. unfold set_act in Hi'. rewrite nth_update, Nat.eqb_refl in Hi' by (now apply nth_bound in Ea). injection Hi' as <-. destruct (deref s it) as [[? [?|]]|]; destruct Hk.
      - injection H as <-. cbn in Hi'. unfold set_act in Hi'. rewrite nth_update, Nat.eqb_refl in Hi' by (now apply nth_bound in Ea). injection Hi' as <-. assert (k0 = k) as -> by (destruct b; exact Hk).
        apply (inv_busy _ _ HI i). exists (Computing k). cbn. auto.
      - assert (Ef : found k0 (elems s) = true) by (apply (inv_busy _ _ HI i); exists (Storing k0 v); cbn; auto). rewrite Ef in H.
        injection H as <-. cbn in Hi'. unfold set_act in Hi'. rewrite nth_update, Nat.eqb_refl in Hi' by (rewrite map_length; now apply nth_bound in Ea). injection Hi' as <-. destruct Hk.
      - injection H as <-. cbn in Hi'. unfold set_act in Hi'. rewrite nth_update, Nat.eqb_refl in Hi' by (now apply nth_bound in Ea). injection Hi' as <-. destruct (deref s r) as [[? [?|]]|]; destruct Hk. }
    constructor.
    - eapply change_sorted; eauto.
    - intros k v Hin. destruct HC as [E _ _|k0 _ Hf E _|k0 Hf E _ _]; rewrite E in Hin; [now apply (inv_value _ _ HI)| |].
      + apply insert_in in Hin. destruct Hin as [Hin|Hin]; [discriminate|now apply (inv_value _ _ HI)].
      + apply replace_in in Hin; [|apply (inv_sorted _ _ HI)|exact Hf]. destruct Hin as [Hin|[Hin _]]; [congruence|now apply (inv_value _ _ HI)].
    - destruct (inv_calls _ _ HI) as [C1 C2]. destruct HC as [E _ ->|k0 _ Hf E ->|k0 Hf E _ ->]; rewrite E; [auto| |rewrite keys_replace by auto; auto]. split.
      + constructor; auto. intros Hin. apply C2 in Hin. apply in_found in Hin; [congruence|apply (inv_sorted _ _ HI)].
      + intros k. cbn [In]. rewrite C2. unfold keys. rewrite !in_map_iff. split.
        * intros [->|(x & <- & Hx)]; [exists (k, None)|exists x]; split; auto; apply insert_in; auto.
        * intros (x & <- & Hx). apply insert_in in Hx. destruct Hx as [->|Hx]; [left; reflexivity|right; exists x; auto].
    - intros j k (x & Hx & Hbx). destruct (Nat.eq_dec j i) as [->|Hj]; [rewrite Hi' in Hx; injection Hx as <-; auto|].
      rewrite Hi in Hx by auto. destruct (nth_error (acts s) j) as [y|] eqn:Ey; [|discriminate]. injection Hx as <-. apply (proj1 (Hw k y)) in Hbx.
      apply (change_found i s s' k HI HC). apply (inv_busy _ _ HI j). exists y. auto.
    - intros j k v Hx. destruct (Nat.eq_dec j i) as [->|Hj].
      + rewrite Hi' in Hx. injection Hx as ->. unfold Mem_Model.step in H. rewrite Ea in H. destruct a as [k0|k0 it|k0 it|k0|k0 v0|k0 r|k0 v0|k0|k0]; try discriminate.
        * destruct (found k0 (elems s)).
          -- destruct (nth_error (elems s) (lower_bound k0 (elems s))) as [[k' [v1|]]|]; injection H as <-; cbn in Hi'; unfold set_act in Hi'; rewrite nth_update, Nat.eqb_refl in Hi' by (now apply nth_bound in Ea); discriminate.
          -- unfold insertion in H. injection H as <-. cbn in Hi'. unfold set_act in Hi'. rewrite nth_update, Nat.eqb_refl in Hi' by (now apply nth_bound in Ea). discriminate.
        * destruct b; [|discriminate]. injection H as <-. cbn in Hi'. unfold set_act in Hi'. rewrite nth_update, Nat.eqb_refl in Hi' by (now apply nth_bound in Ea). discriminate.
        * injection H as <-. cbn in Hi'. unfold set_act in Hi'. rewrite nth_update, Nat.eqb_refl in Hi' by (now apply nth_bound in Ea). destruct (deref s it) as [[? [?|]]|]; discriminate.
        * injection H as <-. cbn in Hi'. unfold set_act in Hi'. rewrite nth_update, Nat.eqb_refl in Hi' by (now apply nth_bound in Ea). destruct b; [discriminate|]. now injection Hi' as <- <-.
        * destruct (if found k0 (elems s) then _ else _) as [[buf cap] c]. injection H as <-. cbn in Hi'. unfold set_act in Hi'. rewrite nth_update, Nat.eqb_refl in Hi' by (rewrite map_length; now apply nth_bound in Ea). discriminate.
        * injection H as <-. cbn in Hi'. unfold set_act in Hi'. rewrite nth_update, Nat.eqb_refl in Hi' by (now apply nth_bound in Ea). destruct (deref s r) as [[? [?|]]|]; discriminate.
      + rewrite Hi in Hx by auto. destruct (nth_error (acts s) j) as [y|] eqn:Ey; [|discriminate]. injection Hx as Hx.
        apply (inv_store _ _ HI j). rewrite Ey. f_equal. destruct a; auto; destruct y; cbn in Hx; congruence.
    - intros k Hin. (* the entry was open before, or it is new *)
      assert (G : (In (k, None) (elems s) /\ forall k0 v0, a = Storing k0 v0 -> k0 <> k) \/ (a = Calling k /\ found k (elems s) = false)).
      { unfold Mem_Model.step in H. rewrite Ea in H. destruct a as [k0|k0 it|k0 it|k0|k0 v0|k0 r|k0 v0|k0|k0]; try discriminate.
        - destruct (found k0 (elems s)) eqn:Ef.
          + destruct (nth_error (elems s) (lower_bound k0 (elems s))) as [[k' [v1|]]|]; injection H as <-; left; split; auto; discriminate.
          + unfold insertion in H. injection H as <-. cbn [elems] in Hin. apply insert_in in Hin. destruct Hin as [Hin|Hin]; [injection Hin as <-; auto|left; split; auto; discriminate].
        - destruct b; [|discriminate]. injection H as <-. left; split; auto; discriminate.
        - injection H as <-. left; split; auto; discriminate.
        - injection H as <-. left; split; auto; discriminate.
        - assert (Ef : found k0 (elems s) = true) by (apply (inv_busy _ _ HI i); exists (Storing k0 v0); cbn; auto). rewrite Ef in H. injection H as <-. cbn [elems] in Hin.
          apply replace_in in Hin; [|apply (inv_sorted _ _ HI)|exact Ef]. destruct Hin as [Hin|[Hin Hne]]; [discriminate|]. left. split; auto. intros k1 v1 E1. injection E1 as <- <-. cbn in Hne. congruence.
        - injection H as <-. left; split; auto; discriminate. }
      destruct G as [[Hin' Hne]|[-> Hf]].
      + destruct (inv_open _ _ HI k Hin') as (j & y & Ey & Hby). destruct (Nat.eq_dec j i) as [->|Hj].
        * rewrite Ea in Ey. injection Ey as <-. exists i, a'. split; auto. unfold Mem_Model.step in H. rewrite Ea in H. destruct a as [k0|k0 it|k0 it|k0|k0 v0|k0 r|k0 v0|k0|k0]; try (now destruct Hby); try discriminate.
          -- injection H as <-. cbn in Hi'. unfold set_act in Hi'. rewrite nth_update, Nat.eqb_refl in Hi' by (now apply nth_bound in Ea). injection Hi' as <-. destruct b; exact Hby.
          -- exfalso. now apply (Hne k0 v0 eq_refl).
        * exists j. rewrite Hi, Ey by auto. eexists. split; [reflexivity|]. now apply (proj2 (Hw k y)).
      + exists i, a'. split; auto. unfold Mem_Model.step in H. rewrite Ea, Hf in H. unfold insertion in H. injection H as <-. cbn in Hi'. unfold set_act in Hi'. rewrite nth_update, Nat.eqb_refl in Hi' by (now apply nth_bound in Ea). injection Hi' as <-. reflexivity.
  Qed.
  Lemma run_inv l : forall s s', inv s -> run s l = Some s' -> inv s'.
  Proof.
    induction l as [|[i b] l IH]; intros s s' HI H; cbn in H; [congruence|]. destruct (step s i b) as [s1|] eqn:E; [|discriminate].
    eapply IH; [|exact H]. eapply step_inv; eauto.
  Qed.

  (** ** Iterators *)
  Definition here (s : state) (k : nat) (it : iter) : Prop := it = mkiter (buffer s) (lower_bound k (elems s)) /\ found k (elems s) = true.
  Definition safe (s : state) (a : activity) : Prop :=
    match a with
    | Calling _ => True
    | Waiting k it | Awake k it => here s k it
    | Holding k it => here s k it /\ exists v, nth_error (elems s) (lower_bound k (elems s)) = Some (k, Some v)
    | Computing _ | Storing _ _ | Failed _ => True
    | Saw k v => v = f k
    | Broken _ => False
    end.
  Lemma here_deref s k it : here s k it -> exists o, deref s it = Some (k, o) /\ nth_error (elems s) (lower_bound k (elems s)) = Some (k, o).
  Proof. intros [-> H]. destruct (found_nth k _ H) as [o Ho]. exists o. unfold deref. cbn. rewrite Nat.eqb_refl. auto. Qed.
  Lemma here_change i s s' k it : change f i s s' -> length (elems s') = length (elems s) -> here s k it -> here s' k it.
  Proof.
    intros HC HL [-> H]. destruct (change_keys f i s s' HC HL) as [E1 E2]. split; [|rewrite <- H; now apply found_keys].
    rewrite E2. f_equal. symmetry. now apply lower_bound_keys.
  Qed.
  Lemma safe_change i s s' a : inv s -> change f i s s' -> length (elems s') = length (elems s) -> safe s a -> safe s' a.
  Proof.
    intros HI HC HL. destruct a; cbn; auto; try (now apply (here_change i s)). intros [H1 [v Hv]]. split; [now apply (here_change i s)|].
    assert (Hp : lower_bound k (elems s') = lower_bound k (elems s)) by (apply lower_bound_keys; now apply (change_keys f i)).
    rewrite Hp. destruct HC as [Ee _ _|k0 _ H Ee _|k0 H Ee _ _]; rewrite Ee; [eauto|rewrite Ee, insert_length in HL; lia|].
    rewrite replace_other by auto. destruct (Nat.eqb_spec (lower_bound k (elems s)) (lower_bound k0 (elems s))) as [E|E]; [|eauto].
    rewrite E in Hv. destruct (found_nth k0 _ H) as [o Ho]. rewrite Ho in Hv. injection Hv as -> _. eauto.
  Qed.
  Lemma safe_woken s a : safe s a -> safe s (woken a).
  Proof. destruct a; cbn; auto. Qed.

  (** What the activity that makes the step becomes. *)
  Lemma step_own s i b s' a : inv s -> step s i b = Some s' -> nth_error (acts s) i = Some a -> safe s a ->
    exists a', nth_error (acts s') i = Some a' /\ safe s' a'.
  Proof.
    intros HI H Ea Hs. assert (Hl : i < length (acts s)) by now apply nth_bound in Ea.
    assert (G : forall x, nth_error (set_act i x (acts s)) i = Some x) by (intros x; unfold set_act; now rewrite nth_update, Nat.eqb_refl).
    unfold Mem_Model.step in H. rewrite Ea in H. destruct a as [k|k it|k it|k|k v|k r|k v|k|k]; try discriminate.
    - destruct (found k (elems s)) eqn:Ef.
      + destruct (found_nth k _ Ef) as [o Ho]. rewrite Ho in H. destruct o as [v|]; injection H as <-; cbn [acts]; rewrite G; eexists; (split; [reflexivity|]); cbn; unfold here; cbn; eauto.
      + unfold insertion in H. injection H as <-. cbn [acts]. rewrite G. eexists; (split; [reflexivity|]). exact I.
    - destruct b; [|discriminate]. injection H as <-. cbn [acts]. rewrite G. eexists; (split; [reflexivity|]). exact Hs.
    - destruct (here_deref _ _ _ Hs) as (o & Hd & Hn). rewrite Hd in H. injection H as <-. cbn [acts]. rewrite G. eexists; (split; [reflexivity|]). destruct o as [v|]; cbn; [split; [exact Hs|eauto]|exact Hs].
    - injection H as <-. cbn [acts]. rewrite G. eexists; (split; [reflexivity|]). destruct b; exact I.
    - assert (Ef : found k (elems s) = true) by (apply (inv_busy _ _ HI i); exists (Storing k v); cbn; auto). rewrite Ef in H. injection H as <-. cbn [acts].
      unfold set_act. rewrite nth_update, Nat.eqb_refl by now rewrite map_length. eexists; (split; [reflexivity|]). cbn. unfold here. cbn [buffer elems].
      assert (Hk : keys (replace_at (lower_bound k (elems s)) (k, Some v) (elems s)) = keys (elems s)) by now apply keys_replace.
      rewrite (lower_bound_keys k _ _ Hk). split; [split; [reflexivity|rewrite <- Ef; now apply found_keys]|]. exists v. rewrite replace_other, Nat.eqb_refl by auto. reflexivity.
    - destruct Hs as [Hs [v Hv]]. destruct (here_deref _ _ _ Hs) as (o & Hd & Hn). rewrite Hd in H. rewrite Hv in Hn. injection Hn as <-. injection H as <-. cbn [acts]. rewrite G. eexists; (split; [reflexivity|]).
      cbn. apply (inv_value _ _ HI). now apply nth_error_In in Hv.
  Qed.
  Lemma step_safe s i b s' j a : inv s -> step s i b = Some s' -> length (elems s') = length (elems s) -> nth_error (acts s) j = Some a -> safe s a ->
    exists a', nth_error (acts s') j = Some a' /\ safe s' a'.
  Proof.
    intros HI H HL Ea Hs. destruct (Nat.eq_dec j i) as [->|Hj]; [eapply step_own; eauto|].
    destruct (step_acts f grow s i b s' H) as (x & x' & _ & _ & Hacts). rewrite Hacts. destruct (Nat.eqb_spec j i); [congruence|]. rewrite Ea. eexists. split; [reflexivity|].
    pose proof (step_change f grow s i b s' HI H) as HC. apply (safe_change _ _ _ _ HI HC HL) in Hs. destruct x; auto. now apply safe_woken.
  Qed.
  Lemma step_key s i b s' j a : step s i b = Some s' -> nth_error (acts s) j = Some a -> exists a', nth_error (acts s') j = Some a' /\ key_of a' = key_of a.
  Proof.
    intros H Ea. destruct (step_acts f grow s i b s' H) as (x & x' & Ex & Ek & Hacts). rewrite Hacts. destruct (Nat.eqb_spec j i) as [->|Hj].
    - exists x'. split; auto. congruence.
    - rewrite Ea. eexists. split; [reflexivity|]. destruct x; auto; now destruct a.
  Qed.
  Lemma step_grows s i b s' : inv s -> step s i b = Some s' -> length (elems s) <= length (elems s').
  Proof. intros HI H. destruct (change_length f _ _ _ (step_change f grow s i b s' HI H)) as [->|(k & _ & -> & _)]; lia. Qed.
  Lemma run_grows l : forall s s', inv s -> run s l = Some s' -> length (elems s) <= length (elems s').
  Proof.
    induction l as [|[i b] l IH]; intros s s' HI H; cbn in H; [injection H as ->; lia|]. destruct (step s i b) as [s1|] eqn:E; [|discriminate].
    apply step_grows in E as G; auto. apply IH in H; [lia|]. eapply step_inv; eauto.
  Qed.
  Lemma run_safe l : forall s s' j a, inv s -> run s l = Some s' -> length (elems s') = length (elems s) -> nth_error (acts s) j = Some a -> safe s a ->
    exists a', nth_error (acts s') j = Some a' /\ safe s' a' /\ key_of a' = key_of a.
  Proof.
    induction l as [|[i b] l IH]; intros s s' j a HI H HL Ea Hs; cbn in H; [injection H as ->; eauto|]. destruct (step s i b) as [s1|] eqn:E; [|discriminate].
    assert (HI1 : inv s1) by (eapply step_inv; eauto). pose proof (step_grows _ _ _ _ HI E) as G1. pose proof (run_grows _ _ _ HI1 H) as G2.
    destruct (step_safe _ _ _ _ j a HI E ltac:(lia) Ea Hs) as (a1 & Ea1 & Hs1). destruct (step_key _ _ _ _ j a E Ea) as (a2 & Ea2 & Hk). rewrite Ea1 in Ea2. injection Ea2 as <-.
    destruct (IH s1 s' j a1 HI1 H ltac:(lia) Ea1 Hs1) as (a' & H1 & H2 & H3). exists a'. split; auto. split; auto. congruence.
  Qed.

  (** ** One key *)
  Definition one_key (k0 : nat) (s : state) : Prop :=
    inv s /\ (forall j a, nth_error (acts s) j = Some a -> safe s a /\ key_of a = k0) /\ forall k, In k (keys (elems s)) -> k = k0.
  Lemma one_key_start k0 n : one_key k0 (start (repeat k0 n)).
  Proof.
    split; [apply start_inv|]. split; [|intros k []]. intros j a H. cbn in H. rewrite nth_error_map in H. destruct (nth_error (repeat k0 n) j) as [x|] eqn:E; [|discriminate]. injection H as <-.
    apply nth_error_In, repeat_spec in E. now subst.
  Qed.
  Lemma one_key_step k0 s i b s' : one_key k0 s -> step s i b = Some s' -> one_key k0 s'.
  Proof.
    intros (HI & HA & HK) H. pose proof (step_change f grow s i b s' HI H) as HC. destruct (step_acts f grow s i b s' H) as (x & x' & Ex & Ek & Hacts).
    assert (HI' : inv s') by (eapply step_inv; eauto). split; auto.
    assert (Hkeys : forall j a, nth_error (acts s') j = Some a -> key_of a = k0).
    { intros j a Ha. rewrite Hacts in Ha. destruct (j =? i); [injection Ha as <-; rewrite Ek; now apply (HA i)|]. destruct (nth_error (acts s) j) as [y|] eqn:Ey; [|discriminate]. injection Ha as <-.
      destruct (HA j y Ey) as [_ <-]. destruct x; auto; now destruct y. }
    assert (Hnew : forall k, nth_error (acts s) i = Some (Calling k) -> found k (elems s) = false -> k = k0 /\ elems s = []).
    { intros k Hc Hf. destruct (HA i _ Hc) as [_ Hk]. cbn in Hk. subst k. split; auto. destruct (elems s) as [|[k1 o1] c]; auto. exfalso.
      assert (k1 = k0) by (apply HK; left; reflexivity). subst k1. unfold found in Hf. cbn [lower_bound] in Hf. rewrite Nat.ltb_irrefl in Hf. cbn in Hf. now rewrite Nat.eqb_refl in Hf. }
    split.
    - intros j a Ha. split; [|eapply Hkeys; eauto]. destruct (change_length f _ s s' HC) as [HL|(k & Hf & HL & E)].
      + destruct (nth_error (acts s) j) as [y|] eqn:Ey.
        * destruct (step_safe _ _ _ _ j y HI H HL Ey (proj1 (HA j y Ey))) as (a' & Ea' & Hs). congruence.
        * rewrite Hacts, Ey in Ha. destruct (Nat.eqb_spec j i) as [->|]; [congruence|discriminate].
      + assert (N : elems s = []).
        { destruct HC as [E1 _ _|k2 Hc Hf2 E1 _|k2 Hf2 E1 _ _]; [rewrite E1 in HL; lia|now apply (Hnew k2)|].
          pose proof (keys_replace k2 (f k2) _ Hf2) as Hr. rewrite <- E1 in Hr. apply (f_equal (@length nat)) in Hr. unfold keys in Hr. rewrite !map_length in Hr. lia. }
        destruct (Nat.eq_dec j i) as [->|Hj].
        { destruct (step_own s i b s' x HI H Ex (proj1 (HA i x Ex))) as (a' & E' & Hs). congruence. }
        rewrite Hacts in Ha. destruct (Nat.eqb_spec j i); [congruence|]. destruct (nth_error (acts s) j) as [y|] eqn:Ey; [|discriminate]. injection Ha as <-.
        assert (Hy : safe s y) by now apply (HA j).
        assert (Hy' : safe s' y). { destruct y; cbn in Hy |- *; auto; try (destruct Hy as [_ Hy]; rewrite N in Hy; discriminate). destruct Hy as [[_ Hy] _]. rewrite N in Hy. discriminate. }
        destruct x; auto; now apply safe_woken.
    - intros k Hk. destruct HC as [E _ _|k2 Hc Hf2 E Ecalls|k2 Hf2 E _ _]; rewrite E in Hk; [auto| |rewrite keys_replace in Hk; auto].
      apply in_map_iff in Hk as (y & <- & Hy). apply insert_in in Hy. destruct Hy as [->|Hy]; [|apply HK; now apply in_map].
      cbn. now apply Hnew.
  Qed.
  Lemma one_key_run k0 l : forall s s', one_key k0 s -> run s l = Some s' -> one_key k0 s'.
  Proof.
    induction l as [|[i b] l IH]; intros s s' HO H; cbn in H; [congruence|]. destruct (step s i b) as [s1|] eqn:E; [|discriminate]. eapply IH; [|exact H]. eapply one_key_step; eauto.
  Qed.
End Memoize.
