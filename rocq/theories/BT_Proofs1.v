(** Heap lemmas and the traversal loop. *)
From Coq Require Import List Arith Bool Permutation Lia.
From Verif Require Import BT_Model BT_Spec.
Import ListNotations.

Lemma upd_same : forall X (f : nat -> X) a v, upd f a v a = v.
Proof. intros. unfold upd. rewrite Nat.eqb_refl. reflexivity. Qed.
Lemma upd_other : forall X (f : nat -> X) a v x, x <> a -> upd f a v x = f x.
Proof. intros. unfold upd. apply Nat.eqb_neq in H. rewrite H. reflexivity. Qed.

Section L.
  Context {T : Type}.
  Implicit Types (h : heap T) (t u l r : atree T).

  Lemma nodup_app : forall (x y : list nat), NoDup (x ++ y) <->
    NoDup x /\ NoDup y /\ (forall a, In a x -> ~ In a y).
  Proof.
    induction x as [|b x IH]; cbn; intros y.
    - split; [intros H; repeat split; auto; constructor|tauto].
    - rewrite !NoDup_cons_iff, IH, in_app_iff. split.
      + intros (H1 & H2 & H3 & H4). repeat split; auto. intros a [->|Ha]; auto.
      + intros ((H1 & H2) & H3 & H4). repeat split; auto.
        intros [Hb|Hb]; auto. eapply H4; eauto.
  Qed.

  Lemma nodup_node : forall a (d : T) l r, NoDup (addrs (ANode a d l r)) <->
    ~ In a (addrs l) /\ ~ In a (addrs r) /\ NoDup (addrs l) /\ NoDup (addrs r) /\
    (forall x, In x (addrs l) -> ~ In x (addrs r)).
  Proof. intros. cbn. rewrite NoDup_cons_iff, nodup_app, in_app_iff. tauto. Qed.

  Lemma aroot_in : forall t, In (aroot t) (addrs t).
  Proof. destruct t; cbn; auto. Qed.

  Lemma linked_some : forall h t par a, linked h par t -> In a (addrs t) -> cells h a <> None.
  Proof.
    induction t as [a0 d|a0 d l IHl r IHr]; cbn; intros par a H Hin.
    - destruct Hin as [->|[]]. congruence.
    - destruct H as (H0 & Hl & Hr). rewrite in_app_iff in Hin.
      destruct Hin as [->|[Hin|Hin]]; [congruence|eauto|eauto].
  Qed.

  Lemma linked_lt : forall h t par a, heap_ok h -> linked h par t -> In a (addrs t) -> a < next h.
  Proof.
    intros h t par a Hok HL Hin. destruct (Nat.lt_ge_cases a (next h)); auto.
    exfalso. eapply linked_some; eauto.
  Qed.

  Lemma linked_ext : forall h h' t par, linked h par t ->
    (forall a, In a (addrs t) -> cells h' a = cells h a) -> linked h' par t.
  Proof.
    induction t as [a0 d|a0 d l IHl r IHr]; cbn; intros par H E.
    - rewrite E; auto.
    - destruct H as (H0 & Hl & Hr). split; [rewrite E; auto|].
      split; [apply IHl|apply IHr]; auto; intros; apply E; right; apply in_app_iff; auto.
  Qed.

  (** The parent pointer of the root, and nothing else, distinguishes [linked h p] from
      [linked h q]. *)
  Lemma linked_reparent : forall h t par v c, linked h par t -> NoDup (addrs t) ->
    cells h (aroot t) = Some c ->
    linked (set_cell h (aroot t) (Some (mkcell (c_data c) (c_left c) (c_right c) v))) v t.
  Proof.
    intros h t par v c H ND E. destruct t as [a d|a d l r]; cbn [linked aroot set_cell cells] in *.
    - rewrite upd_same. rewrite H in E. inversion E; subst. reflexivity.
    - destruct H as (H0 & Hl & Hr). rewrite nodup_node in ND.
      rewrite H0 in E. inversion E; subst. cbn. rewrite upd_same.
      split; [reflexivity|]. split.
      + eapply linked_ext; [exact Hl|]. intros x Hx. cbn. apply upd_other. intros ->. tauto.
      + eapply linked_ext; [exact Hr|]. intros x Hx. cbn. apply upd_other. intros ->. tauto.
  Qed.

  Lemma linked_cell : forall h t par, linked h par t -> exists c, cells h (aroot t) = Some c /\
    c_data c = adata t /\ c_parent c = par /\
    c_left c = match t with ALeaf _ _ => None | ANode _ _ l _ => Some (aroot l) end /\
    c_right c = match t with ALeaf _ _ => None | ANode _ _ _ r => Some (aroot r) end.
  Proof.
    intros h t par H. destruct t; cbn in *; [|destruct H as (H & _)]; rewrite H; eexists; split; [reflexivity| |reflexivity|]; cbn; auto.
  Qed.
End L.

(** ** The traversal loop *)
Section V.
  Context {T S : Type}.
  Variable V : S -> heap T -> nat -> context -> S * heap T * bool.
  Variable VT : S -> atree T -> context -> S * atree T * bool.
  Variable o : order.
  Variable k : kind.
  Variable asserts : bool.
  Hypothesis IMP : implements V VT.

  Implicit Types (h : heap T) (t l r : atree T).

  Definition vstep := visit_step V o k asserts.
  Definition vloop := visit_loop V o k asserts.

  (** Result of a (possibly skipped) visitor call on the tree held at [t]. *)
  Definition good (par : option nat) h t h' t' : Prop :=
    holds h' par t' /\ aroot t' = aroot t /\ only_touches (addrs t) h h' /\
    (forall a, In a (addrs t') -> In a (addrs t) \/ next h <= a).

  Lemma good_refl : forall par h t, holds h par t -> good par h t h t.
  Proof. intros. repeat split; auto; try apply H. Qed.

  Lemma call_good : forall w c s h par t s' t' b, holds h par t ->
    call VT w c s t = (s', t', b) ->
    exists h', (if w then V s h (aroot t) c else (s, h, true)) = (s', h', b) /\ good par h t h' t'.
  Proof.
    intros w c s h par t s' t' b H E. unfold call in E. destruct w.
    - specialize (IMP s h par t c H). destruct (V s h (aroot t) c) as [[s1 h1] b1].
      destruct IMP as (t1 & E1 & G). rewrite E in E1. inversion E1; subst. exists h1. split; auto.
    - inversion E; subst. exists h. split; auto. apply good_refl; auto.
  Qed.

  Lemma good_trans : forall par h t h1 t1 h2 t2, holds h par t ->
    good par h t h1 t1 -> good par h1 t1 h2 t2 -> good par h t h2 t2.
  Proof.
    intros par h t h1 t1 h2 t2 H (A1 & A2 & (A3 & A4) & A5) (B1 & B2 & (B3 & B4) & B5).
    split; [auto|]. split; [congruence|]. split; [split; [lia|]|].
    - intros a La Na. rewrite B4; [auto|lia|]. intros Hin. apply A5 in Hin. destruct Hin; [auto|lia].
    - intros a Ha. apply B5 in Ha. destruct Ha as [Ha|Ha]; [apply A5 in Ha; auto|right; lia].
  Qed.

  (** A change confined to the left (right) subtree is a change confined to the node. *)
  Lemma good_left : forall par h a d l r h' l', holds h par (ANode a d l r) ->
    good (Some a) h l h' l' -> good par h (ANode a d l r) h' (ANode a d l' r).
  Proof.
    intros par h a d l r h' l' (Hok & HL & HN) ((Gok & GL & GN) & Gr & (Gn & Gt) & Gs).
    cbn in HL. destruct HL as (H0 & Hl & Hr). rewrite nodup_node in HN. destruct HN as (N1 & N2 & N3 & N4 & N5).
    assert (La : a < next h). { destruct (Nat.lt_ge_cases a (next h)); auto. rewrite Hok in H0 by auto. discriminate. }
    split.
    - split; [auto|]. split.
      + cbn. split; [rewrite Gt; auto; rewrite H0, Gr; reflexivity|]. split; [auto|].
        eapply linked_ext; [exact Hr|]. intros x Hx. apply Gt; [eapply linked_lt; eauto|]. intros Hin. eapply N5; eauto.
      + apply nodup_node. split; [intros Hin; apply Gs in Hin; destruct Hin; [auto|lia]|].
        split; [auto|]. split; [auto|]. split; [auto|].
        intros x Hx Hx'. apply Gs in Hx. destruct Hx as [Hx|Hx]; [eapply N5; eauto|].
        assert (x < next h) by (eapply linked_lt; [exact Hok|exact Hr|auto]). lia.
    - split; [reflexivity|]. split; [split; auto|].
      + intros x Lx Nx. apply Gt; auto. intros Hin. apply Nx. cbn. right. apply in_app_iff. auto.
      + intros x Hx. cbn in Hx |- *. rewrite in_app_iff in *. destruct Hx as [Hx|[Hx|Hx]]; auto.
        apply Gs in Hx. tauto.
  Qed.

  Lemma good_right : forall par h a d l r h' r', holds h par (ANode a d l r) ->
    good (Some a) h r h' r' -> good par h (ANode a d l r) h' (ANode a d l r').
  Proof.
    intros par h a d l r h' r' (Hok & HL & HN) ((Gok & GL & GN) & Gr & (Gn & Gt) & Gs).
    cbn in HL. destruct HL as (H0 & Hl & Hr). rewrite nodup_node in HN. destruct HN as (N1 & N2 & N3 & N4 & N5).
    assert (La : a < next h). { destruct (Nat.lt_ge_cases a (next h)); auto. rewrite Hok in H0 by auto. discriminate. }
    split.
    - split; [auto|]. split.
      + cbn. split; [rewrite Gt; auto; rewrite H0, Gr; reflexivity|]. split; [|auto].
        eapply linked_ext; [exact Hl|]. intros x Hx. apply Gt; [eapply linked_lt; [exact Hok|exact Hl|exact Hx]|exact (N5 x Hx)].
      + apply nodup_node. split; [auto|].
        split; [intros Hin; apply Gs in Hin; destruct Hin; [auto|lia]|]. split; [auto|]. split; [auto|].
        intros x Hx Hx'. apply Gs in Hx'. destruct Hx' as [Hx'|Hx']; [eapply N5; eauto|].
        assert (x < next h) by (eapply linked_lt; [exact Hok|exact Hl|auto]). lia.
    - split; [reflexivity|]. split; [split; auto|].
      + intros x Lx Nx. apply Gt; auto. intros Hin. apply Nx. cbn. right. apply in_app_iff. auto.
      + intros x Hx. cbn in Hx |- *. rewrite in_app_iff in *. destruct Hx as [Hx|[Hx|Hx]]; auto.
        apply Gs in Hx. tauto.
  Qed.

  Lemma holds_left : forall h par a d l r, holds h par (ANode a d l r) -> holds h (Some a) l.
  Proof. intros * (H1 & (H2 & H3 & H4) & H5). rewrite nodup_node in H5. repeat split; tauto. Qed.
  Lemma holds_right : forall h par a d l r, holds h par (ANode a d l r) -> holds h (Some a) r.
  Proof. intros * (H1 & (H2 & H3 & H4) & H5). rewrite nodup_node in H5. repeat split; tauto. Qed.
  Lemma holds_node : forall h par a d l r, holds h par (ANode a d l r) ->
    cells h a = Some (mkcell d (Some (aroot l)) (Some (aroot r)) par).
  Proof. intros * (H1 & (H2 & H3 & H4) & H5). auto. Qed.
  Lemma holds_leaf : forall h par a d, holds h par (ALeaf a d) ->
    cells h a = Some (mkcell d None None par).
  Proof. intros * (H1 & H2 & H3). auto. Qed.

  Lemma roots_differ : forall h par a d l r, holds h par (ANode a d l r) -> aroot l <> aroot r /\ aroot l <> a /\ aroot r <> a.
  Proof.
    intros * (_ & _ & H). rewrite nodup_node in H. destruct H as (N1 & N2 & N3 & N4 & N5).
    pose proof (aroot_in l). pose proof (aroot_in r). repeat split; intros E; rewrite E in *; eauto.
    eapply N5; eauto.
  Qed.

  (** A cell that is not a leaf, seen through the tree it belongs to. *)
  Lemma holds_cell : forall h par t, holds h par t ->
    exists c, cells h (aroot t) = Some c /\ c_parent c = par /\
      c_leaf c = match t with ALeaf _ _ => true | _ => false end.
  Proof.
    intros h par t H. destruct t.
    - apply holds_leaf in H. cbn. rewrite H. eexists; repeat split.
    - apply holds_node in H. cbn. rewrite H. eexists; repeat split.
  Qed.

  Definition prev_ok (par : option nat) (t : atree T) (prev : nat) : Prop :=
    match par with
    | None => prev = aroot t
    | Some p => prev = p /\ ~ In p (addrs t)
    end.

  Lemma prev_not_child : forall h par a d l r prev, holds h par (ANode a d l r) ->
    prev_ok par (ANode a d l r) prev ->
    prev <> aroot l /\ prev <> aroot r.
  Proof.
    intros h par a d l r prev H P. pose proof (roots_differ _ _ _ _ _ _ H) as (R1 & R2 & R3).
    destruct par as [p|]; cbn in P.
    - destruct P as (-> & P). split; intros ->; apply P; right; apply in_app_iff; [left|right]; apply aroot_in.
    - subst prev. split; congruence.
  Qed.

  (** Arriving from above. *)
  Lemma step_pre : forall s h par a d l r prev s1 t1 b,
    holds h par (ANode a d l r) -> prev_ok par (ANode a d l r) prev ->
    call VT (inner k (o_pre o)) CtxPre s (ANode a d l r) = (s1, t1, b) ->
    exists h1, good par h (ANode a d l r) h1 t1 /\
      vstep s h a prev = Some (s1, h1, if b then match t1 with ALeaf _ _ => par | ANode _ _ l1 _ => Some (aroot l1) end else par).
  Proof.
    intros s h par a d l r prev s1 t1 b H P E.
    destruct (call_good _ _ _ _ _ _ _ _ _ H E) as (h1 & EV & G). exists h1. split; auto.
    unfold vstep, visit_step. rewrite (holds_node _ _ _ _ _ _ H). cbn [c_leaf c_left c_right c_parent].
    destruct (prev_not_child _ _ _ _ _ _ _ H P) as (P1 & P2).
    apply Nat.eqb_neq in P1, P2. rewrite P1, P2.
    assert (PA : match par with None => true | Some p => Nat.eqb prev p end = true).
    { destruct par; auto. destruct P as (-> & _). apply Nat.eqb_refl. }
    rewrite PA. rewrite andb_false_r. cbn [aroot] in EV.
    replace (o_pre o && wants_internal k) with (inner k (o_pre o)) by (unfold inner, wants_internal; destruct k; reflexivity).
    rewrite EV. destruct G as (GH & GR & _). cbn [aroot] in GR. destruct t1 as [a1 d1|a1 d1 l1 r1]; cbn [aroot] in GR; subst a1.
    - rewrite (holds_leaf _ _ _ _ GH). cbn. destruct b; reflexivity.
    - rewrite (holds_node _ _ _ _ _ _ GH). cbn. destruct b; reflexivity.
  Qed.

  (** Arriving from the left child. *)
  Lemma step_in : forall s h par a d l r s1 t1 b,
    holds h par (ANode a d l r) ->
    call VT (inner k (o_in o)) CtxIn s (ANode a d l r) = (s1, t1, b) ->
    exists h1, good par h (ANode a d l r) h1 t1 /\
      vstep s h a (aroot l) = Some (s1, h1, if b then match t1 with ALeaf _ _ => par | ANode _ _ _ r1 => Some (aroot r1) end else par).
  Proof.
    intros s h par a d l r s1 t1 b H E.
    destruct (call_good _ _ _ _ _ _ _ _ _ H E) as (h1 & EV & G). exists h1. split; auto.
    unfold vstep, visit_step. rewrite (holds_node _ _ _ _ _ _ H). cbn [c_leaf c_left c_right c_parent].
    rewrite Nat.eqb_refl. cbn [aroot] in EV.
    replace (o_in o && wants_internal k) with (inner k (o_in o)) by (unfold inner, wants_internal; destruct k; reflexivity).
    rewrite EV. destruct G as (GH & GR & _). cbn [aroot] in GR. destruct t1 as [a1 d1|a1 d1 l1 r1]; cbn [aroot] in GR; subst a1.
    - rewrite (holds_leaf _ _ _ _ GH). cbn. destruct b; reflexivity.
    - rewrite (holds_node _ _ _ _ _ _ GH). cbn. destruct b; reflexivity.
  Qed.

  (** Arriving from the right child. *)
  Lemma step_post : forall s h par a d l r s1 t1 b,
    holds h par (ANode a d l r) ->
    call VT (inner k (o_post o)) CtxPost s (ANode a d l r) = (s1, t1, b) ->
    exists h1, good par h (ANode a d l r) h1 t1 /\
      vstep s h a (aroot r) = Some (s1, h1, par).
  Proof.
    intros s h par a d l r s1 t1 b H E.
    destruct (call_good _ _ _ _ _ _ _ _ _ H E) as (h1 & EV & G). exists h1. split; auto.
    unfold vstep, visit_step. rewrite (holds_node _ _ _ _ _ _ H). cbn [c_leaf c_left c_right c_parent].
    destruct (roots_differ _ _ _ _ _ _ H) as (R1 & _).
    replace (aroot r =? aroot l) with false by (symmetry; apply Nat.eqb_neq; auto).
    rewrite Nat.eqb_refl. cbn [aroot] in EV.
    replace (o_post o && wants_internal k) with (inner k (o_post o)) by (unfold inner, wants_internal; destruct k; reflexivity).
    rewrite EV. destruct G as (GH & GR & _). cbn [aroot] in GR. destruct t1 as [a1 d1|a1 d1 l1 r1]; cbn [aroot] in GR; subst a1.
    - rewrite (holds_leaf _ _ _ _ GH). cbn. destruct b; reflexivity.
    - rewrite (holds_node _ _ _ _ _ _ GH). cbn. destruct b; reflexivity.
  Qed.

  Lemma step_leaf : forall s h par a d prev s1 t1 b,
    holds h par (ALeaf a d) ->
    call VT (match k with VisitInternal => false | _ => true end) CtxAny s (ALeaf a d) = (s1, t1, b) ->
    exists h1, good par h (ALeaf a d) h1 t1 /\ vstep s h a prev = Some (s1, h1, par).
  Proof.
    intros s h par a d prev s1 t1 b H E.
    destruct (call_good _ _ _ _ _ _ _ _ _ H E) as (h1 & EV & G). exists h1. split; auto.
    unfold vstep, visit_step. rewrite (holds_leaf _ _ _ _ H). cbn [c_leaf c_left c_right c_parent].
    fold (wants_leaf k) in EV. cbn [aroot] in EV. rewrite EV.
    destruct G as (GH & GR & _). destruct (holds_cell _ _ _ GH) as (c & C1 & C2 & _). cbn [aroot] in GR. rewrite GR in C1. rewrite C1, C2. reflexivity.
  Qed.

  Lemma loop_step : forall n s h a prev s1 h1 nxt, vstep s h a prev = Some (s1, h1, nxt) ->
    vloop (Datatypes.S n) s h (Some a) prev = vloop n s1 h1 nxt a.
  Proof. intros. unfold vloop. cbn [visit_loop]. unfold vstep in H. rewrite H. reflexivity. Qed.

  Lemma walk_loop : forall s t s' t', walk VT o k s t s' t' ->
    forall h par prev, holds h par t -> prev_ok par t prev ->
    exists n h', good par h t h' t' /\
      forall fuel, vloop (n + fuel) s h (Some (aroot t)) prev = vloop fuel s' h' par (aroot t).
  Proof.
    induction 1 as [s a d s' t' b E
                   |s a d l r s1 t1 b E Hb
                   |s a d l r s1 a1 d1 l1 r1 s2 l2 s3 t3 b E W IHW E2 Hb
                   |s a d l r s1 a1 d1 l1 r1 s2 l2 s3 a3 d3 l3 r3 s4 r4 s5 t5 b E W IHW E2 W2 IHW2 E3];
      intros h par prev H P.
    - destruct (step_leaf _ _ _ _ _ prev _ _ _ H E) as (h1 & G & ST). exists 1, h1. split; auto.
      intros fuel. cbn [Nat.add aroot]. apply loop_step. exact ST.
    - destruct (step_pre _ _ _ _ _ _ _ _ _ _ _ H P E) as (h1 & G & ST). exists 1, h1. split; auto.
      intros fuel. cbn [Nat.add aroot]. erewrite loop_step by exact ST. f_equal.
      destruct Hb as [->|Hb]; auto. destruct t1; [destruct b; auto|discriminate].
    - destruct (step_pre _ _ _ _ _ _ _ _ _ _ _ H P E) as (h1 & G1 & ST).
      pose proof G1 as (H1 & R1 & _). cbn [aroot] in R1. subst a1.
      assert (Hl1 := holds_left _ _ _ _ _ _ H1).
      assert (Pl : prev_ok (Some a) l1 a). { cbn. split; auto. destruct H1 as (_ & _ & N). rewrite nodup_node in N. tauto. }
      destruct (IHW _ _ _ Hl1 Pl) as (n2 & h2 & G2 & L2).
      pose proof (good_left _ _ _ _ _ _ _ _ H1 G2) as G2'. pose proof G2' as (H2 & _).
      destruct (step_in _ _ _ _ _ _ _ _ _ _ H2 E2) as (h3 & G3 & ST3).
      exists (1 + (n2 + 1)), h3. split.
      + eapply good_trans; [exact H|exact G1|]. eapply good_trans; [exact H1|exact G2'|exact G3].
      + intros fuel. cbn [aroot].
        replace (1 + (n2 + 1) + fuel) with (Datatypes.S (n2 + Datatypes.S fuel)) by lia.
        erewrite loop_step by exact ST. rewrite L2.
        pose proof G2 as (_ & R2 & _). rewrite <- R2. erewrite loop_step by exact ST3.
        f_equal. destruct Hb as [->|Hb]; auto. destruct t3; [destruct b; auto|discriminate].
    - destruct (step_pre _ _ _ _ _ _ _ _ _ _ _ H P E) as (h1 & G1 & ST).
      pose proof G1 as (H1 & R1 & _). cbn [aroot] in R1. subst a1.
      assert (Hl1 := holds_left _ _ _ _ _ _ H1).
      assert (Pl : prev_ok (Some a) l1 a). { cbn. split; auto. destruct H1 as (_ & _ & N). rewrite nodup_node in N. tauto. }
      destruct (IHW _ _ _ Hl1 Pl) as (n2 & h2 & G2 & L2).
      pose proof (good_left _ _ _ _ _ _ _ _ H1 G2) as G2'. pose proof G2' as (H2 & _).
      destruct (step_in _ _ _ _ _ _ _ _ _ _ H2 E2) as (h3 & G3 & ST3).
      pose proof G3 as (H3 & R3 & _). cbn [aroot] in R3. subst a3.
      assert (Hr3 := holds_right _ _ _ _ _ _ H3).
      assert (Pr : prev_ok (Some a) r3 a). { cbn. split; auto. destruct H3 as (_ & _ & N). rewrite nodup_node in N. tauto. }
      destruct (IHW2 _ _ _ Hr3 Pr) as (n4 & h4 & G4 & L4).
      pose proof (good_right _ _ _ _ _ _ _ _ H3 G4) as G4'. pose proof G4' as (H4 & _).
      destruct (step_post _ _ _ _ _ _ _ _ _ _ H4 E3) as (h5 & G5 & ST5).
      exists (1 + (n2 + (1 + (n4 + 1)))), h5. split.
      + eapply good_trans; [exact H|exact G1|]. eapply good_trans; [exact H1|exact G2'|].
        eapply good_trans; [exact H2|exact G3|]. eapply good_trans; [exact H3|exact G4'|exact G5].
      + intros fuel. cbn [aroot].
        replace (1 + (n2 + (1 + (n4 + 1))) + fuel) with (Datatypes.S (n2 + Datatypes.S (n4 + Datatypes.S fuel))) by lia.
        erewrite loop_step by exact ST. rewrite L2.
        pose proof G2 as (_ & R2 & _). rewrite <- R2. erewrite loop_step by exact ST3.
        rewrite L4. pose proof G4 as (_ & R4 & _). rewrite <- R4. erewrite loop_step by exact ST5. reflexivity.
  Qed.

  Theorem visit_walk : forall s t s' t' h, o_pre o || o_post o || o_in o = true ->
    holds h None t -> walk VT o k s t s' t' ->
    exists n h', (forall fuel, n <= fuel -> visit V o k asserts fuel s h (aroot t) = Some (s', h')) /\
      good None h t h' t'.
  Proof.
    intros s t s' t' h Ho H W.
    destruct (walk_loop _ _ _ _ W h None (aroot t) H eq_refl) as (n & h' & G & L).
    exists (n + 1), h'. split; auto. intros fuel Hf. unfold visit. rewrite Ho.
    replace fuel with (n + (fuel - n)) by lia. fold vloop. rewrite L.
    destruct (fuel - n) eqn:E; [lia|reflexivity].
  Qed.
End V.

(** ** Visitors that do not touch the tree *)
Section ConstV.
  Context {T S : Type}.
  Variable f : S -> nat -> context -> S * bool.
  Variable o : order.
  Variable k : kind.

  Definition constVT (s : S) (t : atree T) (c : context) : S * atree T * bool :=
    let '(s', b) := f s (aroot t) c in (s', t, b).

  Lemma call_const : forall w c s t, call constVT w c s t =
    (fst (tell f w c s (aroot t)), t, snd (tell f w c s (aroot t))).
  Proof. intros. unfold call, tell, constVT. destruct w; auto. destruct (f s (aroot t) c); auto. Qed.

  Lemma recursive_visit_walk : forall t s, walk constVT o k s t (recursive_visit f o k s t) t.
  Proof.
    induction t as [a d|a d l IHl r IHr]; intros s.
    - econstructor. rewrite call_const. cbn [recursive_visit]. reflexivity.
    - cbn [recursive_visit]. destruct (tell f (inner k (o_pre o)) CtxPre s a) as [s1 b1] eqn:E1.
      destruct b1.
      + destruct (tell f (inner k (o_in o)) CtxIn (recursive_visit f o k s1 l) a) as [s3 b3] eqn:E3. destruct b3.
        * eapply walk_full; [rewrite call_const; cbn [aroot]; rewrite E1; cbn [fst snd]; reflexivity|apply IHl|rewrite call_const; cbn [aroot]; rewrite E3; cbn [fst snd]; reflexivity|apply IHr|].
          rewrite call_const. reflexivity.
        * eapply walk_in_stop; [rewrite call_const; cbn [aroot]; rewrite E1; cbn [fst snd]; reflexivity|apply IHl|rewrite call_const; cbn [aroot]; rewrite E3; cbn [fst snd]; reflexivity|auto].
      + eapply walk_pre_stop; [rewrite call_const; cbn [aroot]; rewrite E1; cbn [fst snd]; reflexivity|auto].
  Qed.

  Lemma const_implements : implements (fun s (h : heap T) a c => let '(s', b) := f s a c in (s', h, b)) constVT.
  Proof.
    intros s h par t c H. unfold constVT. destruct (f s (aroot t) c) as [s' b].
    exists t. repeat split; auto; apply H.
  Qed.
End ConstV.
