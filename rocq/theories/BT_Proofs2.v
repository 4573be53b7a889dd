(** Destruction, moves, copies and folds on the heap. *)
From Coq Require Import List Arith Bool Permutation Lia.
From Verif Require Import BT_Model BT_Spec BT_Proofs1.
Import ListNotations.

Section D.
  Context {T : Type}.
  Implicit Types (h : heap T) (t u l r : atree T).

  Definition asize t := length (addrs t).

  (** Destroying a forest frees exactly its nodes, each once. *)
  Lemma destroy_forest : forall n (ts : list (atree T)) h,
    length (flat_map addrs ts) <= n ->
    (forall t, In t ts -> exists par, linked h par t) -> NoDup (flat_map addrs ts) ->
    exists h' fr, destroy_loop n h (map aroot ts) = Some (h', fr) /\
      Permutation fr (flat_map addrs ts) /\ next h' = next h /\
      (forall a, cells h' a = if in_dec Nat.eq_dec a (flat_map addrs ts) then None else cells h a).
  Proof.
    induction n as [|n IH]; intros ts h Hlen HL ND.
    - destruct ts as [|t ts].
      + exists h, []. cbn. repeat split; auto.
      + cbn in Hlen. rewrite app_length in Hlen. destruct t; cbn in Hlen; lia.
    - destruct ts as [|t ts]; [exists h, []; cbn; repeat split; auto|].
      assert (HLt : exists par, linked h par t) by (apply HL; left; auto). destruct HLt as (par & HLt).
      cbn [map destroy_loop]. cbn [flat_map] in *.
      destruct (linked_cell _ _ _ HLt) as (c & C0 & _ & _ & Cl & Cr). rewrite C0, Cl, Cr.
      destruct t as [a d|a d l r]; cbn [aroot] in *.
      + cbn in Hlen. cbn in ND. apply NoDup_cons_iff in ND. destruct ND as (Na & ND).
        destruct (IH ts (set_cell h a None)) as (h' & fr & E & P & Nx & Cs).
        * lia.
        * intros t Ht. destruct (HL t (or_intror Ht)) as (p & Hp). exists p. eapply linked_ext; [exact Hp|].
          intros x Hx. cbn. apply upd_other. intros ->. apply Na. apply in_flat_map. eauto.
        * auto.
        * rewrite E. exists h', (a :: fr). split; [auto|]. split; [cbn; constructor; auto|]. split; [auto|].
          intros x. rewrite Cs. cbn [addrs app].
          destruct (in_dec Nat.eq_dec x (flat_map addrs ts)) as [Hx|Hx];
            destruct (in_dec Nat.eq_dec x (a :: flat_map addrs ts)) as [Hy|Hy]; auto.
          -- exfalso. apply Hy. right; auto.
          -- destruct Hy as [->|Hy]; [cbn; apply upd_same|tauto].
          -- cbn. apply upd_other. intros ->. apply Hy. left; auto.
      + cbn [linked] in HLt. destruct HLt as (HA & HLl & HLr).
        assert (ND' : NoDup (flat_map addrs (r :: l :: ts)) /\ ~ In a (flat_map addrs (r :: l :: ts))).
        { cbn [addrs app] in ND. apply NoDup_cons_iff in ND. destruct ND as (Na & ND).
          assert (PP : Permutation ((addrs l ++ addrs r) ++ flat_map addrs ts) (flat_map addrs (r :: l :: ts))).
          { cbn [flat_map]. rewrite app_assoc. apply Permutation_app_tail. apply Permutation_app_comm. }
          split; [eapply Permutation_NoDup; eauto|]. intros Hin. apply Na. eapply Permutation_in; [symmetry; exact PP|auto]. }
        destruct ND' as (ND' & Na).
        destruct (IH (r :: l :: ts) (set_cell h a None)) as (h' & fr & E & P & Nx & Cs).
        * cbn [flat_map addrs app] in *. cbn [length] in Hlen. rewrite !app_length in *. lia.
        * assert (X : forall t p, In t (r :: l :: ts) -> linked h p t -> linked (set_cell h a None) p t).
          { intros t p Ht Hp. eapply linked_ext; [exact Hp|]. intros x Hx. cbn. apply upd_other. intros ->.
            apply Na. apply in_flat_map. eauto. }
          intros t Ht. pose proof Ht as Ht2. destruct Ht as [<-|[<-|Ht]]; [exists (Some a); auto|exists (Some a); auto|].
          destruct (HL t (or_intror Ht)) as (p & Hp). exists p. auto.
        * auto.
        * cbn [map] in E. rewrite E. exists h', (a :: fr). split; [auto|].
          assert (PP : Permutation (a :: flat_map addrs (r :: l :: ts)) (addrs (ANode a d l r) ++ flat_map addrs ts)).
          { cbn [flat_map addrs app]. constructor. rewrite app_assoc. apply Permutation_app_tail. apply Permutation_app_comm. }
          split; [rewrite <- PP; constructor; auto|]. split; [auto|].
          intros x. rewrite Cs.
          destruct (in_dec Nat.eq_dec x (flat_map addrs (r :: l :: ts))) as [Hx|Hx];
            destruct (in_dec Nat.eq_dec x (addrs (ANode a d l r) ++ flat_map addrs ts)) as [Hy|Hy]; auto.
          -- exfalso. apply Hy. eapply Permutation_in; [exact PP|right; auto].
          -- eapply Permutation_in in Hy; [|symmetry; exact PP]. destruct Hy as [->|Hy]; [cbn; apply upd_same|tauto].
          -- cbn. apply upd_other. intros ->. apply Hy. eapply Permutation_in; [exact PP|left; auto].
  Qed.

  Lemma destroy_loop_mono : forall n h ps x, destroy_loop n h ps = Some x ->
    forall m, n <= m -> destroy_loop m h ps = Some x.
  Proof.
    induction n as [|n IH]; intros h ps x E m Hm; destruct ps as [|a ps]; cbn in E.
    - destruct m; auto.
    - discriminate.
    - destruct m; auto.
    - destruct m as [|m]; [lia|]. cbn. destruct (cells h a) as [c|]; [|discriminate].
      match type of E with match destroy_loop n ?a ?b with _ => _ end = _ => destruct (destroy_loop n a b) as [p|] eqn:EE; [|discriminate] end.
      rewrite (IH _ _ _ EE m) by lia. auto.
  Qed.

  Lemma destroy_tree : forall fuel h par t, linked h par t -> NoDup (addrs t) -> asize t <= fuel ->
    exists h', destroy fuel h (Some (aroot t)) = Some h' /\ next h' = next h /\
      (forall a, cells h' a = if in_dec Nat.eq_dec a (addrs t) then None else cells h a).
  Proof.
    intros fuel h par t HL ND Hf.
    destruct (destroy_forest fuel [t] h) as (h' & fr & E & P & Nx & Cs).
    - cbn. rewrite app_nil_r. exact Hf.
    - intros x [<-|[]]; eauto.
    - cbn. rewrite app_nil_r. auto.
    - exists h'. cbn in E |- *. rewrite E. cbn in Cs. rewrite app_nil_r in Cs. repeat split; auto.
  Qed.

  (** ** Emptying a node in place *)
  Fixpoint prune (x : nat) (t : atree T) : atree T :=
    match t with
    | ALeaf a d => ALeaf a d
    | ANode a d l r => if Nat.eqb a x then ALeaf a d else ANode a d (prune x l) (prune x r)
    end.

  Lemma prune_root : forall x t, aroot (prune x t) = aroot t.
  Proof. destruct t; cbn; auto. destruct (Nat.eqb a x); auto. Qed.

  Lemma prune_in : forall x t a, In a (addrs (prune x t)) -> In a (addrs t).
  Proof.
    induction t as [b d|b d l IHl r IHr]; cbn; intros a H; auto.
    destruct (Nat.eqb b x); cbn in H; [tauto|]. rewrite in_app_iff in *. destruct H as [H|[H|H]]; auto.
  Qed.

  Lemma prune_nodup : forall x t, NoDup (addrs t) -> NoDup (addrs (prune x t)).
  Proof.
    induction t as [b d|b d l IHl r IHr]; intros H; cbn [prune]; auto.
    destruct (Nat.eqb b x); [cbn; repeat constructor; intros []|].
    rewrite nodup_node in *. destruct H as (N1 & N2 & N3 & N4 & N5).
    repeat split; auto; try (intros Hin; apply prune_in in Hin; auto).
    intros y Hy Hy'. apply prune_in in Hy, Hy'. eapply N5; eauto.
  Qed.

  Lemma prune_len : forall x t, asize (prune x t) <= asize t.
  Proof.
    unfold asize. induction t as [b d|b d l IHl r IHr]; cbn; auto. destruct (Nat.eqb b x); cbn; rewrite ?app_length; lia.
  Qed.

  Lemma prune_linked : forall h x c t par, linked h par t -> NoDup (addrs t) ->
    cells h x = Some c ->
    linked (set_cell h x (Some (mkcell (c_data c) None None (c_parent c)))) par (prune x t).
  Proof.
    intros h x c. induction t as [b d|b d l IHl r IHr]; intros par H ND Hc; cbn [prune].
    - cbn in *. destruct (Nat.eq_dec b x) as [->|N].
      + rewrite upd_same. rewrite H in Hc. inversion Hc; subst. reflexivity.
      + rewrite upd_other; auto.
    - pose proof ND as ND0. rewrite nodup_node in ND. destruct ND as (N1 & N2 & N3 & N4 & N5). cbn [linked] in H. destruct H as (H0 & Hl & Hr).
      destruct (Nat.eqb_spec b x) as [->|N].
      + cbn. rewrite upd_same. rewrite H0 in Hc. inversion Hc; subst. reflexivity.
      + cbn [linked]. split; [cbn; rewrite upd_other by auto; rewrite !prune_root; auto|]. split; auto.
  Qed.

  Lemma subtree_in : forall u t, subtree u t -> forall a, In a (addrs u) -> In a (addrs t).
  Proof. induction 1; cbn; auto; intros; right; apply in_app_iff; auto. Qed.

  Lemma subtree_nodup : forall u t, subtree u t -> NoDup (addrs t) -> NoDup (addrs u).
  Proof. induction 1; auto; intros N; rewrite nodup_node in N; tauto. Qed.

  Lemma subtree_linked : forall u t, subtree u t -> forall h par, linked h par t -> exists pu, linked h pu u.
  Proof. induction 1; intros h par HL; [eauto|destruct HL as (_ & HL & _); eauto|destruct HL as (_ & _ & HL); eauto]. Qed.

  Definition inner_addrs u := flat_map addrs (children u).

  Lemma inner_in : forall u a, In a (inner_addrs u) -> In a (addrs u).
  Proof. destruct u; cbn; [tauto|]. rewrite app_nil_r. auto. Qed.

  Lemma inner_not_root : forall u, NoDup (addrs u) -> ~ In (aroot u) (inner_addrs u).
  Proof. destruct u; cbn; [tauto|]. rewrite app_nil_r. intros H. apply NoDup_cons_iff in H. tauto. Qed.

  Lemma prune_not_in : forall x t, ~ In x (addrs t) -> prune x t = t.
  Proof.
    induction t as [b d|b d l IHl r IHr]; cbn; intros H; auto.
    destruct (Nat.eqb_spec b x); [tauto|]. rewrite in_app_iff in H. rewrite IHl, IHr; tauto.
  Qed.

  Lemma prune_sub : forall u t, subtree u t -> NoDup (addrs t) -> forall a,
    In a (addrs t) <-> In a (addrs (prune (aroot u) t)) \/ In a (inner_addrs u).
  Proof.
    induction 1 as [t|u b d l r S IH|u b d l r S IH]; intros ND a.
    - destruct t as [b d|b d l r]; cbn; [tauto|]. rewrite Nat.eqb_refl. cbn. rewrite app_nil_r. tauto.
    - rewrite nodup_node in ND. destruct ND as (N1 & N2 & N3 & N4 & N5). cbn [prune].
      pose proof (subtree_in _ _ S _ (aroot_in u)) as Hu.
      destruct (Nat.eqb_spec b (aroot u)) as [E|E]; [subst; tauto|]. cbn.
      rewrite (prune_not_in _ r) by (eapply N5; auto). rewrite !in_app_iff. rewrite (IH N3). tauto.
    - rewrite nodup_node in ND. destruct ND as (N1 & N2 & N3 & N4 & N5). cbn [prune].
      pose proof (subtree_in _ _ S _ (aroot_in u)) as Hu.
      destruct (Nat.eqb_spec b (aroot u)) as [E|E]; [subst; tauto|]. cbn.
      rewrite (prune_not_in _ l) by (intros X; eapply N5; eauto). rewrite !in_app_iff. rewrite (IH N4). tauto.
  Qed.

  Lemma prune_inner_disj : forall u t, subtree u t -> NoDup (addrs t) -> forall a,
    In a (inner_addrs u) -> ~ In a (addrs (prune (aroot u) t)).
  Proof.
    induction 1 as [t|u b d l r S IH|u b d l r S IH]; intros ND a Ha.
    - destruct t as [b d|b d l r]; cbn in *; [tauto|]. rewrite app_nil_r in Ha. rewrite Nat.eqb_refl. cbn.
      apply NoDup_cons_iff in ND. intros [->|[]]. tauto.
    - rewrite nodup_node in ND. destruct ND as (N1 & N2 & N3 & N4 & N5). cbn [prune].
      pose proof (subtree_in _ _ S _ (aroot_in u)) as Hu. pose proof (subtree_in _ _ S _ (inner_in _ _ Ha)) as Hal.
      destruct (Nat.eqb_spec b (aroot u)) as [E|E]; [subst; tauto|]. cbn.
      rewrite (prune_not_in _ r) by (eapply N5; auto). rewrite !in_app_iff. intros [->|[X|X]]; [tauto| |].
      + eapply IH; eauto.
      + eapply N5; eauto.
    - rewrite nodup_node in ND. destruct ND as (N1 & N2 & N3 & N4 & N5). cbn [prune].
      pose proof (subtree_in _ _ S _ (aroot_in u)) as Hu. pose proof (subtree_in _ _ S _ (inner_in _ _ Ha)) as Hal.
      destruct (Nat.eqb_spec b (aroot u)) as [E|E]; [subst; tauto|]. cbn.
      rewrite (prune_not_in _ l) by (intros X; eapply N5; eauto). rewrite !in_app_iff. intros [->|[X|X]]; [tauto| |].
      + eapply N5; eauto.
      + eapply IH; eauto.
  Qed.

  (** ** Giving the children of [u] to the node [b] *)
  Definition adopt h u b : option (heap T) :=
    match set_parent h (match u with ALeaf _ _ => None | ANode _ _ l _ => Some (aroot l) end) b with
    | None => None
    | Some h1 => set_parent h1 (match u with ALeaf _ _ => None | ANode _ _ _ r => Some (aroot r) end) b
    end.

  Lemma adopt_ok : forall h u b, (forall c, In c (children u) -> exists p, linked h p c) ->
    NoDup (inner_addrs u) ->
    exists h', adopt h u b = Some h' /\ next h' = next h /\
      (forall c, In c (children u) -> linked h' (Some b) c) /\
      (forall a, ~ In a (inner_addrs u) -> cells h' a = cells h a) /\
      (forall a, cells h a <> None <-> cells h' a <> None).
  Proof.
    intros h u b HL ND. unfold adopt. destruct u as [a d|a d l r]; cbn [children] in *.
    - exists h. cbn. repeat split; auto; tauto.
    - destruct (HL l) as (pl & Ll); [cbn; auto|]. destruct (HL r) as (pr & Lr); [cbn; auto|].
      unfold inner_addrs in *. cbn [children flat_map] in *. rewrite app_nil_r in *. apply nodup_app in ND. destruct ND as (Nl & Nr & Nlr).
      destruct (linked_cell _ _ _ Ll) as (cl & Cl & _).
      cbn [set_parent]. rewrite Cl.
      pose proof (linked_reparent _ _ _ (Some b) _ Ll Nl Cl) as Ll1.
      set (h1 := set_cell h (aroot l) _) in *.
      assert (Lr1 : linked h1 pr r).
      { eapply linked_ext; [exact Lr|]. intros x Hx. cbn. apply upd_other. intros ->. eapply Nlr; [apply aroot_in|exact Hx]. }
      destruct (linked_cell _ _ _ Lr1) as (cr & Cr & _). rewrite Cr.
      pose proof (linked_reparent _ _ _ (Some b) _ Lr1 Nr Cr) as Lr2.
      set (h2 := set_cell h1 (aroot r) _) in *.
      exists h2. split; [auto|]. split; [auto|]. split; [|split].
      + intros c [<-|[<-|[]]]; auto. eapply linked_ext; [exact Ll1|]. intros x Hx. cbn [h2 set_cell cells]. apply upd_other. intros ->. eapply Nlr; [exact Hx|apply aroot_in].
      + intros x Hx. rewrite in_app_iff in Hx. cbn [h2 h1 set_cell cells].
        rewrite !upd_other; auto; intros ->; apply Hx; [left|right]; apply aroot_in.
      + intros x. cbn [h2 set_cell cells]. destruct (Nat.eq_dec x (aroot r)) as [->|N].
        * rewrite upd_same. cbn [h1 set_cell cells] in Cr. unfold upd in Cr. destruct (Nat.eqb_spec (aroot r) (aroot l)) as [E|E].
          -- rewrite E. rewrite Cl. split; congruence.
          -- rewrite Cr. split; congruence.
        * rewrite (upd_other _ _ (aroot r)) by auto. cbn [h1 set_cell cells]. destruct (Nat.eq_dec x (aroot l)) as [->|N'].
          -- rewrite upd_same, Cl. split; congruence.
          -- rewrite upd_other by auto. tauto.
  Qed.

  (** When the children of [u] hang below [b], the cell of [b] completes the tree. *)
  Lemma at_addr_linked : forall h par u b,
    cells h b = Some (mkcell (adata u)
        (match u with ALeaf _ _ => None | ANode _ _ l _ => Some (aroot l) end)
        (match u with ALeaf _ _ => None | ANode _ _ _ r => Some (aroot r) end) par) ->
    (forall c, In c (children u) -> linked h (Some b) c) ->
    linked h par (at_addr b u).
  Proof. intros h par u b E HL. destruct u as [a d|a d l r]; cbn in *; auto. split; [exact E|]. split; apply HL; auto. Qed.

  Lemma at_addr_addrs : forall b u, addrs (at_addr b u) = b :: inner_addrs u.
  Proof. destruct u; cbn; auto. rewrite app_nil_r. auto. Qed.

  (** How the source of an assignment may lie with respect to the target [t]: elsewhere, or
      strictly below it. *)
  Definition apart_or_below u t : Prop :=
    (forall a, In a (addrs u) -> ~ In a (addrs t)) \/ (exists c, In c (children t) /\ subtree u c).

  Definition old_part u t := flat_map (fun c => addrs (prune (aroot u) c)) (children t).

  Lemma node_children_nodup : forall t, NoDup (addrs t) -> NoDup (inner_addrs t).
  Proof. destruct t; cbn; [constructor|]. rewrite app_nil_r. intros H. apply NoDup_cons_iff in H. tauto. Qed.

  Lemma aob_facts : forall u t, NoDup (addrs t) -> NoDup (addrs u) -> apart_or_below u t ->
    ~ In (aroot t) (addrs u) /\
    (forall a, In a (inner_addrs u) -> ~ In a (old_part u t)) /\
    (forall a, In a (inner_addrs t) -> In a (old_part u t) \/ In a (inner_addrs u)) /\
    (forall a, In a (old_part u t) -> In a (inner_addrs t)).
  Proof.
    intros u t NT NU [D|(c & Hc & S)].
    - assert (E : old_part u t = inner_addrs t).
      { unfold old_part, inner_addrs. rewrite !flat_map_concat_map. f_equal. apply map_ext_in. intros c Hc.
        rewrite prune_not_in; auto. intros X. apply (D (aroot u) (aroot_in u)). apply inner_in. apply in_flat_map. eauto. }
      rewrite E. repeat split; auto.
      + intros X. apply (D _ X), aroot_in.
      + intros a Ha X. apply (D a); apply inner_in; auto.
    - destruct t as [a d|a d l r]; [destruct Hc|]. rewrite nodup_node in NT. destruct NT as (N1 & N2 & N3 & N4 & N5).
      unfold old_part, inner_addrs in *. cbn [children flat_map aroot] in *. rewrite !app_nil_r.
      destruct Hc as [<-|[<-|[]]].
      + pose proof (subtree_in _ _ S _ (aroot_in u)) as Hu. rewrite (prune_not_in _ r) by (apply N5; auto).
        split; [intros X; apply N1; eapply subtree_in; eauto|]. split; [|split].
        * intros x Hx. rewrite in_app_iff. intros [X|X]; [eapply prune_inner_disj; eauto|].
          eapply N5; [|exact X]. eapply subtree_in; [exact S|apply inner_in; auto].
        * intros x. rewrite !in_app_iff. rewrite (prune_sub _ _ S N3 x). unfold inner_addrs. tauto.
        * intros x. rewrite !in_app_iff. intros [X|X]; auto. left. eapply prune_in; eauto.
      + pose proof (subtree_in _ _ S _ (aroot_in u)) as Hu. rewrite (prune_not_in _ l) by (intros X; eapply N5; eauto).
        split; [intros X; apply N2; eapply subtree_in; eauto|]. split; [|split].
        * intros x Hx. rewrite in_app_iff. intros [X|X]; [|eapply prune_inner_disj; eauto].
          eapply N5; [exact X|]. eapply subtree_in; [exact S|apply inner_in; auto].
        * intros x. rewrite !in_app_iff. rewrite (prune_sub _ _ S N4 x). unfold inner_addrs. tauto.
        * intros x. rewrite !in_app_iff. intros [X|X]; auto. right. eapply prune_in; eauto.
  Qed.

  Lemma destroy_opt : forall fuel h (c : option (atree T)) par,
    (forall t, c = Some t -> linked h par t /\ NoDup (addrs t) /\ asize t <= fuel) ->
    exists h', destroy fuel h (option_map aroot c) = Some h' /\ next h' = next h /\
      (forall a, cells h' a = if in_dec Nat.eq_dec a (match c with Some t => addrs t | None => [] end) then None else cells h a).
  Proof.
    intros fuel h [t|] par H.
    - destruct (H t eq_refl) as (A & B & C). apply destroy_tree with par; auto.
    - exists h. cbn. auto.
  Qed.

  Theorem move_assign_ok : forall fuel h par t pu u,
    holds h par t -> holds h pu u -> apart_or_below u t -> asize t <= fuel ->
    exists h', move_assign fuel h (aroot t) (aroot u) = Some h' /\
      holds h' par (at_addr (aroot t) u) /\
      (* the nodes of the old tree that were not taken over are destroyed *)
      (forall a, In a (addrs t) -> a <> aroot t -> ~ In a (inner_addrs u) -> cells h' a = None) /\
      (* a source elsewhere is left as a childless node *)
      ((forall a, In a (addrs u) -> ~ In a (addrs t)) -> linked h' pu (ALeaf (aroot u) (adata u))) /\
      only_touches (addrs t ++ addrs u) h h' /\ next h' = next h.
  Proof.
    intros fuel h par t pu u (Hok & HT & NT) (_ & HU & NU) AOB Hf.
    destruct (aob_facts u t NT NU AOB) as (F1 & F2 & F3 & F4).
    destruct (linked_cell _ _ _ HT) as (ct & CT & Td & Tp & Tl & Tr).
    destruct (linked_cell _ _ _ HU) as (cn & CN & Ud & Up & Ul & Ur).
    set (self := aroot t) in *. set (src := aroot u) in *.
    assert (NE : src <> self). { intros E. apply F1. rewrite <- E. apply aroot_in. }
    unfold move_assign. rewrite CT, CN. cbn [set_cell cells].
    (* read cn2 *)
    rewrite (upd_other _ _ self _ src) by auto. rewrite (upd_other _ _ self _ src) by auto. rewrite CN.
    (* ct3 *)
    rewrite (upd_other _ _ src _ self) by auto. rewrite upd_same. cbn [c_data c_left c_right c_parent].
    (* cn4 *)
    rewrite (upd_other _ _ self _ src) by auto. rewrite upd_same. cbn [c_data c_left c_right c_parent].
    (* ct5 *)
    rewrite (upd_other _ _ src _ self) by auto. rewrite upd_same. cbn [c_data c_left c_right c_parent].
    match goal with |- context [destroy fuel ?H (c_right ct)] => set (h6 := H) end.
    assert (C6s : cells h6 self = Some (mkcell (adata u) (c_left cn) (c_right cn) par)).
    { cbn [h6 set_cell cells]. rewrite upd_same. rewrite Ud, Tp. reflexivity. }
    assert (C6n : cells h6 src = Some (mkcell (adata u) None None pu)).
    { cbn [h6 set_cell cells]. rewrite (upd_other _ _ self) by auto. rewrite upd_same. rewrite Ud, Up. reflexivity. }
    assert (C6o : forall a, a <> self -> a <> src -> cells h6 a = cells h a).
    { intros a A1 A2. cbn [h6 set_cell cells]. rewrite !upd_other; auto. }
    assert (N6 : next h6 = next h) by reflexivity.
    clearbody h6.
    (* the old children, pruned *)
    assert (OLD : forall c, In c (children t) -> linked h6 (Some self) (prune src c) /\ NoDup (addrs (prune src c)) /\ asize (prune src c) <= fuel).
    { intros c Hc.
      assert (LC : linked h (Some self) c /\ NoDup (addrs c) /\ ~ In self (addrs c) /\ asize c <= fuel).
      { destruct t as [a d|a d l r]; [destruct Hc|]. cbn in HT. rewrite nodup_node in NT. subst self; cbn [aroot] in *.
        unfold asize in *. cbn in Hf. rewrite app_length in Hf. destruct Hc as [<-|[<-|[]]]; repeat split; try tauto; try lia. }
      destruct LC as (LC & NC & SC & AC). split; [|split; [apply prune_nodup; auto|pose proof (prune_len src c); lia]].
      eapply linked_ext; [eapply prune_linked; eauto|]. intros a Ha.
      assert (a <> self) by (intros ->; apply SC; eapply prune_in; eauto).
      cbn. destruct (Nat.eq_dec a src) as [->|N].
      - rewrite upd_same. rewrite C6n. rewrite Ud, Up. reflexivity.
      - rewrite upd_other by auto. apply C6o; auto. }
    (* destroy old right *)
    set (rt := match t with ALeaf _ _ => None | ANode _ _ _ r => Some (prune src r) end).
    set (lt := match t with ALeaf _ _ => None | ANode _ _ l _ => Some (prune src l) end).
    assert (Er : c_right ct = option_map aroot rt).
    { rewrite Tr. unfold rt. destruct t; cbn; auto. rewrite prune_root. auto. }
    assert (El : c_left ct = option_map aroot lt).
    { rewrite Tl. unfold lt. destruct t; cbn; auto. rewrite prune_root. auto. }
    assert (RIN : forall x, rt = Some x -> exists c, In c (children t) /\ x = prune src c).
    { unfold rt. intros x. destruct t; [discriminate|]. intros E; inversion E. eexists. split; [right; left; reflexivity|auto]. }
    assert (LIN : forall x, lt = Some x -> exists c, In c (children t) /\ x = prune src c).
    { unfold lt. intros x. destruct t; [discriminate|]. intros E; inversion E. eexists. split; [left; reflexivity|auto]. }
    set (ra := match rt with Some x => addrs x | None => [] end).
    set (la := match lt with Some x => addrs x | None => [] end).
    assert (OP : old_part u t = la ++ ra).
    { unfold old_part, la, ra, lt, rt. destruct t; cbn; auto. fold src. rewrite app_nil_r. auto. }
    assert (LR : forall a, In a la -> ~ In a ra).
    { unfold la, ra, lt, rt. intros a. destruct t as [b d|b d l r]; [intros []|]. intros X Y. apply prune_in in X, Y.
      rewrite nodup_node in NT. destruct NT as (_ & _ & _ & _ & N5). eapply N5; eauto. }
    rewrite OP in *.
    assert (ND : forall a, In a (la ++ ra) -> a <> self).
    { intros a Ha ->. apply F4 in Ha. exact (inner_not_root t NT Ha). }
    destruct (destroy_opt fuel h6 rt (Some self)) as (h7 & E7 & N7 & C7).
    { intros x Hx. destruct (RIN _ Hx) as (c & Hc & ->). apply OLD; auto. }
    rewrite Er, E7. fold ra in C7.
    assert (HC7 : forall c, In c (children u) -> exists p, linked h7 p c).
    { intros c Hc. exists (Some src).
      assert (linked h (Some src) c) by (destruct u as [|b e l r]; [destruct Hc|]; cbn in HU, Hc; subst src; cbn; destruct Hc as [<-|[<-|[]]]; tauto).
      eapply linked_ext; [eassumption|]. intros a Ha.
      assert (Hi : In a (inner_addrs u)) by (apply in_flat_map; eauto).
      rewrite C7. destruct (in_dec Nat.eq_dec a ra) as [X|X]; [exfalso; apply (F2 a Hi); apply in_app_iff; auto|].
      apply C6o.
      - intros ->. apply F1. apply inner_in; auto.
      - intros ->. exact (inner_not_root u NU Hi). }
    destruct (adopt_ok h7 u self HC7 (node_children_nodup _ NU)) as (h9 & E9 & N9 & L9 & C9 & _).
    unfold adopt in E9. rewrite <- Ul, <- Ur in E9.
    destruct (set_parent h7 (c_left cn) self) as [h8|]; [|discriminate]. rewrite E9. clear E9 h8.
    assert (LL : forall x, lt = Some x -> linked h9 (Some self) x /\ NoDup (addrs x) /\ asize x <= fuel).
    { intros x Hx. destruct (LIN _ Hx) as (c & Hc & ->). destruct (OLD c Hc) as (A & B & C). split; [|auto].
      eapply linked_ext; [exact A|]. intros a Ha.
      assert (Hla : In a la) by (unfold la; rewrite Hx; auto).
      rewrite C9; [|intros X; apply (F2 a X); apply in_app_iff; auto]. rewrite C7.
      destruct (in_dec Nat.eq_dec a ra) as [X|X]; [exfalso; eapply LR; eauto|auto]. }
    destruct (destroy_opt fuel h9 lt (Some self) LL) as (h10 & E10 & N10 & C10). fold la in C10.
    rewrite El, E10. exists h10. split; [auto|].
    assert (CE : forall a, cells h10 a = if in_dec Nat.eq_dec a (la ++ ra) then None else cells h9 a).
    { intros a. rewrite C10. destruct (in_dec Nat.eq_dec a la) as [X|X]; destruct (in_dec Nat.eq_dec a (la ++ ra)) as [Y|Y]; auto.
      - exfalso. apply Y. apply in_app_iff; auto.
      - rewrite C9; [|intros Z; apply (F2 a Z); auto]. rewrite C7.
        destruct (in_dec Nat.eq_dec a ra) as [Z|Z]; auto. rewrite in_app_iff in Y. tauto. }
    assert (SE : ~ In self (la ++ ra)) by (intros X; apply (ND _ X); auto).
    assert (SI : ~ In self (inner_addrs u)) by (intros X; apply F1; apply inner_in; auto).
    assert (CO : forall a, ~ In a (la ++ ra) -> ~ In a (inner_addrs u) -> cells h10 a = cells h6 a).
    { intros a A B. rewrite CE. destruct (in_dec Nat.eq_dec a (la ++ ra)); [tauto|]. rewrite C9 by auto. rewrite C7.
      destruct (in_dec Nat.eq_dec a ra) as [Z|Z]; auto. exfalso. apply A. apply in_app_iff; auto. }
    assert (IE : forall c, In c (children u) -> linked h10 (Some self) c).
    { intros c Hc. eapply linked_ext; [apply L9; auto|]. intros a Ha. rewrite CE.
      destruct (in_dec Nat.eq_dec a (la ++ ra)) as [X|X]; auto. exfalso. eapply F2; [|exact X]. apply in_flat_map; eauto. }
    assert (HN : next h10 = next h) by congruence.
    assert (OLDsub : forall a, In a (la ++ ra) -> In a (addrs t)) by (intros a Ha; apply inner_in; auto).
    split; [split; [|split]|].
    - intros a Ha. rewrite HN in Ha. rewrite CE. destruct (in_dec Nat.eq_dec a (la ++ ra)); auto.
      destruct (in_dec Nat.eq_dec a (inner_addrs u)) as [X|X].
      + exfalso. apply inner_in in X. pose proof (linked_lt _ _ _ _ Hok HU X). lia.
      + rewrite C9 by auto. rewrite C7. destruct (in_dec Nat.eq_dec a ra); auto. rewrite C6o; auto.
        * intros ->. pose proof (linked_lt _ _ _ _ Hok HT (aroot_in t)). unfold self in Ha. lia.
        * intros ->. pose proof (linked_lt _ _ _ _ Hok HU (aroot_in u)). unfold src in Ha. lia.
    - apply at_addr_linked; auto. rewrite CO by auto. rewrite C6s, Ul, Ur. reflexivity.
    - rewrite at_addr_addrs. constructor; auto. apply node_children_nodup; auto.
    - split; [|split; [|split]].
      + intros a Ha Hne Hni. rewrite CE. destruct (in_dec Nat.eq_dec a (la ++ ra)) as [X|X]; auto.
        exfalso. destruct t as [b e|b e l r]; [destruct Ha as [<-|[]]; apply Hne; reflexivity|].
        destruct Ha as [<-|Ha]; [apply Hne; reflexivity|].
        destruct (F3 a) as [Y|Y]; [|tauto|tauto]. unfold inner_addrs. cbn. rewrite app_nil_r. auto.
      + intros D. cbn [linked]. rewrite CO; [rewrite C6n; reflexivity| |].
        * intros X. apply (D src (aroot_in u)). auto.
        * apply inner_not_root; auto.
      + split; [lia|]. intros a La Hn. rewrite in_app_iff in Hn. rewrite CO.
        * apply C6o; intros ->; apply Hn; [left|right]; apply aroot_in.
        * intros X. apply Hn. left. auto.
        * intros X. apply Hn. right. apply inner_in; auto.
      + auto.
  Qed.
End D.
