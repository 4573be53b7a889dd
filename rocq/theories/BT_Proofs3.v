(** Construction, copies, transformation and folds. *)
From Coq Require Import List Arith Bool Permutation Lia.
From Verif Require Import BT_Model BT_Spec BT_Proofs1 BT_Proofs2.
Import ListNotations.

Section C.
  Context {T : Type}.
  Implicit Types (h : heap T) (t u l r : atree T).

  Lemma touches_refl : forall (l : list nat) h, only_touches l h h.
  Proof. split; auto. Qed.

  Lemma touches_trans : forall (l1 l2 : list nat) h h1 h2,
    only_touches l1 h h1 -> only_touches l2 h1 h2 -> (forall a, In a l2 -> a < next h -> In a l1) ->
    only_touches l1 h h2.
  Proof.
    intros l1 l2 h h1 h2 (A & B) (C & D) I. split; [lia|]. intros a La Na. rewrite D; [auto|lia|].
    intros X. apply Na, I; auto.
  Qed.

  Lemma touches_incl : forall (l1 l2 : list nat) h h1, only_touches l1 h h1 -> (forall a, In a l1 -> In a l2) -> only_touches l2 h h1.
  Proof. intros l1 l2 h h1 (A & B) I. split; auto. Qed.

  Lemma holds_keep : forall h h' par t (l : list nat), holds h par t -> only_touches l h h' -> heap_ok h' ->
    (forall a, In a (addrs t) -> ~ In a l) -> holds h' par t.
  Proof.
    intros h h' par t l (A & B & C) (D & E) F G. split; [auto|]. split; [|auto].
    eapply linked_ext; [exact B|]. intros a Ha. apply E; auto. eapply linked_lt; eauto.
  Qed.

  Lemma alloc_ok : forall h c, heap_ok h -> heap_ok (snd (alloc h c)) /\ only_touches [] h (snd (alloc h c)).
  Proof.
    intros h c H. cbn. split.
    - intros a Ha. cbn in *. rewrite upd_other by lia. apply H. lia.
    - split; [cbn; lia|]. intros a La _. cbn. apply upd_other. lia.
  Qed.

  Lemma new_leaf_ok : forall h d, heap_ok h -> exists h', new_leaf h d = (next h, h') /\
    holds h' None (ALeaf (next h) d) /\ only_touches [] h h' /\ next h' = S (next h).
  Proof.
    intros h d H. destruct (alloc_ok h (mkcell d None None None) H) as (A & B).
    eexists. split; [reflexivity|]. split; [|split; [exact B|reflexivity]].
    split; [exact A|]. split; [cbn; apply upd_same|]. cbn. repeat constructor. intros [].
  Qed.

  Lemma new_node_ok : forall h d pl l pr r, holds h pl l -> holds h pr r ->
    (forall a, In a (addrs l) -> ~ In a (addrs r)) ->
    exists h', new_node h d (Some (aroot l)) (Some (aroot r)) = Some (next h, h') /\
      holds h' None (ANode (next h) d l r) /\ only_touches (addrs l ++ addrs r) h h' /\ next h' = S (next h).
  Proof.
    intros h d pl l pr r (Hok & Ll & Nl) (_ & Lr & Nr) D. unfold new_node.
    destruct (alloc_ok h (mkcell d (Some (aroot l)) (Some (aroot r)) None) Hok) as (A & B).
    destruct (alloc h _) as [a h1] eqn:EA. cbn in A, B. inversion EA. subst a. rewrite H1 in *.
    assert (N1 : next h1 = S (next h)) by (subst h1; reflexivity).
    assert (C1 : cells h1 (next h) = Some (mkcell d (Some (aroot l)) (Some (aroot r)) None)) by (subst h1; cbn; apply upd_same).
    assert (KL : forall a, In a (addrs l) -> a < next h) by (intros; eapply linked_lt; [exact Hok|exact Ll|auto]).
    assert (KR : forall a, In a (addrs r) -> a < next h) by (intros; eapply linked_lt; [exact Hok|exact Lr|auto]).
    clear H1 EA.
    set (u := ANode (next h) d l r).
    assert (NDI : NoDup (inner_addrs u)). { unfold u, inner_addrs. cbn. rewrite app_nil_r. apply nodup_app. auto. }
    destruct (adopt_ok h1 u (next h)) as (h3 & E3 & N3 & L3 & C3 & S3); auto.
    { intros c [<-|[<-|[]]]; [exists pl|exists pr]; (eapply linked_ext; [eassumption|]); intros a Ha; destruct B as (_ & B); apply B; auto. }
    unfold adopt in E3. cbn [u] in E3. destruct (set_parent h1 (Some (aroot l)) (next h)) as [h2|]; [|discriminate].
    rewrite E3. exists h3. split; [auto|].
    assert (HI : forall a, In a (inner_addrs u) -> a < next h).
    { unfold u, inner_addrs. cbn. rewrite app_nil_r. intros a. rewrite in_app_iff. intros [X|X]; auto. }
    split; [split; [|split]|split; [split|]].
    - intros a Ha. rewrite C3; [apply A; lia|]. intros X. apply HI in X. lia.
    - cbn [linked]. split; [rewrite C3; [exact C1|]; intros X; apply HI in X; lia|]. split; apply L3; cbn; auto.
    - apply nodup_node. repeat split; auto; intros X; [apply KL in X|apply KR in X]; lia.
    - lia.
    - intros a La Na. rewrite C3; [destruct B as (_ & B); apply B; auto|]. unfold u, inner_addrs. cbn. rewrite app_nil_r. auto.
    - lia.
  Qed.

  Lemma move_ctor_ok : forall fuel h pu u, holds h pu u -> 1 <= fuel ->
    exists h', move_ctor fuel h (aroot u) = Some (next h, h') /\
      holds h' None (at_addr (next h) u) /\ linked h' pu (ALeaf (aroot u) (adata u)) /\
      only_touches (addrs u) h h' /\ next h' = S (next h).
  Proof.
    intros fuel h pu u (Hok & HL & ND) Hf. unfold move_ctor.
    destruct (linked_cell _ _ _ HL) as (c & C0 & Cd & _). rewrite C0.
    destruct (alloc_ok h (mkcell (c_data c) None None None) Hok) as (A & B).
    destruct (alloc h _) as [a h1] eqn:EA. cbn in A, B. inversion EA. subst a. rewrite H1 in *.
    assert (N1 : next h1 = S (next h)) by (subst h1; reflexivity).
    assert (C1 : cells h1 (next h) = Some (mkcell (c_data c) None None None)) by (subst h1; cbn; apply upd_same).
    clear H1 EA.
    assert (KU : forall a, In a (addrs u) -> a < next h) by (intros; eapply linked_lt; eauto).
    assert (DJ : forall a, In a (addrs u) -> ~ In a (addrs (ALeaf (next h) (c_data c)))).
    { intros a Ha [<-|[]]. apply KU in Ha. lia. }
    destruct (move_assign_ok fuel h1 None (ALeaf (next h) (c_data c)) pu u) as (h2 & E2 & H2 & _ & S2 & T2 & N2).
    - split; [auto|]. split; [exact C1|]. cbn. repeat constructor; intros [].
    - split; [auto|]. split; [|auto]. eapply linked_ext; [exact HL|]. intros a Ha. destruct B as (_ & B). apply B; auto.
    - left. exact DJ.
    - cbn. auto.
    - cbn [aroot] in E2. rewrite E2. exists h2. split; [auto|]. split; [exact H2|]. split; [auto|]. split; [|lia].
      eapply touches_trans; [eapply touches_incl; [exact B|intros a []]|exact T2|].
      intros a Ha La. rewrite in_app_iff in Ha. destruct Ha as [[<-|[]]|Ha]; [lia|auto].
  Qed.

  Lemma strip_at_addr : forall b u, strip (at_addr b u) = strip u.
  Proof. destruct u; reflexivity. Qed.
  Lemma adata_strip : forall u, adata u = data (strip u).
  Proof. destruct u; reflexivity. Qed.
End C.

(** ** The cloning loop *)
Section Clone.
  Context {T R : Type}.
  Variable f : T -> R.
  Variable rd : heap R -> nat -> option (cell T).
  (** The source [U] can be read, and stays readable while new memory is filled. *)
  Variable rd0 : nat -> option (cell T).
  Variable U : atree T.
  Variable h0 : heap R.
  Hypothesis RD : forall h a, only_touches [] h0 h -> In a (addrs U) -> rd h a = rd0 a.

  Lemma clone_tree : forall u pu, linked (mkheap rd0 0) pu u -> (forall a, In a (addrs u) -> In a (addrs U)) ->
    forall h rest ret, heap_ok h -> only_touches [] h0 h ->
    exists n t' h', n <= 3 * asize u /\
      (forall fuel, clone_loop f rd (n + fuel) h (mkframe (aroot u) 0 None None :: rest) ret =
         option_map (fun x : option nat * heap R * list T => (fst x, tdata (strip u) ++ snd x))
           (clone_loop f rd fuel h' rest (Some (aroot t')))) /\
      holds h' None t' /\ strip t' = tmap f (strip u) /\ only_touches [] h h' /\
      (forall a, In a (addrs t') -> next h <= a).
  Proof.
    induction u as [a d|a d l IHl r IHr]; intros pu HL HI h rest ret Hok H0.
    - cbn in HL. destruct (new_leaf_ok h (f d) Hok) as (h' & E & HH & HT & HN).
      exists 1, (ALeaf (next h) (f d)), h'. split; [cbn; lia|]. split.
      + intros fuel. cbn [Nat.add clone_loop fr_src aroot]. rewrite RD by (auto; apply HI; left; auto).
        rewrite HL. cbn [c_leaf c_left c_right c_data]. rewrite E. cbn [strip tdata app]. reflexivity.
      + split; [auto|]. split; [reflexivity|]. split; [auto|]. intros x [<-|[]]. lia.
    - cbn [linked] in HL. destruct HL as (HA & HLl & HLr). cbn [cells] in HA.
      assert (Il : forall x, In x (addrs l) -> In x (addrs U)) by (intros; apply HI; right; apply in_app_iff; auto).
      assert (Ir : forall x, In x (addrs r) -> In x (addrs U)) by (intros; apply HI; right; apply in_app_iff; auto).
      assert (Ia : In a (addrs U)) by (apply HI; left; auto).
      destruct (IHl _ HLl Il h (mkframe a 1 None None :: rest) ret Hok H0) as (n1 & t1 & h1 & B1 & L1 & A1 & S1 & T1 & F1).
      assert (H01 : only_touches [] h0 h1) by (eapply touches_trans; [exact H0|exact T1|intros ? []]).
      assert (Hok1 : heap_ok h1) by apply A1.
      destruct (IHr _ HLr Ir h1 (mkframe a 2 (Some (aroot t1)) None :: rest) None Hok1 H01) as (n2 & t2 & h2 & B2 & L2 & A2 & S2 & T2 & F2).
      assert (H02 : only_touches [] h0 h2) by (eapply touches_trans; [exact H01|exact T2|intros ? []]).
      assert (A1' : holds h2 None t1) by (eapply holds_keep; [exact A1|exact T2|apply A2|auto]).
      assert (D12 : forall x, In x (addrs t1) -> ~ In x (addrs t2)).
      { intros x X Y. apply F2 in Y. destruct A1 as (O1 & K1 & _). pose proof (linked_lt _ _ _ _ O1 K1 X). lia. }
      destruct (new_node_ok h2 (f d) None t1 None t2 A1' A2 D12) as (h3 & E3 & A3 & T3 & N3).
      exists (1 + (n1 + (1 + (n2 + 1)))), (ANode (next h2) (f d) t1 t2), h3.
      split; [unfold asize in *; cbn; rewrite app_length; lia|]. split.
      + intros fuel.
        replace (1 + (n1 + (1 + (n2 + 1))) + fuel) with (S (n1 + S (n2 + S fuel))) by lia.
        cbn [clone_loop fr_src aroot]. rewrite RD by auto. rewrite HA. cbn [c_leaf c_left c_right fr_stage fr_left fr_right].
        rewrite L1. cbn [clone_loop fr_src]. rewrite RD by auto. rewrite HA. cbn [c_leaf c_left c_right fr_stage fr_left fr_right].
        rewrite L2. cbn [clone_loop fr_src]. rewrite RD by auto. rewrite HA. cbn [c_leaf c_left c_right fr_stage fr_left fr_right c_data].
        rewrite E3. cbn [aroot strip tdata].
        destruct (clone_loop f rd fuel h3 rest (Some (next h2))) as [[[q1 q2] q3]|]; cbn; [|auto].
        rewrite <- !app_assoc. reflexivity.
      + split; [auto|]. split; [cbn; rewrite S1, S2; reflexivity|].
        assert (G1 : next h <= next h1) by apply T1. assert (G2 : next h1 <= next h2) by apply T2.
        assert (F : forall x, In x (addrs t1 ++ addrs t2) -> next h <= x).
        { intros x. rewrite in_app_iff. intros [X|X]; [auto|apply F2 in X; lia]. }
        split.
        * assert (T12 : only_touches [] h h2) by (eapply touches_trans; [exact T1|exact T2|intros ? []]).
          eapply touches_trans; [exact T12|exact T3|]. intros x X Lx. apply F in X. lia.
        * cbn. intros x [<-|X]; [lia|auto].
  Qed.

  Lemma clone_ok : forall fuel pu, linked (mkheap rd0 0) pu U -> heap_ok h0 -> 3 * asize U <= fuel ->
    exists t' h', clone f rd fuel h0 (aroot U) = Some (aroot t', h', tdata (strip U)) /\
      holds h' None t' /\ strip t' = tmap f (strip U) /\ only_touches [] h0 h' /\
      (forall a, In a (addrs t') -> next h0 <= a).
  Proof.
    intros fuel pu HL Hok Hf.
    destruct (clone_tree U pu HL (fun _ x => x) h0 [] None Hok (touches_refl _ _)) as (n & t' & h' & B & L & H & S & TT & F).
    exists t', h'. split; [|auto]. unfold clone.
    replace fuel with (n + (fuel - n)) by lia. rewrite L.
    destruct (fuel - n); cbn; rewrite app_nil_r; reflexivity.
  Qed.
End Clone.

Lemma tmap_id : forall T (t : tree T), tmap (fun d => d) t = t.
Proof. induction t; cbn; congruence. Qed.

Section Copy.
  Context {T : Type}.
  Implicit Types (h : heap T) (t u l r : atree T).

  Lemma deep_copy_ok : forall fuel h pu u, holds h pu u -> 3 * asize u <= fuel ->
    exists t' h', deep_copy fuel h (aroot u) = Some (aroot t', h') /\
      holds h' None t' /\ strip t' = strip u /\ only_touches [] h h' /\
      (forall a, In a (addrs t') -> next h <= a).
  Proof.
    intros fuel h pu u (Hok & HL & ND) Hf. unfold deep_copy.
    destruct (clone_ok (fun d : T => d) (fun h a => cells h a) (cells h) u h) with (fuel := fuel) (pu := pu) as (t' & h' & E & H & S & F); auto.
    - intros h1 a (_ & K) Ha. apply K; [eapply linked_lt; eauto|intros []].
    - eapply linked_ext; [exact HL|]. auto.
    - exists t', h'. rewrite E. rewrite tmap_id in S. auto.
  Qed.

  Lemma copy_child_ok : forall fuel h (c : option (atree T)), heap_ok h ->
    (forall u, c = Some u -> exists pu, holds h pu u /\ 3 * asize u <= fuel) ->
    exists (c' : option (atree T)) h', copy_child fuel h (option_map aroot c) = Some (option_map aroot c', h') /\
      heap_ok h' /\ (forall t', c' = Some t' -> holds h' None t') /\
      option_map strip c' = option_map strip c /\ only_touches [] h h' /\
      (forall t' a, c' = Some t' -> In a (addrs t') -> next h <= a).
  Proof.
    intros fuel h [u|] Hok Hc; cbn.
    - destruct (Hc u eq_refl) as (pu & Hu & Hf). destruct (deep_copy_ok fuel h pu u Hu Hf) as (t' & h' & E & H & S & TT & F).
      rewrite E. exists (Some t'), h'. split; [auto|]. split; [apply H|]. split; [intros x X; inversion X; subst; auto|].
      split; [cbn; congruence|]. split; [auto|]. intros x a X. inversion X; subst. auto.
    - exists None, h. split; [auto|]. split; [auto|]. split; [discriminate|]. split; [auto|]. split; [apply touches_refl|discriminate].
  Qed.

  Theorem copy_ctor_ok : forall fuel h pu u, holds h pu u -> 3 * asize u <= fuel ->
    exists t' h', copy_ctor fuel h (aroot u) = Some (aroot t', h') /\
      holds h' None t' /\ strip t' = strip u /\ only_touches [] h h' /\
      (forall a, In a (addrs t') -> next h <= a).
  Proof.
    intros fuel h pu u HU Hf. pose proof HU as (Hok & HL & ND). unfold copy_ctor.
    destruct (linked_cell _ _ _ HL) as (c & C0 & Cd & _ & Cl & Cr). rewrite C0.
    destruct u as [a d|a d l r].
    - rewrite Cl, Cr. cbn [copy_child].
      unfold new_node. destruct (alloc_ok h (mkcell (c_data c) None None None) Hok) as (A & B).
      cbn in *. eexists (ALeaf (next h) (c_data c)), _. split; [reflexivity|]. split; [|split; [|split; [exact B|]]].
      + split; [exact A|]. split; [cbn; apply upd_same|]. cbn. repeat constructor. intros [].
      + cbn. congruence.
      + intros x [<-|[]]. lia.
    - rewrite Cl, Cr. pose proof (holds_left _ _ _ _ _ _ HU) as Hl. pose proof (holds_right _ _ _ _ _ _ HU) as Hr.
      unfold asize in Hf. cbn in Hf. rewrite app_length in Hf. fold (asize l) (asize r) in Hf.
      cbn [copy_child]. destruct (deep_copy_ok fuel h _ l Hl ltac:(lia)) as (t1 & h1 & E1 & A1 & S1 & T1 & F1).
      rewrite E1.
      assert (Hr1 : holds h1 (Some a) r) by (eapply holds_keep; [exact Hr|exact T1|apply A1|auto]).
      destruct (deep_copy_ok fuel h1 _ r Hr1 ltac:(lia)) as (t2 & h2 & E2 & A2 & S2 & T2 & F2).
      rewrite E2.
      assert (A1' : holds h2 None t1) by (eapply holds_keep; [exact A1|exact T2|apply A2|auto]).
      assert (D12 : forall x, In x (addrs t1) -> ~ In x (addrs t2)).
      { intros x X Y. apply F2 in Y. destruct A1 as (O1 & K1 & _). pose proof (linked_lt _ _ _ _ O1 K1 X). lia. }
      destruct (new_node_ok h2 (c_data c) None t1 None t2 A1' A2 D12) as (h3 & E3 & A3 & T3 & N3).
      rewrite E3. exists (ANode (next h2) (c_data c) t1 t2), h3. split; [auto|]. split; [auto|].
      split; [cbn in *; congruence|].
      assert (G1 : next h <= next h1) by apply T1. assert (G2 : next h1 <= next h2) by apply T2.
      assert (F : forall x, In x (addrs t1 ++ addrs t2) -> next h <= x).
      { intros x. rewrite in_app_iff. intros [X|X]; [auto|apply F2 in X; lia]. }
      split.
      + assert (T12 : only_touches [] h h2) by (eapply touches_trans; [exact T1|exact T2|intros ? []]).
        eapply touches_trans; [exact T12|exact T3|]. intros x X Lx. apply F in X. lia.
      + cbn. intros x [<-|X]; [lia|auto].
  Qed.

  (** Copy assignment is safe however source and target overlap. *)
  Theorem copy_assign_ok : forall fuel h par t pu u, holds h par t -> holds h pu u ->
    3 * asize u + asize t <= fuel ->
    exists t' h', copy_assign fuel h (aroot t) (aroot u) = Some h' /\
      holds h' par t' /\ strip t' = strip u /\ aroot t' = aroot t /\
      only_touches (addrs t) h h' /\
      (forall a, In a (addrs t) -> a <> aroot t -> cells h' a = None) /\
      (forall a, In a (addrs t') -> a = aroot t \/ next h <= a).
  Proof.
    intros fuel h par t pu u (Hok & HT & NT) HU Hf. unfold copy_assign.
    destruct (deep_copy_ok fuel h pu u HU ltac:(lia)) as (x & h1 & E1 & A1 & S1 & T1 & F1).
    rewrite E1.
    assert (KT : forall a, In a (addrs t) -> a < next h) by (intros; eapply linked_lt; eauto).
    assert (HT1 : linked h1 par t). { eapply linked_ext; [exact HT|]. intros a Ha. apply T1; auto. }
    pose proof A1 as (Hok1 & HX & NX).
    destruct (linked_cell _ _ _ HT1) as (ct & CT & Td & Tp & Tl & Tr).
    destruct (linked_cell _ _ _ HX) as (cn & CN & Ud & Up & Ul & Ur).
    rewrite CT, CN. set (self := aroot t) in *. set (tmp := aroot x) in *.
    assert (Lself : self < next h) by (apply KT, aroot_in).
    assert (NE : tmp <> self). { pose proof (F1 _ (aroot_in x)). unfold tmp. lia. }
    assert (F1i : forall a, In a (inner_addrs x) -> next h <= a) by (intros a Ha; apply F1, inner_in; auto).
    match goal with |- context [destroy fuel ?H (c_left ct)] => set (h2 := H) end.
    assert (C2s : cells h2 self = Some (mkcell (c_data cn) (c_left cn) (c_right ct) (c_parent ct))) by (cbn; apply upd_same).
    assert (C2o : forall a, a <> self -> cells h2 a = cells h1 a) by (intros; cbn; apply upd_other; auto).
    assert (N2 : next h2 = next h1) by reflexivity. clearbody h2.
    set (lt := match t with ALeaf _ _ => None | ANode _ _ l _ => Some l end).
    set (rt := match t with ALeaf _ _ => None | ANode _ _ _ r => Some r end).
    assert (El : c_left ct = option_map aroot lt) by (rewrite Tl; unfold lt; destruct t; auto).
    assert (Er : c_right ct = option_map aroot rt) by (rewrite Tr; unfold rt; destruct t; auto).
    set (la := match lt with Some x => addrs x | None => [] end).
    set (ra := match rt with Some x => addrs x | None => [] end).
    assert (IT : inner_addrs t = la ++ ra) by (unfold la, ra, lt, rt, inner_addrs; destruct t; cbn; rewrite ?app_nil_r; auto).
    assert (NI : NoDup (la ++ ra)) by (rewrite <- IT; apply node_children_nodup; auto).
    assert (SI : ~ In self (la ++ ra)) by (rewrite <- IT; apply inner_not_root; auto).
    apply nodup_app in NI. destruct NI as (Nla & Nra & Nlr).
    assert (LLR : (forall y, lt = Some y -> linked h1 (Some self) y /\ NoDup (addrs y) /\ asize y <= fuel) /\
                  (forall y, rt = Some y -> linked h1 (Some self) y /\ NoDup (addrs y) /\ asize y <= fuel)).
    { unfold lt, rt, self, asize in *. destruct t as [a d|a d l r]; [split; discriminate|].
      cbn in HT1. rewrite nodup_node in NT. cbn in Hf. rewrite app_length in Hf.
      split; intros y Y; inversion Y; subst; repeat split; try tauto; lia. }
    destruct LLR as (LLt & LRt).
    destruct (destroy_opt fuel h2 lt (Some self)) as (h3 & E3 & N3 & C3).
    { intros y Hy. destruct (LLt y Hy) as (P & Q & W). split; [|auto]. eapply linked_ext; [exact P|].
      intros a Ha. apply C2o. intros ->. apply SI. apply in_app_iff. left. unfold la. rewrite Hy. auto. }
    fold la in C3. rewrite El, E3.
    assert (C3s : cells h3 self = cells h2 self). { rewrite C3. destruct (in_dec Nat.eq_dec self la); auto. exfalso. apply SI, in_app_iff; auto. }
    rewrite C3s, C2s. cbn [c_data c_left c_right c_parent].
    match goal with |- context [destroy fuel ?H (c_right ct)] => set (h4 := H) end.
    assert (C4s : cells h4 self = Some (mkcell (c_data cn) (c_left cn) (c_right cn) (c_parent ct))) by (cbn; apply upd_same).
    assert (C4o : forall a, a <> self -> cells h4 a = cells h3 a) by (intros; cbn; apply upd_other; auto).
    assert (N4 : next h4 = next h3) by reflexivity. clearbody h4.
    destruct (destroy_opt fuel h4 rt (Some self)) as (h5 & E5 & N5 & C5).
    { intros y Hy. destruct (LRt y Hy) as (P & Q & W). split; [|auto]. eapply linked_ext; [exact P|].
      intros a Ha. assert (In a ra) by (unfold ra; rewrite Hy; auto).
      assert (a <> self) by (intros ->; apply SI, in_app_iff; auto).
      rewrite C4o by auto. rewrite C3. destruct (in_dec Nat.eq_dec a la) as [Z|Z]; [exfalso; eapply Nlr; eauto|]. auto. }
    fold ra in C5. rewrite Er, E5.
    assert (C5o : forall a, ~ In a (la ++ ra) -> a <> self -> cells h5 a = cells h1 a).
    { intros a Ha Hs. rewrite in_app_iff in Ha. rewrite C5. destruct (in_dec Nat.eq_dec a ra); [tauto|]. rewrite C4o by auto.
      rewrite C3. destruct (in_dec Nat.eq_dec a la); [tauto|]. auto. }
    assert (KI : forall a, In a (la ++ ra) -> a < next h) by (intros a Ha; apply KT, inner_in; rewrite IT; auto).
    destruct (adopt_ok h5 x self) as (h7 & E7 & N7 & L7 & C7 & _).
    { intros c Hc. exists (Some tmp).
      assert (linked h1 (Some tmp) c) by (destruct x as [|b e l r]; [destruct Hc|]; cbn in HX, Hc; subst tmp; cbn; destruct Hc as [<-|[<-|[]]]; tauto).
      eapply linked_ext; [eassumption|]. intros a Ha.
      assert (Hi : next h <= a) by (apply F1i, in_flat_map; eauto).
      apply C5o; [intros Y; apply KI in Y; lia|lia]. }
    { apply node_children_nodup; auto. }
    unfold adopt in E7. rewrite <- Ul, <- Ur in E7.
    destruct (set_parent h5 (c_left cn) self) as [h6|]; [|discriminate]. rewrite E7.
    set (h8 := set_cell h7 tmp None). exists (at_addr self x), h8. split; [auto|].
    assert (C8 : forall a, a <> tmp -> cells h8 a = cells h7 a) by (intros; cbn; apply upd_other; auto).
    assert (C8t : cells h8 tmp = None) by (cbn; apply upd_same).
    assert (N8 : next h8 = next h1) by (cbn; congruence). clearbody h8.
    assert (TI : ~ In tmp (inner_addrs x)) by (apply inner_not_root; auto).
    assert (SX : ~ In self (inner_addrs x)) by (intros Y; apply F1i in Y; lia).
    assert (G1 : next h <= next h1) by apply T1.
    assert (KX : forall a, In a (addrs x) -> a < next h1) by (intros; eapply linked_lt; eauto).
    split; [split; [|split]|split; [rewrite strip_at_addr; auto|split; [destruct x; reflexivity|split; [split|split]]]].
    - intros a Ha. rewrite N8 in Ha. destruct (Nat.eq_dec a tmp) as [->|N]; auto. rewrite C8 by auto.
      rewrite C7; [|intros Y; apply inner_in in Y; apply KX in Y; lia].
      rewrite C5o; [apply Hok1; auto|intros Y; apply KI in Y; lia|lia].
    - apply at_addr_linked.
      + rewrite C8 by auto. rewrite C7 by auto. rewrite C5. destruct (in_dec Nat.eq_dec self ra) as [Y|Y]; [exfalso; apply SI, in_app_iff; auto|].
        rewrite C4s. rewrite Ud, Ul, Ur, Tp. reflexivity.
      + intros c Hc. eapply linked_ext; [apply L7; auto|]. intros a Ha. apply C8. intros ->. apply TI. apply in_flat_map; eauto.
    - rewrite at_addr_addrs. constructor; auto. apply node_children_nodup; auto.
    - lia.
    - intros a La Na. assert (a <> tmp) by (pose proof (F1 _ (aroot_in x)); unfold tmp; lia).
      rewrite C8 by auto. rewrite C7; [|intros Y; apply F1i in Y; lia].
      rewrite C5o; [apply T1; auto|intros Y; apply Na, inner_in; rewrite IT; auto|intros ->; apply Na, aroot_in].
    - intros a Ha Hs. assert (Hin : In a (la ++ ra)).
      { rewrite <- IT. destruct t; cbn in *; [destruct Ha as [<-|[]]; exfalso; apply Hs; reflexivity|]. rewrite app_nil_r. destruct Ha as [<-|Ha]; [exfalso; apply Hs; reflexivity|auto]. }
      pose proof (KI _ Hin) as Hlt.
      assert (a <> tmp) by (pose proof (F1 _ (aroot_in x)); unfold tmp; lia).
      rewrite C8 by auto. rewrite C7; [|intros Y; apply F1i in Y; lia]. rewrite C5.
      destruct (in_dec Nat.eq_dec a ra) as [Y|Y]; auto. rewrite C4o by auto. rewrite C3.
      destruct (in_dec Nat.eq_dec a la) as [Z|Z]; auto. rewrite in_app_iff in Hin. tauto.
    - rewrite at_addr_addrs. intros a [<-|Ha]; auto.
  Qed.

  (** ** Folds *)
  Lemma at_addr_inner_in : forall b u a, In a (addrs (at_addr b u)) -> a = b \/ In a (addrs u).
  Proof. intros b u a. rewrite at_addr_addrs. intros [<-|H]; auto. right. apply inner_in; auto. Qed.

  Lemma node_of_nodes_ok : forall fuel h d pl l pr r, holds h pl l -> holds h pr r ->
    (forall a, In a (addrs l) -> ~ In a (addrs r)) -> 1 <= fuel ->
    exists t h', node_of_nodes fuel h d (aroot l) (aroot r) = Some (aroot t, h') /\
      holds h' None t /\ strip t = Node d (strip l) (strip r) /\
      only_touches (addrs l ++ addrs r) h h' /\
      (forall a, In a (addrs t) -> In a (addrs l ++ addrs r) \/ next h <= a).
  Proof.
    intros fuel h d pl l pr r Hl Hr D Hf. unfold node_of_nodes.
    destruct (move_ctor_ok fuel h pl l Hl Hf) as (h1 & E1 & A1 & _ & T1 & N1). rewrite E1.
    assert (Hr1 : holds h1 pr r). { eapply holds_keep; [exact Hr|exact T1|apply A1|]. intros a Ha X. eapply D; eauto. }
    destruct (move_ctor_ok fuel h1 pr r Hr1 Hf) as (h2 & E2 & A2 & _ & T2 & N2). rewrite E2.
    set (l' := at_addr (next h) l) in *. set (r' := at_addr (next h1) r) in *.
    assert (KL : forall a, In a (addrs l) -> a < next h) by (intros; eapply linked_lt; [apply Hl|apply Hl|auto]).
    assert (KR : forall a, In a (addrs r) -> a < next h) by (intros; eapply linked_lt; [apply Hr|apply Hr|auto]).
    assert (A1' : holds h2 None l').
    { eapply holds_keep; [exact A1|exact T2|apply A2|]. intros a Ha X. apply at_addr_inner_in in Ha. destruct Ha as [->|Ha]; [apply KR in X; lia|eapply D; eauto]. }
    assert (D' : forall a, In a (addrs l') -> ~ In a (addrs r')).
    { intros a Ha X. apply at_addr_inner_in in Ha, X. destruct Ha as [->|Ha]; destruct X as [X|X].
      - lia. - apply KR in X; lia. - subst. apply KL in Ha. lia. - eapply D; eauto. }
    destruct (new_node_ok h2 d None l' None r' A1' A2 D') as (h3 & E3 & A3 & T3 & N3).
    assert (RL : aroot l' = next h) by (unfold l'; destruct l; reflexivity).
    assert (RR : aroot r' = next h1) by (unfold r'; destruct r; reflexivity).
    rewrite RL, RR in E3. rewrite E3. exists (ANode (next h2) d l' r'), h3. split; [auto|]. split; [auto|].
    split; [cbn; unfold l', r'; rewrite !strip_at_addr; auto|]. split.
    - assert (T12 : only_touches (addrs l ++ addrs r) h h2).
      { eapply touches_trans; [eapply touches_incl; [exact T1|intros; apply in_app_iff; auto]|exact T2|]. intros; apply in_app_iff; auto. }
      eapply touches_trans; [exact T12|exact T3|]. intros a Ha La. rewrite in_app_iff in *. destruct Ha as [Ha|Ha]; apply at_addr_inner_in in Ha; destruct Ha as [->|Ha]; auto; lia.
    - cbn. intros a [<-|Ha]; [right; lia|]. rewrite in_app_iff in *. destruct Ha as [Ha|Ha]; apply at_addr_inner_in in Ha; destruct Ha as [->|Ha]; auto; right; lia.
  Qed.

  Section F1.
    Context {V : Type}.
    Variable bin1 : V -> T.
    Variable bin2 : T -> T -> T.

    Lemma fold_ctor_loop_ok : forall fuel vs h acc, holds h None acc -> 1 <= fuel ->
      exists t h', fold_ctor_loop bin1 bin2 fuel h (aroot acc) vs = Some (aroot t, h') /\
        holds h' None t /\ strip t = left_comb bin2 (strip acc) (map (fun v => Leaf (bin1 v)) vs) /\
        only_touches (addrs acc) h h' /\ (forall a, In a (addrs t) -> In a (addrs acc) \/ next h <= a).
    Proof.
      intros fuel vs. induction vs as [|v vs IH]; intros h acc HA Hf.
      - exists acc, h. cbn. repeat split; auto; apply HA.
      - cbn [fold_ctor_loop].
        destruct (new_leaf_ok h (bin1 v) (proj1 HA)) as (h1 & E1 & A1 & T1 & N1). rewrite E1.
        assert (KA : forall a, In a (addrs acc) -> a < next h) by (intros; eapply linked_lt; [apply HA|apply HA|auto]).
        assert (HA1 : holds h1 None acc) by (eapply holds_keep; [exact HA|exact T1|apply A1|auto]).
        destruct (linked_cell _ _ _ (proj1 (proj2 HA1))) as (ca & Ca & Cda & _).
        destruct (linked_cell _ _ _ (proj1 (proj2 A1))) as (cr & Cr & Cdr & _). cbn [aroot adata] in Cr, Cdr.
        rewrite Ca, Cr.
        destruct (node_of_nodes_ok fuel h1 (bin2 (c_data ca) (c_data cr)) None acc None (ALeaf (next h) (bin1 v)) HA1 A1) as (t2 & h2 & E2 & A2 & S2 & T2 & F2); auto.
        { intros a Ha [<-|[]]. apply KA in Ha. lia. }
        cbn [aroot] in E2. rewrite E2.
        destruct (IH h2 t2 A2 Hf) as (t3 & h3 & E3 & A3 & S3 & T3 & F3).
        exists t3, h3. split; [auto|]. split; [auto|]. split.
        { rewrite S3. cbn [map left_comb fold_left]. unfold left_comb. f_equal. rewrite S2. cbn. rewrite Cda, Cdr, adata_strip. reflexivity. }
        assert (G2 : next h1 <= next h2) by apply T2.
        split.
        * assert (T12 : only_touches (addrs acc) h h2).
          { eapply touches_trans; [eapply touches_incl; [exact T1|intros ? []]|exact T2|]. intros a Ha La. rewrite in_app_iff in Ha. destruct Ha as [Ha|[<-|[]]]; auto. lia. }
          eapply touches_trans; [exact T12|exact T3|]. intros a Ha La. apply F2 in Ha. rewrite in_app_iff in Ha. destruct Ha as [[Ha|[<-|[]]]|Ha]; auto; lia.
        * intros a Ha. apply F3 in Ha. destruct Ha as [Ha|Ha]; [|right; lia]. apply F2 in Ha. rewrite in_app_iff in Ha. destruct Ha as [[Ha|[<-|[]]]|Ha]; auto; right; lia.
    Qed.

    Theorem fold_ctor_ok : forall fuel h v vs, heap_ok h -> 1 <= fuel ->
      exists t h', fold_ctor bin1 bin2 fuel h (v :: vs) = Some (aroot t, h') /\ holds h' None t /\
        strip t = left_comb bin2 (Leaf (bin1 v)) (map (fun v => Leaf (bin1 v)) vs) /\ only_touches [] h h'.
    Proof.
      intros fuel h v vs Hok Hf. unfold fold_ctor.
      destruct (new_leaf_ok h (bin1 v) Hok) as (h1 & E1 & A1 & T1 & N1). rewrite E1.
      destruct (fold_ctor_loop_ok fuel vs h1 _ A1 Hf) as (t & h' & E & A & S & TT & F).
      exists t, h'. split; [exact E|]. split; [auto|]. split; [auto|].
      eapply touches_trans; [exact T1|exact TT|]. cbn. intros a [<-|[]]. lia.
    Qed.
  End F1.

  Section F2.
    Variable op : T -> T -> T.

    Lemma fold_nodes_loop_ok : forall fuel ts h acc, holds h None acc -> 1 <= fuel ->
      (forall t, In t ts -> exists p, holds h p t) -> NoDup (addrs acc ++ flat_map addrs ts) ->
      exists t h', fold_nodes_loop op fuel h (aroot acc) (map aroot ts) = Some (aroot t, h') /\
        holds h' None t /\ strip t = left_comb op (strip acc) (map strip ts) /\
        only_touches (addrs acc ++ flat_map addrs ts) h h'.
    Proof.
      intros fuel ts. induction ts as [|r ts IH]; intros h acc HA Hf HT ND.
      - exists acc, h. cbn. repeat split; auto; apply HA.
      - cbn [map fold_nodes_loop]. destruct (HT r (or_introl eq_refl)) as (pr & Hr).
        destruct (linked_cell _ _ _ (proj1 (proj2 HA))) as (ca & Ca & Cda & _).
        destruct (linked_cell _ _ _ (proj1 (proj2 Hr))) as (cr & Cr & Cdr & _).
        rewrite Ca, Cr. cbn [flat_map] in ND. rewrite app_assoc in ND. apply nodup_app in ND. destruct ND as (ND1 & ND2 & ND3).
        apply nodup_app in ND1. destruct ND1 as (NA & NR & NAR).
        destruct (node_of_nodes_ok fuel h (op (c_data ca) (c_data cr)) None acc pr r HA Hr NAR Hf) as (t2 & h2 & E2 & A2 & S2 & T2 & F2).
        rewrite E2.
        assert (KT : forall t a, In t ts -> In a (addrs t) -> a < next h).
        { intros t a Ht Ha. destruct (HT t (or_intror Ht)) as (p & Hp). eapply linked_lt; [apply Hp|apply Hp|auto]. }
        destruct (IH h2 t2 A2 Hf) as (t3 & h3 & E3 & A3 & S3 & T3).
        { intros t Ht. destruct (HT t (or_intror Ht)) as (p & Hp). exists p. eapply holds_keep; [exact Hp|exact T2|apply A2|].
          intros a Ha X. apply (ND3 a X). apply in_flat_map; eauto. }
        { apply nodup_app. split; [apply A2|]. split; [auto|]. intros a Ha X. apply F2 in Ha. destruct Ha as [Ha|Ha]; [eapply ND3; eauto|].
          apply in_flat_map in X. destruct X as (t & Ht & Hat). pose proof (KT _ _ Ht Hat). lia. }
        exists t3, h3. split; [auto|]. split; [auto|]. split.
        { rewrite S3. cbn [map left_comb fold_left]. unfold left_comb. f_equal. rewrite S2. rewrite Cda, Cdr, !adata_strip. reflexivity. }
        cbn [flat_map]. rewrite app_assoc.
        eapply touches_trans; [eapply touches_incl; [exact T2|intros; apply in_app_iff; auto]|exact T3|].
        intros a Ha La. rewrite in_app_iff in Ha |- *. destruct Ha as [Ha|Ha]; auto. apply F2 in Ha. destruct Ha; auto. lia.
    Qed.

    Theorem fold_left_to_node_ok : forall fuel h t ts, holds h None t -> 1 <= fuel ->
      (forall x, In x ts -> exists p, holds h p x) -> NoDup (flat_map addrs (t :: ts)) ->
      exists t' h', fold_left_to_node op fuel h (map aroot (t :: ts)) = Some (aroot t', h') /\ holds h' None t' /\
        strip t' = left_comb op (strip t) (map strip ts) /\ only_touches (flat_map addrs (t :: ts)) h h'.
    Proof. intros fuel h t ts HA Hf HT ND. exact (fold_nodes_loop_ok fuel ts h t HA Hf HT ND). Qed.
  End F2.
End Copy.

Lemma transform_ok : forall T R (f : T -> R) fuel (hs : heap T) (h : heap R) pu u,
  holds hs pu u -> heap_ok h -> 3 * asize u <= fuel ->
  exists t' h', transform_node f fuel hs h (aroot u) = Some (aroot t', h', tdata (strip u)) /\
    holds h' None t' /\ strip t' = tmap f (strip u) /\ only_touches [] h h'.
Proof.
  intros T R f fuel hs h pu u (Hok & HL & ND) Hh Hf. unfold transform_node.
  destruct (clone_ok f (fun _ a => cells hs a) (cells hs) u h) with (fuel := fuel) (pu := pu) as (t1 & h1 & E1 & A1 & S1 & T1 & F1); auto.
  - eapply linked_ext; [exact HL|]. auto.
  - rewrite E1. assert (1 <= fuel). { unfold asize in Hf. destruct u; cbn in Hf; lia. }
    destruct (move_ctor_ok fuel h1 None t1 A1 H) as (h2 & E2 & A2 & _ & T2 & N2). rewrite E2.
    exists (at_addr (next h1) t1), h2. split; [destruct t1; reflexivity|]. split; [auto|].
    split; [rewrite strip_at_addr; auto|]. eapply touches_trans; [exact T1|exact T2|].
    intros a Ha La. apply F1 in Ha. lia.
Qed.
