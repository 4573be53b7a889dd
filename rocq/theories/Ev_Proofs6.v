(** Persistence classification, the simulated peak, batches of tiles. *)
From Coq Require Import List ZArith Bool Arith Lia Permutation.
From Verif Require Import BT_Model Ev_Model Ev_Spec Ev_Proofs1 Ev_Proofs2 Ev_Proofs3 Ev_Proofs4 Ev_Proofs5.
Import ListNotations.
Local Open Scope Z_scope.

Lemma existsb_filter : forall {A} (P f : A -> bool) l, (forall x, P x = true -> f x = true) -> existsb P (filter f l) = existsb P l.
Proof.
  induction l as [|x l IH]; intros H; cbn; auto. destruct (f x) eqn:F; cbn; rewrite IH by auto; auto.
  destruct (P x) eqn:E; auto. rewrite (H _ E) in F. discriminate.
Qed.

Section Persist.
  Context {D : Type}.
  Variable peq : D -> D -> bool.
  Hypothesis EQ : equivb peq.
  Notation tr := (tree D).
  Variable isv : tr -> bool.
  Hypothesis ISV : forall a b, node_eq peq a b = true -> isv a = isv b.
  Notation vol := (volatile isv).

  Lemma volatile_eq : forall a b, node_eq peq a b = true -> vol a = vol b.
  Proof.
    induction a as [d|d l IHl r IHr]; intros [d'|d' l' r'] E; try discriminate; pose proof (ISV _ _ E) as I; cbn [volatile] in *.
    - rewrite I. auto.
    - rewrite node_eq_node, !andb_true_iff in E. destruct E as [[_ El] Er]. rewrite I, (IHl _ El), (IHr _ Er). auto.
  Qed.

  Lemma mem_eq : forall s a b, node_eq peq a b = true -> mem peq s a = mem peq s b.
  Proof.
    intros s a b E. unfold mem. induction s as [|k s IH]; cbn; auto. rewrite (node_eq_r _ EQ _ _ k E), IH. auto.
  Qed.
  Lemma mem_insert : forall s n k, mem peq (insert peq s n) k = mem peq s k || node_eq peq n k.
  Proof.
    intros s n k. unfold insert. destruct (mem peq s n) eqn:M.
    - destruct (node_eq peq n k) eqn:E; [|rewrite orb_false_r; auto]. rewrite <- (mem_eq s n k E), M. auto.
    - unfold mem. rewrite existsb_app. cbn. rewrite orb_false_r. auto.
  Qed.

  Notation has s k := (find peq (p_vol s) k <> None).

  Variable nodes : list tr.

  Record pinv (s : pstate) : Prop := {
    pi_vol : forall k v, find peq (p_vol s) k = Some v -> v = vol k;
    pi_kids : forall d l r, has s (Node d l r) -> has s l /\ has s r;
    pi_sound : forall k, mem peq (p_pers s) k = true ->
      is_leaf k = false /\ vol k = false /\ exists p, consumed_by peq nodes k p /\ vol p = true;
    pi_left : forall d l r, has s (Node d l r) -> vol (Node d l r) = true -> vol l = false -> is_leaf l = false -> mem peq (p_pers s) l = true;
    pi_right : forall d l r, has s (Node d l r) -> vol (Node d l r) = true -> vol r = false -> is_leaf r = false -> mem peq (p_pers s) r = true }.

  Lemma find_emplace_vol : forall (m : list (tr * bool)) n v k, find peq m n = None ->
    find peq (try_emplace peq m n v) k = match find peq m k with Some x => Some x | None => if node_eq peq n k then Some v else None end.
  Proof. intros. rewrite (find_try_emplace peq EQ). auto. Qed.

  (** visiting children does not decide larger nodes *)
  Lemma p_visit_far : forall n s k, (size n < size k)%nat -> find peq (p_vol (fst (p_visit peq isv s n))) k = find peq (p_vol s) k.
  Proof.
    induction n as [d|d l IHl r IHr]; intros s k H; cbn [p_visit].
    - cbn [is_leaf]. destruct (find peq (p_vol s) (Leaf d)) eqn:F; auto. cbn [fst p_vol].
      rewrite find_emplace_vol by auto. destruct (find peq (p_vol s) k); auto.
      destruct (node_eq peq (Leaf d) k) eqn:E; auto. apply node_eq_size in E. rewrite <- E in H. lia.
    - cbn [is_leaf]. destruct (find peq (p_vol s) (Node d l r)) eqn:F; auto.
      cbn [size] in H. set (s0 := mkp _ _ _).
      pose proof (IHl s0 k ltac:(lia)) as A. destruct (p_visit peq isv s0 l) as [s1 vl]. cbn [fst] in A.
      pose proof (IHr s1 k ltac:(lia)) as B. destruct (p_visit peq isv s1 r) as [s2 vr]. cbn [fst] in B.
      set (v := isv (Node d l r) || vl || vr).
      set (s3 := if v && negb vl && negb (is_leaf l) then mkp (p_counts s2) (p_vol s2) (insert peq (p_pers s2) l) else s2).
      set (s4 := if v && negb vr && negb (is_leaf r) then mkp (p_counts s3) (p_vol s3) (insert peq (p_pers s3) r) else s3).
      assert (V : p_vol s4 = p_vol s2). { subst s4 s3. destruct (v && negb vr && negb (is_leaf r)), (v && negb vl && negb (is_leaf l)); auto. }
      cbn [fst p_vol]. rewrite V. rewrite (find_try_emplace peq EQ). rewrite B, A. cbn [p_vol s0].
      destruct (find peq (p_vol s) k); auto.
      destruct (node_eq peq (Node d l r) k) eqn:E; auto. apply node_eq_size in E. rewrite <- E in H. cbn [size] in H. lia.
  Qed.

  Lemma p_visit_ok : forall n s, within nodes n -> pinv s ->
    pinv (fst (p_visit peq isv s n)) /\ snd (p_visit peq isv s n) = vol n /\ has (fst (p_visit peq isv s n)) n /\
    (forall k, has s k -> has (fst (p_visit peq isv s n)) k).
  Proof.
    induction n as [d|d l IHl r IHr]; intros s W I; cbn [p_visit].
    - cbn [is_leaf]. destruct (find peq (p_vol s) (Leaf d)) as [v|] eqn:F.
      { cbn [fst snd]. split; auto. split; [apply (pi_vol _ I _ _ F)|]. split; [congruence|auto]. }
      cbn [fst snd p_vol p_pers p_counts].
      assert (FV : forall k, find peq (try_emplace peq (p_vol s) (Leaf d) (isv (Leaf d))) k =
        match find peq (p_vol s) k with Some x => Some x | None => if node_eq peq (Leaf d) k then Some (isv (Leaf d)) else None end)
        by (intros; apply find_emplace_vol; auto).
      assert (NODE : forall d' l' r', find peq (try_emplace peq (p_vol s) (Leaf d) (isv (Leaf d))) (Node d' l' r') <> None -> has s (Node d' l' r')).
      { intros d' l' r' H. rewrite FV in H. destruct (find peq (p_vol s) (Node d' l' r')); auto; congruence. }
      assert (UP : forall k, has s k -> find peq (try_emplace peq (p_vol s) (Leaf d) (isv (Leaf d))) k <> None).
      { intros k H. rewrite FV. destruct (find peq (p_vol s) k); congruence. }
      split.
      { destruct I as [A B C E G]. constructor; cbn [p_vol p_pers]; auto.
        - intros k v H. rewrite FV in H. destruct (find peq (p_vol s) k) eqn:Fk; [injection H as <-; apply A; auto|].
          destruct (node_eq peq (Leaf d) k) eqn:Ek; [|discriminate]. injection H as <-. rewrite <- (volatile_eq _ _ Ek). cbn. rewrite orb_false_r. auto.
        - intros d' l' r' H. apply NODE in H. destruct (B _ _ _ H). auto.
        - intros d' l' r' H. apply NODE in H. eapply E; eauto.
        - intros d' l' r' H. apply NODE in H. eapply G; eauto. }
      split; [cbn; rewrite orb_false_r; auto|]. split; [|auto].
      rewrite FV, F, (node_eq_refl _ EQ). discriminate.
    - cbn [is_leaf]. destruct (find peq (p_vol s) (Node d l r)) as [v|] eqn:F.
      { cbn [fst snd]. split; [destruct I; constructor; auto|]. split; [apply (pi_vol _ I _ _ F)|]. split; [cbn; congruence|auto]. }
      set (n := Node d l r) in *. set (s0 := mkp (bump peq (p_counts s) n) (p_vol s) (p_pers s)).
      assert (I0 : pinv s0) by (destruct I; constructor; auto).
      destruct (IHl s0 (within_left _ _ _ _ W) I0) as (I1 & V1 & H1 & U1).
      assert (far1 : forall k, (size l < size k)%nat -> _) by (intros k; apply (p_visit_far l s0 k)).
      destruct (p_visit peq isv s0 l) as [s1 vl]. cbn [fst snd] in *.
      destruct (IHr s1 (within_right _ _ _ _ W) I1) as (I2 & V2 & H2 & U2).
      assert (far2 : forall k, (size r < size k)%nat -> _) by (intros k; apply (p_visit_far r s1 k)).
      destruct (p_visit peq isv s1 r) as [s2 vr]. cbn [fst snd] in *. subst vl vr.
      assert (VN : isv n || vol l || vol r = vol n) by (subst n; cbn [volatile]; rewrite orb_assoc; auto). rewrite VN.
      set (s3 := if vol n && negb (vol l) && negb (is_leaf l) then mkp (p_counts s2) (p_vol s2) (insert peq (p_pers s2) l) else s2).
      set (s4 := if vol n && negb (vol r) && negb (is_leaf r) then mkp (p_counts s3) (p_vol s3) (insert peq (p_pers s3) r) else s3).
      assert (V : p_vol s4 = p_vol s2). { subst s4 s3. destruct (vol n && negb (vol r) && negb (is_leaf r)), (vol n && negb (vol l) && negb (is_leaf l)); auto. }
      assert (M : forall k, mem peq (p_pers s4) k = mem peq (p_pers s2) k ||
         (vol n && negb (vol l) && negb (is_leaf l) && node_eq peq l k) || (vol n && negb (vol r) && negb (is_leaf r) && node_eq peq r k)).
      { intros k. subst s4 s3. destruct (vol n && negb (vol r) && negb (is_leaf r)), (vol n && negb (vol l) && negb (is_leaf l));
          cbn [p_pers]; rewrite ?mem_insert; destruct (mem peq (p_pers s2) k), (node_eq peq l k), (node_eq peq r k); auto. }
      assert (F2 : find peq (p_vol s2) n = None).
      { rewrite far2, far1 by (subst n; cbn [size]; lia). auto. }
      cbn [fst snd p_vol p_pers p_counts]. rewrite V.
      set (pv := try_emplace peq (p_vol s2) n (vol n)).
      assert (FV : forall k, find peq pv k =
        match find peq (p_vol s2) k with Some x => Some x | None => if node_eq peq n k then Some (vol n) else None end)
        by (intros; apply find_emplace_vol; auto).
      assert (UP : forall k, has s2 k -> find peq pv k <> None).
      { intros k H. rewrite FV. destruct (find peq (p_vol s2) k); congruence. }
      assert (NODE : forall d' l' r', find peq pv (Node d' l' r') <> None -> has s2 (Node d' l' r') \/ node_eq peq n (Node d' l' r') = true).
      { intros d' l' r' H. rewrite FV in H. destruct (find peq (p_vol s2) (Node d' l' r')); [left; congruence|].
        destruct (node_eq peq n (Node d' l' r')); auto. }
      split.
      { destruct I2 as [A B C E G]. constructor; cbn [p_vol p_pers].
        - intros k v H. rewrite FV in H. destruct (find peq (p_vol s2) k) eqn:Fk; [injection H as <-; apply A; auto|].
          destruct (node_eq peq n k) eqn:Ek; [|discriminate]. injection H as <-. rewrite <- (volatile_eq _ _ Ek). reflexivity.
        - intros d' l' r' H. destruct (NODE _ _ _ H) as [H'|H']; [destruct (B _ _ _ H'); auto|].
          subst n. rewrite node_eq_node, !andb_true_iff in H'. destruct H' as [[_ El] Er].
          split; apply UP; [rewrite <- (find_eq _ EQ _ _ _ El)|rewrite <- (find_eq _ EQ _ _ _ Er)]; auto.
        - intros k H. rewrite M, !orb_true_iff, !andb_true_iff, !negb_true_iff in H.
          destruct W as (root & Ir & Is).
          destruct H as [[H|[[[X1 X2] X3] X4]]|[[[X1 X2] X3] X4]]; [auto| |].
          + split; [rewrite <- (node_eq_is_leaf peq _ _ X4); auto|]. split; [rewrite <- (volatile_eq _ _ X4); auto|].
            exists n. split; [|auto]. exists root, d, l, r. auto.
          + split; [rewrite <- (node_eq_is_leaf peq _ _ X4); auto|]. split; [rewrite <- (volatile_eq _ _ X4); auto|].
            exists n. split; [|auto]. exists root, d, l, r. auto.
        - intros d' l' r' H HV HL LL. rewrite M. destruct (NODE _ _ _ H) as [H'|H']; [rewrite (E _ _ _ H' HV HL LL); auto|].
          assert (VN' := volatile_eq _ _ H').
          subst n. rewrite node_eq_node, !andb_true_iff in H'. destruct H' as [[_ El] Er].
          rewrite VN', HV, (volatile_eq _ _ El), HL, (node_eq_is_leaf peq _ _ El), LL, El. cbn. rewrite orb_true_r. auto.
        - intros d' l' r' H HV HL LL. rewrite M. destruct (NODE _ _ _ H) as [H'|H']; [rewrite (G _ _ _ H' HV HL LL); auto|].
          assert (VN' := volatile_eq _ _ H').
          subst n. rewrite node_eq_node, !andb_true_iff in H'. destruct H' as [[_ El] Er].
          rewrite VN', HV, (volatile_eq _ _ Er), HL, (node_eq_is_leaf peq _ _ Er), LL, Er. cbn. rewrite !orb_true_r. auto. }
      split; [auto|]. split; [rewrite FV, F2, (node_eq_refl _ EQ); discriminate|].
      intros k Hk. apply UP, U2, U1, Hk.
  Qed.

  Lemma p_visit_list : forall ns s, (forall n, In n ns -> within nodes n) -> pinv s ->
    pinv (fold_left (fun s n => fst (p_visit peq isv s n)) ns s) /\
    (forall k, has s k -> has (fold_left (fun s n => fst (p_visit peq isv s n)) ns s) k) /\
    (forall n, In n ns -> has (fold_left (fun s n => fst (p_visit peq isv s n)) ns s) n).
  Proof.
    induction ns as [|n ns IH]; intros s W I; cbn [fold_left]; [split; auto; split; auto; intros n []|].
    destruct (p_visit_ok n s (W n (or_introl eq_refl)) I) as (I1 & _ & H1 & U1).
    destruct (IH _ (fun m J => W m (or_intror J)) I1) as (I2 & U2 & H2).
    split; auto. split; [auto|]. intros m [<-|J]; auto.
  Qed.

  Lemma p_all : let s := p_visit_all peq isv nodes in pinv s /\ forall n, within nodes n -> has s n.
  Proof.
    cbv zeta. unfold p_visit_all.
    assert (I0 : pinv (mkp [] [] [])) by (constructor; cbn; congruence).
    destruct (p_visit_list nodes _ (fun n I => ex_intro _ n (conj I (subtrees_self n))) I0) as (I & _ & H).
    split; auto. intros n (root & Ir & Is). specialize (H root Ir). revert H Is. generalize root. clear root Ir.
    induction root as [d|d l IHl r IHr]; intros H Is.
    - destruct Is as [<-|[]]. auto.
    - cbn [subtrees In] in Is. destruct Is as [<-|Is]; auto. destruct (pi_kids _ I _ _ _ H). apply in_app_iff in Is. destruct Is; auto.
  Qed.

  (** the frontier *)
  Lemma p_pers_iff : forall k, mem peq (p_pers (p_visit_all peq isv nodes)) k = true <->
    (is_leaf k = false /\ vol k = false /\ exists p, consumed_by peq nodes k p /\ vol p = true).
  Proof.
    intros k. destruct p_all as [I H]. split; [apply (pi_sound _ I)|].
    intros (L & NV & p & (root & d & l & r & Ir & Is & -> & E) & PV).
    specialize (H (Node d l r) (ex_intro _ root (conj Ir Is))).
    destruct E as [E|E]; rewrite <- (mem_eq _ _ _ E).
    - apply (pi_left _ I _ _ _ H); auto; [rewrite (volatile_eq _ _ E)|rewrite (node_eq_is_leaf peq _ _ E)]; auto.
    - apply (pi_right _ I _ _ _ H); auto; [rewrite (volatile_eq _ _ E)|rewrite (node_eq_is_leaf peq _ _ E)]; auto.
  Qed.

  (** the counts are those of the plain overload *)
  Definition agree (N : nat) (s : pstate) : Prop :=
    forall k, is_leaf k = false -> (size k <= N)%nat -> (has s k <-> 0 < cnt peq (p_counts s) k).

  Lemma bump_cnt_any : forall M n k, (forall k c, find peq M k = Some c -> 1 <= c) -> cnt peq (bump peq M n) k = bumpf peq (cnt peq M) n k.
  Proof.
    intros M n k P. unfold bump. destruct (find peq M n) as [c|] eqn:F.
    - rewrite <- (bump_cnt peq EQ M n k) by congruence. unfold cnt. rewrite F. auto.
    - unfold cnt, bumpf. rewrite find_app. destruct (node_eq peq n k) eqn:E.
      + rewrite <- (find_eq _ EQ _ _ _ E), F. cbn. rewrite E. auto.
      + destruct (find peq M k); auto. cbn. rewrite E. auto.
  Qed.
  Lemma bump_pos : forall M n, (forall k c, find peq M k = Some c -> 1 <= c) -> forall k c, find peq (bump peq M n) k = Some c -> 1 <= c.
  Proof.
    intros M n P k c. unfold bump. destruct (find peq M n) as [c0|] eqn:F.
    - destruct (node_eq peq n k) eqn:E.
      + rewrite (find_assign_same _ EQ _ _ _ _ _ F E). intros [= <-]. specialize (P _ _ F). lia.
      + rewrite (find_assign_other _ EQ) by auto. apply P.
    - rewrite find_app. destruct (find peq M k) eqn:G; [intros [= <-]; eauto|].
      cbn. destruct (node_eq peq n k); [intros [= <-]; lia|discriminate].
  Qed.

  Lemma p_visit_counts : forall n s N, (size n <= N)%nat -> agree N s -> (forall k c, find peq (p_counts s) k = Some c -> 1 <= c) ->
    let s' := fst (p_visit peq isv s n) in
    agree N s' /\ (forall k, cnt peq (p_counts s') k = fcount peq (cnt peq (p_counts s)) n k) /\
    (forall k c, find peq (p_counts s') k = Some c -> 1 <= c) /\ has s' n.
  Proof.
    induction n as [d|d l IHl r IHr]; intros s N HN AG P; cbv zeta; cbn [p_visit fcount].
    - cbn [is_leaf]. destruct (find peq (p_vol s) (Leaf d)) as [v|] eqn:F; cbn [fst].
      { split; auto. split; auto. split; auto. congruence. }
      cbn [p_vol p_counts]. split; [|split; [auto|split; [auto|rewrite find_emplace_vol, F, (node_eq_refl _ EQ) by auto; discriminate]]].
      intros k L S. rewrite <- (AG k L S). cbn [p_vol]. rewrite find_emplace_vol by auto.
      destruct k as [|d' l' r']; [discriminate|]. cbn [node_eq is_leaf]. destruct (find peq (p_vol s) (Node d' l' r')); split; auto.
    - cbn [is_leaf]. set (n := Node d l r) in *.
      assert (EM : forall k, cnt peq (bump peq (p_counts s) n) k = bumpf peq (cnt peq (p_counts s)) n k) by (intros; apply bump_cnt_any; auto).
      destruct (find peq (p_vol s) n) as [v|] eqn:F; cbn [fst].
      { assert (Q : 0 < cnt peq (p_counts s) n) by (apply (AG n eq_refl HN); congruence).
        destruct (Z.ltb_spec 0 (cnt peq (p_counts s) n)); [|lia]. cbn [p_counts p_vol].
        split; [|split; [exact EM|split; [apply bump_pos; auto|congruence]]].
        intros k L S. cbn [p_vol p_counts]. rewrite EM. unfold bumpf. destruct (node_eq peq n k) eqn:E; [|apply AG; auto].
        rewrite <- (find_eq _ EQ _ _ _ E), F. pose proof (AG k L S) as X. rewrite <- (find_eq _ EQ _ _ _ E), F in X. 
        split; [intros _|congruence]. assert (0 < cnt peq (p_counts s) k) by (apply X; congruence). lia. }
      assert (Q : ~ 0 < cnt peq (p_counts s) n). { intros Q. apply (AG n eq_refl HN) in Q. congruence. }
      destruct (Z.ltb_spec 0 (cnt peq (p_counts s) n)); [lia|]. 
      set (s0 := mkp (bump peq (p_counts s) n) (p_vol s) (p_pers s)).
      assert (AG0 : agree (size l + size r)%nat s0).
      { intros k L S. cbn [p_vol p_counts s0]. rewrite EM. unfold bumpf. destruct (node_eq peq n k) eqn:E.
        - apply node_eq_size in E. subst n. cbn [size] in E. lia.
        - apply AG; auto. subst n. cbn [size] in HN. lia. }
      assert (P0 : forall k c, find peq (p_counts s0) k = Some c -> 1 <= c) by (apply bump_pos; auto).
      destruct (IHl s0 (size l + size r)%nat ltac:(lia) AG0 P0) as (AG1 & C1 & P1 & H1).
      assert (far1 : forall k, (size l < size k)%nat -> _) by (intros k; apply (p_visit_far l s0 k)).
      destruct (p_visit peq isv s0 l) as [s1 vl]. cbn [fst] in *.
      destruct (IHr s1 (size l + size r)%nat ltac:(lia) AG1 P1) as (AG2 & C2 & P2 & H2).
      assert (far2 : forall k, (size r < size k)%nat -> _) by (intros k; apply (p_visit_far r s1 k)).
      destruct (p_visit peq isv s1 r) as [s2 vr]. cbn [fst] in *.
      set (v := isv n || vl || vr).
      set (s3 := if v && negb vl && negb (is_leaf l) then mkp (p_counts s2) (p_vol s2) (insert peq (p_pers s2) l) else s2).
      set (s4 := if v && negb vr && negb (is_leaf r) then mkp (p_counts s3) (p_vol s3) (insert peq (p_pers s3) r) else s3).
      assert (V : p_vol s4 = p_vol s2 /\ p_counts s4 = p_counts s2).
      { subst s4 s3. destruct (v && negb vr && negb (is_leaf r)), (v && negb vl && negb (is_leaf l)); auto. }
      destruct V as [V1 V2]. cbn [p_vol p_counts]. rewrite V1, V2.
      assert (CC : forall k, cnt peq (p_counts s2) k = fcount peq (fcount peq (bumpf peq (cnt peq (p_counts s)) n) l) r k).
      { intros k. rewrite C2. apply fcount_ext. intros k'. rewrite C1. apply fcount_ext. exact EM. }
      assert (F2 : find peq (p_vol s2) n = None).
      { rewrite far2, far1 by (subst n; cbn [size]; lia). auto. }
      assert (FV : forall k, find peq (try_emplace peq (p_vol s2) n v) k =
        match find peq (p_vol s2) k with Some x => Some x | None => if node_eq peq n k then Some v else None end)
        by (intros; apply find_emplace_vol; auto).
      split; [|split; [exact CC|split; [auto|rewrite FV, F2, (node_eq_refl _ EQ); discriminate]]].
      intros k L S. cbn [p_vol p_counts]. rewrite FV.
      destruct (node_eq peq n k) eqn:E.
      + split; intros _; [|destruct (find peq (p_vol s2) k); discriminate].
        rewrite CC. pose proof (fcount_mono peq r (fcount peq (bumpf peq (cnt peq (p_counts s)) n) l) k).
        pose proof (fcount_mono peq l (bumpf peq (cnt peq (p_counts s)) n) k). unfold bumpf in *. rewrite E in *.
        assert (0 <= cnt peq (p_counts s) k). { unfold cnt. destruct (find peq (p_counts s) k) eqn:G; [|lia]. specialize (P _ _ G). lia. }
        lia.
      + assert (X : has s2 k <-> 0 < cnt peq (p_counts s2) k).
        { destruct (le_lt_dec (size k) (size l + size r)); [apply AG2; auto|].
          rewrite far2, far1 by lia. rewrite CC, fcount_far, fcount_far by lia. unfold bumpf. rewrite E. apply AG; auto. }
        rewrite <- X. destruct (find peq (p_vol s2) k); split; congruence.
  Qed.

  Lemma p_counts_eq : forall k, find peq (p_counts (p_visit_all peq isv nodes)) k = find peq (imed_counts peq nodes) k.
  Proof.
    assert (G : forall ns s, (forall N, agree N s) -> (forall k c, find peq (p_counts s) k = Some c -> 1 <= c) ->
      let s' := fold_left (fun s n => fst (p_visit peq isv s n)) ns s in
      (forall k, cnt peq (p_counts s') k = fcounts peq ns (cnt peq (p_counts s)) k) /\ (forall k c, find peq (p_counts s') k = Some c -> 1 <= c)).
    { induction ns as [|n ns IH]; intros s AG P; cbn [fold_left fcounts]; [auto|].
      assert (AG' : forall N, agree N (fst (p_visit peq isv s n))).
      { intros N k L S. destruct (p_visit_counts n s (Nat.max N (size n)) ltac:(lia) (AG _) P) as (A & _). apply A; auto. lia. }
      destruct (p_visit_counts n s (size n) ltac:(lia) (AG _) P) as (_ & C & P' & _).
      destruct (IH _ AG' P') as [C' P'']. split; auto. intros k. rewrite C'. apply fcounts_ext. auto. }
    intros k. destruct (G nodes (mkp [] [] [])) as [C P].
    { intros N k' L S. cbn. split; [congruence|lia]. }
    { cbn. congruence. }
    destruct (imed_counts_fcounts peq EQ nodes [] ltac:(cbn; congruence)) as [A1 A2]. fold (imed_counts peq nodes) in A1, A2.
    fold (p_visit_all peq isv nodes) in C, P. specialize (C k). cbn [p_counts] in C. specialize (A1 k). rewrite <- A1 in C. unfold cnt in C.
    specialize (P k). specialize (A2 k).
    destruct (find peq (p_counts _) k), (find peq (imed_counts peq nodes) k); auto; [congruence| |].
    - specialize (P _ eq_refl). lia.
    - specialize (A2 _ eq_refl). lia.
  Qed.

  (** the cache that the overload builds *)
  Variable vetoed : tr -> bool.
  Hypothesis VET : forall a b, node_eq peq a b = true -> vetoed a = vetoed b.
  Notation pf := (p_filtered peq isv vetoed nodes).

  Lemma p_counts_distinct : forall n s, distinct_keys peq (p_counts s) -> distinct_keys peq (p_counts (fst (p_visit peq isv s n))).
  Proof.
    assert (B : forall M n, distinct_keys peq M -> distinct_keys peq (bump peq M n)).
    { intros M n H. unfold bump. destruct (find peq M n) eqn:F; [apply distinct_assign|apply distinct_snoc]; auto. }
    induction n as [d|d l IHl r IHr]; intros s H; cbn [p_visit is_leaf].
    - destruct (find peq (p_vol s) (Leaf d)); cbn; auto.
    - destruct (find peq (p_vol s) (Node d l r)); [cbn; auto|]. set (s0 := mkp _ _ _).
      specialize (IHl s0 (B _ _ H)). destruct (p_visit peq isv s0 l) as [s1 vl]. cbn [fst] in *.
      specialize (IHr s1 IHl). destruct (p_visit peq isv s1 r) as [s2 vr]. cbn [fst] in *.
      set (v := isv (Node d l r) || vl || vr).
      destruct (v && negb vl && negb (is_leaf l)), (v && negb vr && negb (is_leaf r)); cbn; auto.
  Qed.

  Lemma p_all_distinct : distinct_keys peq (p_counts (p_visit_all peq isv nodes)).
  Proof.
    unfold p_visit_all.
    assert (G : forall ns s, distinct_keys peq (p_counts s) -> distinct_keys peq (p_counts (fold_left (fun s n => fst (p_visit peq isv s n)) ns s))).
    { induction ns as [|n ns IH]; intros s H; cbn; auto. apply IH, p_counts_distinct, H. }
    apply G. cbn. auto.
  Qed.

  Lemma find_p_filtered : forall min ds k, Permutation ds (pf min) ->
    find peq ds k = match find peq (imed_counts peq nodes) k with
                    | Some c => if ((min <=? c) || mem peq (p_pers (p_visit_all peq isv nodes)) k) && negb (vetoed k) then Some c else None
                    | None => None
                    end.
  Proof.
    intros min ds k P. rewrite <- p_counts_eq.
    assert (DI := p_all_distinct).
    assert (DF : distinct_keys peq (pf min)) by (apply distinct_filter; auto).
    assert (DD : distinct_keys peq ds) by (eapply distinct_perm; [auto|apply Permutation_sym, P|auto]).
    destruct (find peq ds k) as [c|] eqn:F.
    - apply find_in in F. destruct F as (k' & I & E). apply (Permutation_in _ P) in I. unfold p_filtered in I.
      apply filter_In in I. destruct I as [I M]. cbn [fst snd] in M. rewrite (find_distinct_in _ EQ _ _ _ _ DI I E).
      rewrite (mem_eq _ _ _ E), (VET _ _ E) in M. rewrite M. auto.
    - destruct (find peq (p_counts (p_visit_all peq isv nodes)) k) as [c|] eqn:F2; auto.
      destruct (((min <=? c) || mem peq (p_pers (p_visit_all peq isv nodes)) k) && negb (vetoed k)) eqn:M; auto.
      apply find_in in F2. destruct F2 as (k' & I & E).
      assert (I2 : In (k', c) ds). { eapply Permutation_in; [apply Permutation_sym, P|]. unfold p_filtered. apply filter_In. split; auto.
        cbn [fst snd]. rewrite (mem_eq _ _ _ E), (VET _ _ E). auto. }
      rewrite (find_distinct_in _ EQ _ _ _ _ DD I2 E) in F. discriminate.
  Qed.

  Lemma p_is_persistent_registered : forall min k c, find peq (imed_counts peq nodes) k = Some c -> vetoed k = false ->
    p_is_persistent peq isv vetoed nodes min k = mem peq (p_pers (p_visit_all peq isv nodes)) k.
  Proof.
    intros min k c F NV. unfold p_is_persistent, p_persistent, mem at 1.
    set (s := p_visit_all peq isv nodes).
    assert (G : forall x, node_eq peq x k = true ->
       existsb (fun kc => ((min <=? snd kc) || mem peq (p_pers s) (fst kc)) && vetoed (fst kc) && node_eq peq (fst kc) x) (p_counts s) = false).
    { intros x E. apply not_true_is_false. intros H. apply existsb_exists in H. destruct H as ([k' c'] & _ & H). cbn [fst snd] in H.
      rewrite !andb_true_iff in H. destruct H as [[_ H1] H2]. rewrite (VET _ _ H2), (VET _ _ E) in H1. congruence. }
    apply existsb_filter. intros x E. rewrite G; auto.
  Qed.
End Persist.
