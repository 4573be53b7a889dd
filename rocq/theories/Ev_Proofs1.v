(** Key comparison, maps, and the life of cache entries. *)
From Coq Require Import List ZArith Bool Arith Lia.
From Verif Require Import BT_Model Ev_Model Ev_Spec.
Import ListNotations.
Local Open Scope Z_scope.


Section Maps.
  Context {D : Type}.
  Variable peq : D -> D -> bool.
  Hypothesis EQ : equivb peq.

  Lemma node_eq_leaf : forall a b, node_eq peq (Leaf a) (Leaf b) = peq a b.
  Proof. intros; cbn. destruct (peq a b); auto. Qed.

  Lemma node_eq_size : forall a b, node_eq peq a b = true -> size a = size b.
  Proof.
    intros a b; destruct a, b; cbn -[size]; intros H; try discriminate; auto.
    destruct (Nat.eqb_spec (size (Node d a1 a2)) (size (Node d0 b1 b2))); auto; discriminate.
  Qed.

  Lemma node_eq_node : forall d l r d' l' r',
    node_eq peq (Node d l r) (Node d' l' r') = peq d d' && node_eq peq l l' && node_eq peq r r'.
  Proof.
    intros. cbn -[size]. destruct (Nat.eqb_spec (size (Node d l r)) (size (Node d' l' r'))) as [E|E]; cbn -[size].
    - destruct (peq d d'); cbn; auto.
    - destruct (node_eq peq l l') eqn:A; [|rewrite andb_false_r; auto].
      destruct (node_eq peq r r') eqn:B; [|rewrite andb_false_r; auto].
      apply node_eq_size in A. apply node_eq_size in B. exfalso; apply E. cbn [size]. lia.
  Qed.

  Lemma node_eq_mixed1 : forall d d' l r, node_eq peq (Leaf d) (Node d' l r) = false.
  Proof. reflexivity. Qed.
  Lemma node_eq_mixed2 : forall d d' l r, node_eq peq (Node d' l r) (Leaf d) = false.
  Proof. reflexivity. Qed.

  Lemma node_eq_refl : forall a, node_eq peq a a = true.
  Proof.
    induction a as [d|d l IHl r IHr]; [rewrite node_eq_leaf|rewrite node_eq_node, IHl, IHr]; rewrite (eqv_refl _ EQ); auto.
  Qed.

  Lemma node_eq_sym1 : forall a b, node_eq peq a b = true -> node_eq peq b a = true.
  Proof.
    induction a as [d|d l IHl r IHr]; intros [d'|d' l' r']; try discriminate.
    - rewrite !node_eq_leaf; apply (eqv_sym _ EQ).
    - rewrite !node_eq_node, !andb_true_iff; intuition. apply (eqv_sym _ EQ); auto.
  Qed.
  Lemma node_eq_sym : forall a b, node_eq peq a b = node_eq peq b a.
  Proof.
    intros a b. destruct (node_eq peq a b) eqn:A.
    - symmetry; apply node_eq_sym1; auto.
    - destruct (node_eq peq b a) eqn:B; auto. apply node_eq_sym1 in B. congruence.
  Qed.

  Lemma node_eq_trans : forall a b c, node_eq peq a b = true -> node_eq peq b c = true -> node_eq peq a c = true.
  Proof.
    induction a as [d|d l IHl r IHr]; intros [d'|d' l' r'] [d2|d2 l2 r2]; try discriminate.
    - rewrite !node_eq_leaf; apply (eqv_trans _ EQ).
    - rewrite !node_eq_node, !andb_true_iff; intuition eauto. eapply (eqv_trans _ EQ); eauto.
  Qed.

  Lemma node_eq_l : forall a b c, node_eq peq a b = true -> node_eq peq a c = node_eq peq b c.
  Proof.
    intros a b c H. destruct (node_eq peq b c) eqn:B.
    - eapply node_eq_trans; eauto.
    - destruct (node_eq peq a c) eqn:A; auto. apply node_eq_sym1 in H.
      rewrite (node_eq_trans _ _ _ H A) in B. discriminate.
  Qed.
  Lemma node_eq_r : forall a b c, node_eq peq a b = true -> node_eq peq c a = node_eq peq c b.
  Proof. intros. rewrite (node_eq_sym c a), (node_eq_sym c b). apply node_eq_l; auto. Qed.

  Context {X : Type}.
  Implicit Types (m : list (tree D * X)).

  Lemma find_eq : forall m k k', node_eq peq k k' = true -> find peq m k = find peq m k'.
  Proof.
    induction m as [|[k0 e] m IH]; intros k k' H; cbn; auto.
    rewrite (node_eq_r _ _ k0 H). destruct (node_eq peq k0 k'); auto.
  Qed.

  Lemma find_assign_same : forall m k k' e x, find peq m k = Some e -> node_eq peq k k' = true ->
    find peq (assign peq m k x) k' = Some x.
  Proof.
    induction m as [|[k0 e0] m IH]; intros k k' e x F H; cbn in *; [discriminate|].
    destruct (node_eq peq k0 k) eqn:A; cbn.
    - rewrite (node_eq_trans _ _ _ A H). auto.
    - destruct (node_eq peq k0 k') eqn:B; [|eauto].
      rewrite <- (node_eq_r _ _ k0 H), A in B. discriminate.
  Qed.

  Lemma find_assign_other : forall m k k' x, node_eq peq k k' = false ->
    find peq (assign peq m k x) k' = find peq m k'.
  Proof.
    induction m as [|[k0 e0] m IH]; intros k k' x H; cbn; auto.
    destruct (node_eq peq k0 k) eqn:A; cbn.
    - rewrite (node_eq_l _ _ k' A), H. auto.
    - destruct (node_eq peq k0 k'); auto.
  Qed.

  Lemma assign_keys : forall m k x, map fst (assign peq m k x) = map fst m.
  Proof. induction m as [|[k0 e0] m IH]; intros; cbn; auto. destruct (node_eq peq k0 k); cbn; f_equal; auto. Qed.

  Lemma find_app : forall m m' k, find peq (m ++ m') k = match find peq m k with Some e => Some e | None => find peq m' k end.
  Proof. induction m as [|[k0 e0] m IH]; intros; cbn; auto. destruct (node_eq peq k0 k); auto. Qed.

  Lemma find_none : forall m k, find peq m k = None <-> (forall k', In k' (map fst m) -> node_eq peq k' k = false).
  Proof.
    induction m as [|[k0 e0] m IH]; intros k; cbn; [intuition|].
    destruct (node_eq peq k0 k) eqn:A.
    - split; [discriminate|]. intros H. rewrite H in A; auto; discriminate.
    - rewrite IH. split; [intros H k' [<-|I]; auto|auto].
  Qed.

  Lemma find_in : forall m k e, find peq m k = Some e -> exists k', In (k', e) m /\ node_eq peq k' k = true.
  Proof.
    induction m as [|[k0 e0] m IH]; intros k e H; cbn in *; [discriminate|].
    destruct (node_eq peq k0 k) eqn:A.
    - injection H as <-. exists k0; auto.
    - destruct (IH _ _ H) as (k' & I & E). exists k'; auto.
  Qed.

  Lemma in_find : forall m k e, distinct_keys peq m -> In (k, e) m -> find peq m k = Some e.
  Proof.
    induction m as [|[k0 e0] m IH]; intros k e Dm I; cbn in *; [tauto|]. destruct Dm as [D1 D2].
    destruct I as [I|I].
    - injection I as -> ->. rewrite node_eq_refl; auto.
    - rewrite D1; [auto|]. apply in_map_iff. exists (k, e); auto.
  Qed.

  Lemma distinct_assign : forall m k x, distinct_keys peq m -> distinct_keys peq (assign peq m k x).
  Proof.
    induction m as [|[k0 e0] m IH]; intros k x Dm; cbn in *; auto. destruct Dm as [D1 D2].
    destruct (node_eq peq k0 k); cbn; split; auto. rewrite assign_keys. auto.
  Qed.

  Lemma distinct_snoc : forall m k x, distinct_keys peq m -> find peq m k = None -> distinct_keys peq (m ++ [(k, x)]).
  Proof.
    induction m as [|[k0 e0] m IH]; intros k x Dm F; cbn in *; [intuition|]. destruct Dm as [D1 D2].
    destruct (node_eq peq k0 k) eqn:A; [discriminate|]. split; [|auto].
    intros k' I. rewrite map_app, in_app_iff in I. destruct I as [I|[<-|[]]]; auto.
  Qed.

  Lemma try_emplace_distinct : forall m k x, distinct_keys peq m -> distinct_keys peq (try_emplace peq m k x).
  Proof. intros m k x Dm. unfold try_emplace. destruct (find peq m k) eqn:F; auto. apply distinct_snoc; auto. Qed.

  Lemma find_try_emplace : forall m k x k', find peq (try_emplace peq m k x) k' =
    match find peq m k' with Some e => Some e | None => if node_eq peq k k' then Some x else None end.
  Proof.
    intros m k x k'. unfold try_emplace. destruct (find peq m k) eqn:F.
    - destruct (find peq m k') eqn:G; auto. destruct (node_eq peq k k') eqn:H; auto.
      rewrite (find_eq _ _ _ H) in F. congruence.
    - rewrite find_app. cbn. destruct (find peq m k'); auto.
  Qed.
End Maps.

Lemma map_find : forall {D X Y} (peq : D -> D -> bool) (f : X -> Y) (m : list (tree D * X)) k,
  find peq (map (fun ke => (fst ke, f (snd ke))) m) k = option_map f (find peq m k).
Proof. induction m as [|[k0 e0] m IH]; intros; cbn; auto. destruct (node_eq peq k0 k); auto. Qed.

(** ** C19 *)
Section Life.
  Context {D P : Type}.
  Variable peq : D -> D -> bool.
  Hypothesis EQ : equivb peq.
  Variable sizeof : P -> Z.
  Notation cmap := (list (tree D * entry P)).

  Definition run_op (c : cmap) (o : cop D P) : cout P * cmap :=
    match o with
    | OAccess k => let '(p, c') := cache_access peq c k in (RPtr p, c')
    | OStore k d => let '(p, c') := cache_store peq c k d in (RPtr p, c')
    | OReset => (RNone, cache_reset c)
    | OSize k => let '(n, c') := cache_size peq sizeof c k in (RSize n, c')
    end.

  (** histories newest-first, as in the specification *)
  Fixpoint run (c : cmap) (h : list (cop D P)) : cmap :=
    match h with [] => c | o :: h' => snd (run_op (run c h') o) end.

  (** what an entry looks like after a history *)
  Definition entry_after (k : tree D) (m : Z) (pers : bool) (h : list (cop D P)) (e : entry P) : Prop :=
    let u := fst (uses_stored (node_eq peq) k m pers h) in
    0 <= u /\ max_life e = m /\ persistent_ e = pers /\
    (pers = false -> life_c e = Z.max 0 (m - u)) /\
    data_p e = readable (node_eq peq) k m pers h /\
    (forall n, size_bytes e = Some n -> exists p, data_p e = Some p /\ n = sizeof p).

  Lemma to_int_small : forall z, 0 <= z < 4294967296 -> (to_int z =? 0) = (z =? 0).
  Proof.
    intros z H. unfold to_int. rewrite Z.mod_small by lia. destruct (z <? 2147483648) eqn:A; auto.
    apply Z.ltb_ge in A. destruct (z =? 0) eqn:B; [apply Z.eqb_eq in B; lia|]. apply Z.eqb_neq. lia.
  Qed.

  Ltac fin := repeat split; auto; try lia; try (intros; discriminate); try congruence;
    try (match goal with |- context[?a <? ?b] => destruct (Z.ltb_spec a b); auto; lia end).

  Lemma access_after : forall k m pers h e, 0 <= m <= 4294967296 -> entry_after k m pers h e ->
    forall k', node_eq peq k k' = true ->
    fst (entry_access e) = readable (node_eq peq) k m pers h /\
    entry_after k m pers (OAccess k' :: h) (snd (entry_access e)).
  Proof.
    intros k m pers h e Hm (U0 & EM & EP & EL & ED & ES) k' Hk.
    unfold entry_after, readable in *. cbn [uses_stored]. destruct (uses_stored (node_eq peq) k m pers h) as [u d] eqn:US.
    cbn [fst snd] in *. rewrite Hk. unfold entry_access, decay.
    unfold readable_of in *. rewrite EP. destruct d as [p|]; cbn [fst snd].
    - destruct pers.
      + destruct e as [em el ed eb ep]; cbn in *. subst. fin.
      + destruct (Z.ltb_spec u m) as [LT|LT]; destruct e as [em el ed eb ep]; cbn in *; subst; cbn.
        * specialize (EL eq_refl). subst el. destruct (Z.ltb_spec 0 (Z.max 0 (m - u))) as [L|L]; [|lia].
          rewrite to_int_small by lia.
          destruct (Z.eqb_spec (Z.max 0 (m - u) - 1) 0) as [Z0|Z0]; cbn; fin.
        * fin.
    - destruct e as [em el ed eb ep]; cbn in *; subst; cbn. fin.
  Qed.

  Lemma store_after : forall k m pers h e d, 0 <= m <= 4294967296 -> entry_after k m pers h e ->
    forall k', node_eq peq k k' = true ->
    fst (entry_access (entry_store e d)) = d /\
    entry_after k m pers (OStore k' d :: h) (snd (entry_access (entry_store e d))).
  Proof.
    intros k m pers h e d Hm (U0 & EM & EP & EL & ED & ES) k' Hk.
    unfold entry_after, readable in *. cbn [uses_stored]. destruct (uses_stored (node_eq peq) k m pers h) as [u d0] eqn:US.
    cbn [fst snd] in *. rewrite Hk. unfold entry_access, entry_store, decay, readable_of in *.
    destruct e as [em el ed eb ep]; cbn in *; subst.
    destruct d as [p|]; cbn.
    - destruct pers; cbn.
      + fin.
      + specialize (EL eq_refl). subst el. destruct (Z.ltb_spec 0 (Z.max 0 (m - u))) as [L|L]; cbn.
        * rewrite to_int_small by lia.
          destruct (Z.eqb_spec (Z.max 0 (m - u) - 1) 0) as [Z0|Z0]; cbn; fin.
        * fin.
    - fin.
  Qed.

  Lemma reset_after : forall k m pers h e, 0 <= m -> entry_after k m pers h e ->
    entry_after k m pers (OReset :: h) (entry_reset e).
  Proof.
    intros k m pers h e Hm (U0 & EM & EP & EL & ED & ES).
    unfold entry_after, readable in *. cbn [uses_stored]. destruct (uses_stored (node_eq peq) k m pers h) as [u d] eqn:US.
    destruct e as [em el ed eb ep]; cbn in *; subst.
    unfold entry_reset; cbn. destruct pers; cbn; fin.
  Qed.

  Lemma size_after : forall k m pers h e, entry_after k m pers h e ->
    fst (entry_size sizeof e) = match readable (node_eq peq) k m pers h with Some p => sizeof p | None => 0 end /\
    entry_after k m pers h (snd (entry_size sizeof e)).
  Proof.
    intros k m pers h e (U0 & EM & EP & EL & ED & ES). unfold entry_size. rewrite <- ED.
    destruct (data_p e) as [p|] eqn:DP; cbn [fst snd].
    - destruct (size_bytes e) as [n|] eqn:SB; cbn [fst snd].
      + destruct (ES _ eq_refl) as (p' & E & ->). injection E as <-. split; auto. repeat split; auto.
        * congruence.
        * intros n' E; rewrite SB in E. injection E as <-. exists p; auto.
      + split; auto. repeat split; auto; cbn. intros n [= <-]. exists p; auto.
    - split; auto. repeat split; auto; try congruence. intros n E. destruct (ES _ E) as (p & X & _). discriminate.
  Qed.

  Lemma skip_after : forall k m pers h e o,
    match o with OAccess k' | OStore k' _ => node_eq peq k k' = false | OReset => False | OSize _ => True end ->
    entry_after k m pers h e -> entry_after k m pers (o :: h) e.
  Proof.
    intros k m pers h e o Ho H. unfold entry_after, readable in *. destruct o as [k'|k' d| |k']; cbn [uses_stored].
    - destruct (uses_stored (node_eq peq) k m pers h). rewrite Ho. exact H.
    - destruct (uses_stored (node_eq peq) k m pers h). rewrite Ho. exact H.
    - tauto.
    - exact H.
  Qed.

  Lemma find_self_assign : forall (c : cmap) k k' e x, find peq c k' = Some e ->
    find peq (assign peq c k' x) k = if node_eq peq k k' then Some x else find peq c k.
  Proof.
    intros c k k' e x F. destruct (node_eq peq k k') eqn:A.
    - eapply find_assign_same; eauto. rewrite (node_eq_sym _ EQ); auto.
    - apply (find_assign_other _ EQ). rewrite (node_eq_sym _ EQ); auto.
  Qed.

  (** after any history the entry of a registered key is as the specification says *)
  Lemma run_entry : forall (c0 : cmap) k e0 h, find peq c0 k = Some e0 -> 0 <= max_life e0 <= 4294967296 ->
    e0 = new_entry (max_life e0) (persistent_ e0) ->
    exists e, find peq (run c0 h) k = Some e /\ entry_after k (max_life e0) (persistent_ e0) h e.
  Proof.
    intros c0 k e0 h F Hm E0. induction h as [|o h (e & Fe & Ae)].
    - exists e0. split; [exact F|]. rewrite E0. unfold entry_after, readable. cbn. repeat split; auto; try lia; try (intros; discriminate).
      
    - cbn [run]. destruct o as [k'|k' d| |k']; cbn [run_op].
      + unfold cache_access. destruct (find peq (run c0 h) k') as [e'|] eqn:F'.
        * destruct (entry_access e') as [p e1] eqn:EA. cbn [snd]. rewrite (find_self_assign _ _ _ _ _ F').
          destruct (node_eq peq k k') eqn:A.
          -- rewrite (find_eq _ EQ _ _ _ A) in Fe. rewrite F' in Fe. injection Fe as ->.
             exists e1. split; auto. destruct (access_after _ _ _ _ _ Hm Ae k' A) as [_ H]. rewrite EA in H. exact H.
          -- exists e. split; auto. apply skip_after; auto.
        * cbn [snd]. exists e. split; auto. apply skip_after; auto.
          destruct (node_eq peq k k') eqn:A; auto. rewrite (find_eq _ EQ _ _ _ A) in Fe. congruence.
      + unfold cache_store. destruct (find peq (run c0 h) k') as [e'|] eqn:F'.
        * destruct (entry_access (entry_store e' d)) as [p e1] eqn:EA. cbn [snd]. rewrite (find_self_assign _ _ _ _ _ F').
          destruct (node_eq peq k k') eqn:A.
          -- rewrite (find_eq _ EQ _ _ _ A) in Fe. rewrite F' in Fe. injection Fe as ->.
             exists e1. split; auto. destruct (store_after _ _ _ _ _ d Hm Ae k' A) as [_ H]. rewrite EA in H. exact H.
          -- exists e. split; auto. apply skip_after; auto.
        * cbn [snd]. exists e. split; auto. apply skip_after; auto.
          destruct (node_eq peq k k') eqn:A; auto. rewrite (find_eq _ EQ _ _ _ A) in Fe. congruence.
      + cbn [snd]. unfold cache_reset. rewrite map_find, Fe. cbn. exists (entry_reset e). split; auto.
        apply reset_after; auto. lia.
      + unfold cache_size. destruct (find peq (run c0 h) k') as [e'|] eqn:F'.
        * destruct (entry_size sizeof e') as [n e1] eqn:EA. cbn [snd]. rewrite (find_self_assign _ _ _ _ _ F').
          destruct (node_eq peq k k') eqn:A.
          -- rewrite (find_eq _ EQ _ _ _ A) in Fe. rewrite F' in Fe. injection Fe as ->.
             exists e1. split; auto. apply skip_after; auto.
             destruct (size_after _ _ _ _ _ Ae) as [_ H]. rewrite EA in H. exact H.
          -- exists e. split; auto.
        * cbn [snd]. exists e. split; auto.
  Qed.

  Lemma run_unregistered : forall (c0 : cmap) k h, find peq c0 k = None -> find peq (run c0 h) k = None.
  Proof.
    intros c0 k h F. induction h as [|o h IH]; cbn [run]; auto.
    assert (Z : forall k' x e', find peq (run c0 h) k' = Some e' -> find peq (assign peq (run c0 h) k' x) k = None).
    { intros k' x e' F'. rewrite (find_self_assign _ _ _ _ _ F'). destruct (node_eq peq k k') eqn:A; auto.
      rewrite (find_eq _ EQ _ _ _ A) in IH. congruence. }
    destruct o as [k'|k' d| |k']; cbn [run_op].
    - unfold cache_access. destruct (find peq (run c0 h) k') as [e'|] eqn:F'; auto. destruct (entry_access e'). cbn [snd]. eauto.
    - unfold cache_store. destruct (find peq (run c0 h) k') as [e'|] eqn:F'; auto. destruct (entry_access (entry_store e' d)). cbn [snd]. eauto.
    - cbn [snd]. unfold cache_reset. rewrite map_find, IH. auto.
    - unfold cache_size. destruct (find peq (run c0 h) k') as [e'|] eqn:F'; auto. destruct (entry_size sizeof e'). cbn [snd]. eauto.
  Qed.

  (** the cache built by the constructor *)
  Lemma ctor_find_gen : forall decaying is_p (m : cmap) k,
    find peq (fold_left (fun m kc => try_emplace peq m (fst kc) (new_entry (snd kc) (is_p (fst kc)))) decaying m) k =
    match find peq m k with
    | Some e => Some e
    | None => match List.find (fun kc => node_eq peq (fst kc) k) decaying with
              | Some kc => Some (new_entry (snd kc) (is_p (fst kc)))
              | None => None
              end
    end.
  Proof.
    induction decaying as [|[k0 c0] ds IH]; intros is_p m k; cbn [fold_left List.find fst snd].
    - destruct (find peq m k); auto.
    - rewrite IH, find_try_emplace by auto. destruct (find peq m k); auto. destruct (node_eq peq k0 k); auto.
  Qed.

  Lemma ctor_find : forall decaying is_p k,
    find peq (cache_ctor (P := P) peq decaying is_p) k =
    match List.find (fun kc => node_eq peq (fst kc) k) decaying with
    | Some kc => Some (new_entry (snd kc) (is_p (fst kc)))
    | None => None
    end.
  Proof. intros. unfold cache_ctor. rewrite ctor_find_gen. reflexivity. Qed.

  Lemma ctor_distinct : forall decaying is_p, distinct_keys peq (cache_ctor (P := P) peq decaying is_p).
  Proof.
    intros ds is_p. unfold cache_ctor.
    assert (G : forall ds (m : cmap), distinct_keys peq m ->
      distinct_keys peq (fold_left (fun m kc => try_emplace peq m (fst kc) (new_entry (snd kc) (is_p (fst kc)))) ds m)).
    { induction ds0 as [|[k0 c0] ds0 IH]; intros m Dm; cbn [fold_left]; auto. apply IH. apply try_emplace_distinct; auto. }
    apply G. exact I.
  Qed.
End Life.
