(** Final theorems about the evaluation cache and the evaluator. *)
From Coq Require Import List ZArith Bool Arith Lia Permutation.
From Verif Require Import BT_Model Ev_Model Ev_Spec Ev_Proofs1 Ev_Proofs2 Ev_Proofs3 Ev_Proofs4 Ev_Proofs5 Ev_Proofs6 Ev_Proofs7.
Import ListNotations.
Local Open Scope Z_scope.

(** ** C19 *)

(** A cache built from any list of (key, count) pairs, after any history: what the next operation
    on a registered key returns. Counts go up to 2^32. *)
Theorem C19_history : forall (D P : Type) (peq : D -> D -> bool) (sizeof : P -> Z), equivb peq ->
  forall decaying is_persistent k k0 m,
  List.find (fun kc => node_eq peq (fst kc) k) decaying = Some (k0, m) -> 0 <= m <= 4294967296 ->
  forall h, let c := run peq sizeof (cache_ctor (P := P) peq decaying is_persistent) h in
  let r := readable (node_eq peq) k m (is_persistent k0) h in
  fst (cache_access peq c k) = r /\
  (forall d, fst (cache_store peq c k d) = d) /\
  fst (cache_size peq sizeof c k) = (match r with Some p => sizeof p | None => 0 end) /\
  cache_alive peq c k = (match r with Some _ => true | None => false end).
Proof.
  intros D P peq sizeof EQ ds isp k k0 m F Hm h c r.
  assert (F0 : find peq (cache_ctor (P := P) peq ds isp) k = Some (new_entry m (isp k0))) by (rewrite (ctor_find peq EQ), F; auto).
  destruct (run_entry peq EQ sizeof _ k _ h F0 Hm eq_refl) as (e & Fe & Ae). cbn [max_life persistent_ new_entry] in Ae.
  fold c in Fe. unfold cache_access, cache_store, cache_size, cache_alive. rewrite Fe.
  destruct (access_after peq sizeof k m _ h e Hm Ae k (node_eq_refl _ EQ k)) as [A _].
  destruct (size_after peq sizeof k m _ h e Ae) as [S _].
  split; [|split; [|split]].
  - destruct (entry_access e); auto.
  - intros d. destruct (store_after peq sizeof k m _ h e d Hm Ae k (node_eq_refl _ EQ k)) as [T _].
    destruct (entry_access (entry_store e d)); auto.
  - destruct (entry_size sizeof e); auto.
  - destruct Ae as (_ & _ & _ & _ & DP & _). unfold entry_alive, r. rewrite DP. auto.
Qed.

(** A key that is not registered is never cached. *)
Theorem C19_unregistered : forall (D P : Type) (peq : D -> D -> bool) (sizeof : P -> Z), equivb peq ->
  forall decaying is_persistent k, (forall kc, In kc decaying -> node_eq peq (fst kc) k = false) ->
  forall h, let c := run peq sizeof (cache_ctor (P := P) peq decaying is_persistent) h in
  fst (cache_access peq c k) = None /\ (forall d, fst (cache_store peq c k d) = d) /\
  fst (cache_size peq sizeof c k) = 0 /\ cache_alive peq c k = false.
Proof.
  intros D P peq sizeof EQ ds isp k N h c.
  assert (F0 : find peq (cache_ctor (P := P) peq ds isp) k = None).
  { rewrite (ctor_find peq EQ). destruct (List.find (fun kc => node_eq peq (fst kc) k) ds) as [kc|] eqn:F; auto. apply find_some in F.
    destruct F as [I E]. rewrite (N kc I) in E. discriminate. }
  pose proof (run_unregistered peq EQ sizeof _ k h F0) as F. fold c in F.
  unfold cache_access, cache_store, cache_size, cache_alive. rewrite F. auto.
Qed.

(** After a store a non-persistent entry can be read m times in total, the read by store included,
    whatever happens to the other keys in between. *)
Theorem C19_reads : forall (D P : Type) (peq : D -> D -> bool) k m (p : P), equivb peq -> 0 <= m ->
  forall others h, (forall o, In o others -> match o with OAccess _ | OSize _ => True | _ => False end) ->
  readable (node_eq peq) k m false (others ++ OStore k (Some p) :: OReset :: h) =
  if 1 + Z.of_nat (length (filter (fun o => match o with OAccess k' => node_eq peq k k' | _ => false end) others)) <? m
  then Some p else None.
Proof.
  intros D P peq k m p EQ Hm others h H.
  assert (G : exists u, uses_stored (node_eq peq) k m false (others ++ OStore k (Some p) :: OReset :: h) = (u, Some p) /\
    u = Z.max 1 (Z.min (1 + Z.of_nat (length (filter (fun o => match o with OAccess k' => node_eq peq k k' | _ => false end) others))) m)).
  { induction others as [|o others IH].
    - cbn [app uses_stored]. destruct (uses_stored (node_eq peq) k m false h). rewrite (node_eq_refl _ EQ). eexists. split; [reflexivity|]. cbn. lia.
    - destruct IH as (u & E & U); [intros; apply H; right; auto|]. cbn [app uses_stored].
      specialize (H o (or_introl eq_refl)). destruct o as [k'|k' d| |k']; try tauto; cbn [filter].
      + rewrite E. destruct (node_eq peq k k') eqn:A.
        * unfold readable_of. destruct (Z.ltb_spec u m); eexists; (split; [reflexivity|]); cbn [length]; lia.
        * eexists. split; [reflexivity|]. auto.
      + eexists. split; [exact E|]. auto. }
  destruct G as (u & E & U). unfold readable. rewrite E. unfold readable_of.
  match goal with |- context[1 + ?x] => set (n := x) in * end.
  assert (0 <= n) by (subst n; lia).
  destruct (Z.ltb_spec u m), (Z.ltb_spec (1 + n) m); auto; lia.
Qed.

(** A persistent entry is readable after any number of reads and resets. *)
Theorem C19_persistent : forall (D P : Type) (peq : D -> D -> bool) k m (p : P), equivb peq ->
  forall later h, (forall o, In o later -> match o with OStore k' _ => node_eq peq k k' = false | _ => True end) ->
  readable (node_eq peq) k m true (later ++ OStore k (Some p) :: h) = Some p.
Proof.
  intros D P peq k m p EQ later h H.
  assert (G : snd (uses_stored (node_eq peq) k m true (later ++ OStore k (Some p) :: h)) = Some p).
  { induction later as [|o later IH].
    - cbn [app uses_stored]. destruct (uses_stored (node_eq peq) k m true h). rewrite (node_eq_refl _ EQ). auto.
    - specialize (IH (fun o I => H o (or_intror I))). specialize (H o (or_introl eq_refl)). cbn [app uses_stored].
      destruct (uses_stored (node_eq peq) k m true (later ++ OStore k (Some p) :: h)) as [u d] eqn:E. cbn [snd] in IH. subst d.
      destruct o as [k'|k' d'| |k']; cbn; auto.
      + destruct (node_eq peq k k'); auto.
      + rewrite H. auto. }
  unfold readable. destruct (uses_stored _ _ _ _ _) as [u d]. cbn in G. subst d. auto.
Qed.

(** reset() makes a non-persistent entry as it was at the start. *)
Theorem C19_reset : forall (D P : Type) (peq : D -> D -> bool) k m h h',
  readable (P := P) (D := D) (node_eq peq) k m false (h' ++ OReset :: h) = readable (node_eq peq) k m false (h' ++ []).
Proof.
  intros D P peq k m h h'.
  assert (E : uses_stored (P := P) (D := D) (node_eq peq) k m false (h' ++ OReset :: h) = uses_stored (node_eq peq) k m false (h' ++ [])).
  { induction h' as [|o h' IH]; auto. cbn [app uses_stored]. rewrite IH. auto. }
  unfold readable. rewrite E. auto.
Qed.

(** The life count is compared after a cast to int: an entry registered with 2^32 + 1 uses is
    released by the very first read. *)
Theorem C19_wrap_refuted : exists (h : list (cop nat unit)) m,
  let c := run Nat.eqb (fun _ => 8) (cache_ctor (P := unit) Nat.eqb [(Leaf 0%nat, m)] (fun _ => false)) h in
  readable (node_eq Nat.eqb) (Leaf 0%nat) m false h = Some tt /\ fst (cache_access Nat.eqb c (Leaf 0%nat)) = None.
Proof. exists [OStore (Leaf 0%nat) (Some tt)], 4294967297. vm_compute. auto. Qed.

(** alive_count() is documented as the number of entries alive; it adds up their remaining lives. *)
Theorem C19_alive_count_refuted : exists (h : list (cop nat unit)),
  let c := run Nat.eqb (fun _ => 8) (cache_ctor (P := unit) Nat.eqb [(Leaf 0%nat, 4)] (fun _ => false)) h in
  length c = 1%nat /\ alive_count c = 3.
Proof. exists [OStore (Leaf 0%nat) (Some tt)]. vm_compute. auto. Qed.

Example C19_example :
  let h := [OAccess (Leaf 1%nat); OAccess (Leaf 0%nat); OStore (Leaf 0%nat) (Some 7%nat); OStore (Leaf 1%nat) (Some 9%nat)] in
  let c := run Nat.eqb (fun _ => 8) (cache_ctor Nat.eqb [(Leaf 0%nat, 3); (Leaf 1%nat, 2)] (fun _ => false)) h in
  fst (cache_access Nat.eqb c (Leaf 0%nat)) = Some 7%nat /\ fst (cache_access Nat.eqb c (Leaf 1%nat)) = None.
Proof. vm_compute. auto. Qed.

(** ** C20 *)
Section Evaluation.
  Context {D V : Type}.
  Variable peq : D -> D -> bool.
  Variable op_type : D -> eop.
  Variable canon_phase : D -> Z.
  Variable vsum vprod : D -> D -> D -> V -> V -> V.
  Variable vadj : D -> D -> V -> V.
  Variable vphase : Z -> V -> V.
  Variable vperm : D -> V -> V.
  Variable vadd : V -> V -> V.
  Notation est := (@est D V).
  Variable leafv : D -> V.
  Notation value := (value op_type vsum vprod vadj leafv).
  Notation sound_state := (sound_state op_type canon_phase vsum vprod vadj vphase leafv).
  Notation keys_sound := (keys_sound op_type canon_phase vsum vprod vadj vphase leafv peq).
  Notation custom_ok := (custom_ok op_type canon_phase vsum vprod vadj vphase leafv).
  Notation hook_ok := (hook_ok op_type vsum vprod vadj leafv).
  Notation evaluate := (evaluate peq op_type canon_phase vsum vprod vadj vphase).
  Notation evaluate_range := (evaluate_range peq op_type canon_phase vsum vprod vadj vphase vperm vadd).

  (** The phase applied twice is the identity (phases are +1 and -1). *)
  Definition phases_cancel : Prop := forall d v, vphase (canon_phase d) (vphase (canon_phase d) v) = v.

  Theorem C20_value : forall le custom hook keys own n, phases_cancel ->
    keys_sound [n] keys -> leaf_evaluator_ok leafv [n] own le -> hook_ok [n] hook ->
    (forall ce, custom = Some ce -> custom_ok [n] keys own ce) ->
    forall s checked fuel, sound_state own keys s -> (3 * size n <= fuel)%nat ->
    exists a s', evaluate le custom hook fuel checked n s = Done (Some a) s' /\
      nth_error (e_heap s') a = Some (value n) /\ grows (e_heap s) (e_heap s') /\ sound_state own keys s'.
  Proof.
    intros le custom hook keys own n PH KS LE HK CU s chk fuel G F. rewrite evaluate_big by auto.
    assert (W : within [n] n) by (exists n; split; [left; auto|apply subtrees_self]).
    destruct (big_ok peq op_type canon_phase vsum vprod vadj vphase le custom hook leafv [n] keys own KS PH LE HK CU n chk s W G)
      as (a & s' & E & EV & G' & N & _).
    rewrite E. exists a, s'. split; auto. split; auto. split; auto. apply EV.
  Qed.

  (** The value does not depend on the cache: not on its keys, counts, contents or history. *)
  Theorem C20_any_cache : forall le custom hook n keys1 keys2 own, phases_cancel ->
    keys_sound [n] keys1 -> keys_sound [n] keys2 -> leaf_evaluator_ok leafv [n] own le -> hook_ok [n] hook ->
    (forall ce, custom = Some ce -> custom_ok [n] keys1 own ce /\ custom_ok [n] keys2 own ce) ->
    forall s1 s2 fuel, sound_state own keys1 s1 -> sound_state own keys2 s2 -> (3 * size n <= fuel)%nat ->
    exists a1 s1' a2 s2', evaluate le custom hook fuel true n s1 = Done (Some a1) s1' /\
      evaluate le custom hook fuel true n s2 = Done (Some a2) s2' /\
      nth_error (e_heap s1') a1 = Some (value n) /\ nth_error (e_heap s2') a2 = Some (value n).
  Proof.
    intros le custom hook n keys1 keys2 own PH KS1 KS2 LE HK CU s1 s2 fuel G1 G2 F.
    destruct (C20_value le custom hook keys1 own n PH KS1 LE HK (fun ce E => proj1 (CU ce E)) s1 true fuel G1 F) as (a1 & s1' & E1 & N1 & _).
    destruct (C20_value le custom hook keys2 own n PH KS2 LE HK (fun ce E => proj2 (CU ce E)) s2 true fuel G2 F) as (a2 & s2' & E2 & N2 & _).
    exists a1, s1', a2, s2'. auto.
  Qed.

  (** Caches start sound, and stay so across reset(). *)
  Theorem C20_fresh_cache : forall own decaying is_persistent h log, intact own h ->
    let c := cache_ctor peq decaying is_persistent in
    (equivb peq) -> sound_state own (map fst c) (mkest h c log).
  Proof.
    intros own ds isp h log IT c EQ. split; [|split; auto]. cbn. intros k e I a Da.
    assert (Dc := ctor_distinct (P := nat) peq ds isp). fold c in Dc. pose proof (in_find peq EQ _ _ _ Dc I) as F. unfold c in F.
    rewrite (ctor_find peq EQ) in F. destruct (List.find _ ds); [injection F as <-; discriminate|discriminate].
  Qed.

  Theorem C20_reset : forall own keys s, sound_state own keys s ->
    sound_state own keys (mkest (e_heap s) (cache_reset (e_cache s)) (e_log s)).
  Proof.
    intros own keys s (C & K & IT). split; [|split; [cbn; rewrite reset_keys; auto|auto]]. cbn.
    apply (reset_consistent op_type canon_phase vsum vprod vadj vphase leafv leafv (fun _ => false)); auto.
    intros k e _ _. induction k as [d|d l IHl r IHr]; cbn; auto. rewrite IHl, IHr. auto.
  Qed.

  (** ** C22 *)

  (** With a layout every term is permuted into a new object, and accumulating into the first one
      is safe. Without a layout it is safe when the first term is an internal node that the cache
      does not hold. *)
  Theorem C22_sum_partial : forall le custom hook keys own n nodes layout, phases_cancel ->
    keys_sound (n :: nodes) keys -> leaf_evaluator_ok leafv (n :: nodes) own le -> hook_ok (n :: nodes) hook ->
    (forall ce, custom = Some ce -> custom_ok (n :: nodes) keys own ce) ->
    (layout <> None \/ (custom = None /\ is_leaf n = false /\ (forall k, In k keys -> node_eq peq k n = false))) ->
    forall s fuel, sound_state own keys s -> (forall m, In m (n :: nodes) -> (3 * size m <= fuel)%nat) ->
    exists a s', evaluate_range le custom hook fuel layout (n :: nodes) None s = Done (Some a) s' /\
      sound_state own keys s' /\
      let term m := match layout with Some lay => vperm lay (value m) | None => value m end in
      nth_error (e_heap s') a = Some (fold_left vadd (map term nodes) (term n)).
  Proof.
    intros le custom hook keys own n nodes layout PH KS LE HK CU C s fuel G F.
    destruct (range_ok peq op_type canon_phase vsum vprod vadj vphase vperm vadd le custom hook leafv (n :: nodes) keys own KS PH LE HK CU
       fuel layout n nodes s) as (a & s' & E & G' & N); auto.
    - intros m I. split; auto. exists m. split; auto. apply subtrees_self.
    - exists a, s'. split; auto.
  Qed.

  (** ** C21 *)

  (** The cache is the one cache_manager() builds (its elements in any order), for a forest of at
      most 2^32 nodes; no custom evaluator. Every intermediate of the forest is computed exactly
      once, nothing else is, and nothing is left in the cache. *)
  Theorem C21_computed_once : forall le hook, equivb peq ->
    (forall n h, (length h <= length (snd (le n h)))%nat /\ (fst (le n h) < length (snd (le n h)))%nat) ->
    forall nodes min_repeats decaying fuel layout h, min_repeats <= 2 -> Permutation decaying (filtered peq nodes min_repeats) ->
    Z.of_nat (list_sum (map size nodes)) <= 4294967296 ->
    (forall n, In n nodes -> adjoint_ok op_type n /\ (3 * size n <= fuel)%nat) ->
    exists r s', evaluate_range le None hook fuel layout nodes None (mkest h (cache_ctor peq decaying (fun _ => false)) []) = Done r s' /\
      (nodes <> [] -> r <> None) /\
      (forall t, is_leaf t = false -> within nodes t -> occurrences peq t (e_log s') = 1%nat) /\
      (forall t, is_leaf t = false -> (forall u, within nodes u -> node_eq peq u t = false) -> occurrences peq t (e_log s') = 0%nat) /\
      (forall k, cache_alive peq (e_cache s') k = false).
  Proof.
    intros le hook EQ LE nodes min ds fuel layout h. apply drain_all; auto.
  Qed.

  (** ** C47: evaluation keeps the persistence flags; changing only volatile leaves and calling
      reset() leaves the cache sound for the new values. *)
  Theorem C47_reset_sound : forall leafv' is_volatile own own' keys s h',
    (forall d, is_volatile (Leaf d) = false -> leafv' d = leafv d) ->
    sound_state own keys s ->
    (forall k e, In (k, e) (e_cache s) -> persistent_ e = true -> volatile is_volatile k = false) ->
    grows (e_heap s) h' -> intact own' h' ->
    Ev_Spec.sound_state op_type canon_phase vsum vprod vadj vphase leafv' own' keys (mkest h' (cache_reset (e_cache s)) (e_log s)).
  Proof.
    intros leafv' isv own own' keys s h' S (C & K & IT) P G IT'. split; [|split; [cbn; rewrite reset_keys; auto|auto]]. cbn.
    apply (consistent_grows op_type canon_phase vsum vprod vadj vphase leafv' (e_heap s)); auto.
    eapply reset_consistent; eauto.
  Qed.

  Theorem C47_flags_kept : forall le hook fuel checked n s r s', (3 * size n <= fuel)%nat ->
    evaluate le None hook fuel checked n s = Done r s' ->
    map (fun ke => (fst ke, persistent_ (snd ke))) (e_cache s') = map (fun ke => (fst ke, persistent_ (snd ke))) (e_cache s).
  Proof.
    intros le hook fuel chk n s r s' F E. rewrite evaluate_big in E by auto.
    destruct (big peq op_type canon_phase vsum vprod vadj vphase le None hook n chk s) as [[r0 s0]|] eqn:B; [|discriminate].
    injection E as <- <-. exact (big_fl peq op_type canon_phase vsum vprod vadj vphase le hook n chk s r0 s0 B).
  Qed.
End Evaluation.

(** The counts: distinct intermediates of the forest, each with the number of its uses. *)
Theorem C21_use_counts : forall (D : Type) (peq : D -> D -> bool) nodes, equivb peq ->
  let m := imed_counts peq nodes in
  distinct_keys peq m /\
  (forall k c, In (k, c) m -> within nodes k /\ is_leaf k = false /\ c = use_count (node_eq peq) nodes (map fst m) k) /\
  (forall t, within nodes t -> is_leaf t = false -> exists k c, In (k, c) m /\ node_eq peq k t = true).
Proof.
  intros D peq nodes EQ m.
  assert (DI : distinct_keys peq m) by (apply imed_distinct; cbn; auto).
  split; [exact DI|]. split.
  - intros k c I. assert (Ik : In k (map fst m)) by (apply in_map_iff; exists (k, c); auto).
    destruct (imed_within peq nodes [] k Ik) as [[]|[W L]]. split; auto. split; auto.
    pose proof (imed_uses peq EQ nodes [] k L) as U. fold (imed_counts peq nodes) in U. fold m in U. unfold cnt in U.
    rewrite (in_find peq EQ _ _ _ DI I) in U. cbn in U. unfold use_count. lia.
  - intros t W L. pose proof (imed_covers peq EQ nodes t W L) as F. fold m in F.
    destruct (find peq m t) as [c|] eqn:E; [|congruence]. apply find_in in E. destruct E as (k & I & E). exists k, c. auto.
Qed.

(** ** C47: what the persistence-aware overload registers, and which entries are persistent. *)
Theorem C47_classification : forall (D : Type) (peq : D -> D -> bool) (is_volatile vetoed : tree D -> bool), equivb peq ->
  (forall a b, node_eq peq a b = true -> is_volatile a = is_volatile b) ->
  (forall a b, node_eq peq a b = true -> vetoed a = vetoed b) ->
  forall nodes min_repeats decaying, Permutation decaying (p_filtered peq is_volatile vetoed nodes min_repeats) ->
  let c := cache_ctor (P := nat) peq decaying (p_is_persistent peq is_volatile vetoed nodes min_repeats) in
  let frontier k := volatile is_volatile k = false /\ exists p, consumed_by peq nodes k p /\ volatile is_volatile p = true in
  (forall k, cache_exists peq c k = true <->
     exists u, find peq (imed_counts peq nodes) k = Some u /\ (min_repeats <= u \/ frontier k) /\ vetoed k = false) /\
  (forall k, cache_persistent peq c k = true <->
     is_leaf k = false /\ frontier k /\ vetoed k = false) /\
  (forall k e, In (k, e) c -> persistent_ e = true -> volatile is_volatile k = false).
Proof.
  intros D peq isv vet EQ IV VE nodes min ds P c frontier.
  assert (FR : forall k u, find peq (imed_counts peq nodes) k = Some u ->
     (mem peq (p_pers (p_visit_all peq isv nodes)) k = true <-> frontier k)).
  { intros k u F. rewrite (p_pers_iff peq EQ isv IV nodes k). unfold frontier. split; [tauto|]. intros H. split; [|tauto].
    destruct k; auto. unfold imed_counts in F. rewrite (imed_internal peq EQ) in F; [discriminate|reflexivity]. }
  assert (FC : forall k, find peq c k = match find peq (imed_counts peq nodes) k with
     | Some u => if ((min <=? u) || mem peq (p_pers (p_visit_all peq isv nodes)) k) && negb (vet k)
                 then Some (new_entry u (mem peq (p_pers (p_visit_all peq isv nodes)) k)) else None
     | None => None end).
  { intros k. unfold c. rewrite (ctor_find peq EQ).
    pose proof (find_p_filtered peq EQ isv nodes vet VE min ds k P) as F. rewrite (List_find_find peq) in F.
    destruct (List.find (fun kc => node_eq peq (fst kc) k) ds) as [[k0 x]|] eqn:LF; cbn [option_map snd fst] in *.
    - destruct (find peq (imed_counts peq nodes) k) as [u|] eqn:FI; [|discriminate].
      destruct (((min <=? u) || mem peq (p_pers (p_visit_all peq isv nodes)) k) && negb (vet k)) eqn:B; [|discriminate].
      injection F as ->. apply find_some in LF. destruct LF as [_ E]. cbn [fst] in E.
      rewrite andb_true_iff, negb_true_iff in B. destruct B as [_ B].
      rewrite (p_is_persistent_registered peq isv nodes vet VE min k0 u).
      + rewrite (mem_eq peq EQ _ _ _ E). auto.
      + rewrite (find_eq _ EQ _ _ _ E). auto.
      + rewrite (VE _ _ E). auto.
    - destruct (find peq (imed_counts peq nodes) k) as [u|] eqn:FI; [|auto].
      destruct (((min <=? u) || mem peq (p_pers (p_visit_all peq isv nodes)) k) && negb (vet k)) eqn:B; [discriminate|auto]. }
  assert (PS : forall k, cache_persistent peq c k = true <-> is_leaf k = false /\ frontier k /\ vet k = false).
  { intros k. unfold cache_persistent. rewrite FC. split.
    - intros H. destruct (find peq (imed_counts peq nodes) k) as [u|] eqn:FI; [|discriminate].
      destruct (((min <=? u) || mem peq (p_pers (p_visit_all peq isv nodes)) k) && negb (vet k)) eqn:B; [|discriminate]. cbn in H.
      rewrite andb_true_iff, negb_true_iff in B. apply (p_pers_iff peq EQ isv IV nodes) in H. unfold frontier. tauto.
    - intros (L & F & NV). assert (M : mem peq (p_pers (p_visit_all peq isv nodes)) k = true) by (apply (p_pers_iff peq EQ isv IV nodes); unfold frontier in F; tauto).
      destruct F as (_ & p & (root & d & l & r & Ir & Is & -> & E) & _).
      assert (W : exists t, within nodes t /\ node_eq peq t k = true).
      { destruct E as [E|E]; [exists l|exists r]; split; auto; exists root; split; auto; [eapply subtrees_left|eapply subtrees_right]; eauto. }
      destruct W as (t & W & Et). assert (Lt : is_leaf t = false) by (rewrite (node_eq_is_leaf peq _ _ Et); auto).
      pose proof (imed_covers peq EQ nodes t W Lt) as C. rewrite (find_eq _ EQ _ _ _ Et) in C.
      destruct (find peq (imed_counts peq nodes) k) as [u|]; [|congruence]. rewrite M, orb_true_r, NV. cbn. auto. }
  split; [|split; [exact PS|]].
  - intros k. unfold cache_exists. rewrite FC. split.
    + intros H. destruct (find peq (imed_counts peq nodes) k) as [u|] eqn:FI; [|discriminate]. exists u. split; auto.
      destruct (((min <=? u) || mem peq (p_pers (p_visit_all peq isv nodes)) k) && negb (vet k)) eqn:B; [|discriminate].
      rewrite andb_true_iff, negb_true_iff, orb_true_iff in B. destruct B as [[B|B] NV]; split; auto.
      * left. apply Z.leb_le; auto.
      * right. apply (FR k u FI). auto.
    + intros (u & FI & B & NV). rewrite FI, NV.
      destruct B as [B|B]; [apply Z.leb_le in B; rewrite B; auto|]. apply (FR k u FI) in B. rewrite B, orb_true_r. auto.
  - intros k e I H. assert (Dc := ctor_distinct (P := nat) peq ds (p_is_persistent peq isv vet nodes min)). fold c in Dc.
    pose proof (in_find peq EQ _ _ _ Dc I) as F. assert (X : cache_persistent peq c k = true) by (unfold cache_persistent; rewrite F; auto).
    apply PS in X. unfold frontier in X. tauto.
Qed.

(** The counts are those of the plain overload (so C21_use_counts describes them). *)
Theorem C47_counts : forall (D : Type) (peq : D -> D -> bool) (is_volatile : tree D -> bool), equivb peq ->
  forall nodes k, find peq (p_counts (p_visit_all peq is_volatile nodes)) k = find peq (imed_counts peq nodes) k.
Proof. intros D peq isv EQ nodes k. apply p_counts_eq; auto. Qed.

(** ** C48 *)

(** peak_cache adds up the sizes of all occurrences: the entry it stores is a null pointer, so no
    later access ever counts as a reuse or a release. *)
Theorem C48_peak_cache_sums : forall (D : Type) (peq : D -> D -> bool) (mem_cost : tree D -> Z), equivb peq ->
  (forall n, 0 <= mem_cost n) -> forall nodes min_repeats,
  peak_cache peq mem_cost nodes min_repeats =
  total (fun root => total (fun t => if negb (is_leaf t) && existsb (fun kc => node_eq peq (fst kc) t) (filtered peq nodes min_repeats)
                                     then mem_cost t else 0) (subtrees root)) nodes.
Proof.
  intros D peq mc EQ POS nodes min. rewrite (peak_cache_all peq EQ mc POS). unfold total at 1. f_equal. apply map_ext. intros root.
  set (reg := cache_exists peq _).
  assert (R : forall t, reg t = existsb (fun kc => node_eq peq (fst kc) t) (filtered peq nodes min)).
  { intros t. unfold reg, cache_exists. rewrite (ctor_find peq EQ).
    induction (filtered peq nodes min) as [|kc l IH]; cbn; auto. destruct (node_eq peq (fst kc) t); auto. }
  induction root as [d|d l IHl r IHr]; [reflexivity|]. cbn [all_cost subtrees]. rewrite IHl, IHr, R.
  unfold total at 3. cbn [map fold_right]. fold (total (fun t => if negb (is_leaf t) && existsb (fun kc => node_eq peq (fst kc) t) (filtered peq nodes min) then mc t else 0) (subtrees l ++ subtrees r)).
  rewrite total_app. cbn [is_leaf negb andb]. lia.
Qed.

(** So it can exceed the size of everything the cache can ever hold. *)
Theorem C48_peak_refuted : exists (nodes : list (tree nat)),
  let reg := filtered Nat.eqb nodes 2 in
  let everything := total (fun kc => Z.of_nat (size (fst kc))) reg in
  everything = 3 /\ peak_cache Nat.eqb (fun t => Z.of_nat (size t)) nodes 2 = 9.
Proof.
  exists [Node 10 (Node 20 (Leaf 1) (Leaf 2)) (Leaf 3); Node 11 (Node 20 (Leaf 1) (Leaf 2)) (Leaf 4);
     Node 12 (Node 20 (Leaf 1) (Leaf 2)) (Leaf 5)]%nat. vm_compute. auto.
Qed.

(** ** C49 *)
Theorem C49_mode_batches : forall tiles lo hi target, tiles <> [] -> chain lo hi tiles ->
  let bs := mode_batches (lo, hi) tiles target in
  chain lo hi bs /\ exists gs, concat gs = tiles /\ cut (Z.max target 1) bs gs.
Proof.
  intros tiles lo hi target N C bs. pose proof (chain_lt _ _ _ C N) as L. unfold bs, mode_batches. cbn [fst snd].
  destruct (Z.leb_spec hi lo); [lia|].
  destruct (batch_loop_cut (Z.max target 1) tiles lo lo hi [] ltac:(lia) N C ltac:(cbn; auto) ltac:(auto)) as (gs & E & CT & CH & _).
  rewrite Z.sub_diag in *. split; auto. exists gs. auto.
Qed.

Theorem C49_empty : forall tiles lo hi target, hi <= lo -> mode_batches (lo, hi) tiles target = [].
Proof. intros. unfold mode_batches. cbn. destruct (Z.leb_spec hi lo); [auto|lia]. Qed.

Example C49_example : mode_batches (10, 31) [(10, 14); (14, 16); (16, 26); (26, 30); (30, 31)] 7 = [(10, 16); (16, 26); (26, 31)].
Proof. reflexivity. Qed.

(** ** A concrete instance: payloads are a label and a phase, labels below 20 are leaves, 20-29
    sums, 30-39 products, 40-49 adjoints; values are integers. *)
Module Instance.
  Definition D : Type := (nat * Z)%type.
  Definition peq (x y : D) : bool := Nat.eqb (fst x) (fst y).
  Definition op (d : D) : eop := if (fst d <? 30)%nat then OpSum else if (fst d <? 40)%nat then OpProduct else OpAdjoint.
  Definition phase (d : D) : Z := snd d.
  Definition vsum (l r d : D) (x y : Z) : Z := snd d * (snd l * x + snd r * y).
  Definition vprod (l r d : D) (x y : Z) : Z := snd d * (snd l * x * (snd r * y)).
  Definition vadj (l d : D) (x : Z) : Z := snd d * (snd l * x).
  Definition vphase (p v : Z) : Z := p * v.
  Definition leafv (d : D) : Z := snd d * Z.of_nat (fst d).
  (** a leaf evaluator that keeps the value of leaf 3 in object 0 *)
  Definition own : list (nat * Z) := [(0%nat, 3)].
  Definition le (n : tree D) (h : list Z) : nat * list Z :=
    if peq (data n) (3%nat, 1) && (snd (data n) =? 1) then (0%nat, h) else (length h, h ++ [leafv (data n)]).
  Definition nohook (n : tree D) (x y : Z) : option Z := None.

  Definition L (x : nat) : tree D := Leaf (x, 1).
  Definition shared (p : Z) : tree D := Node (30%nat, p) (L 2) (L 3).
  Definition big1 : tree D := Node (20%nat, 1) (Node (31%nat, 1) (shared 1) (L 5)) (Node (32%nat, 1) (shared (-1)) (L 7)).
  Definition keys : list (tree D) := [shared 1].

  Lemma eqv : equivb peq.
  Proof.
    constructor; unfold peq; intros.
    - apply Nat.eqb_refl. - rewrite Nat.eqb_sym. auto. - apply Nat.eqb_eq in H, H0. apply Nat.eqb_eq. congruence.
  Qed.

  Ltac cases W := destruct W as (?root & [<-|[]] & W); cbn [subtrees app In big1 shared L] in W;
    repeat (destruct W as [<-|W]; [|]); try destruct W.

  Lemma keys_ok : keys_sound op phase vsum vprod vadj vphase leafv peq [big1] keys.
  Proof.
    intros n k W [<-|[]] E. cases W; vm_compute in E; try discriminate; reflexivity.
  Qed.

  Lemma le_ok : leaf_evaluator_ok leafv [big1] own le.
  Proof.
    intros n h W Lf IT.
    assert (FR : forall v : Z, grows h (h ++ [v]) /\ nth_error (h ++ [v]) (length h) = Some v /\ (In (length h) (map fst own) \/ length h <= length h)%nat).
    { intros v. split; [apply grows_app|]. split; [apply nth_error_snoc|auto]. }
    unfold le. destruct (peq (data n) (3%nat, 1) && (snd (data n) =? 1)) eqn:E; cbn [fst snd]; [|apply FR].
    split; [apply grows_refl|]. rewrite andb_true_iff in E. destruct E as [E1 E2]. apply Nat.eqb_eq in E1. apply Z.eqb_eq in E2.
    split; [|left; left; auto]. rewrite (IT 0%nat 3 (or_introl eq_refl)). unfold leafv. rewrite E2. cbn in E1. rewrite E1. auto.
  Qed.

  Lemma hook_none : hook_ok op vsum vprod vadj leafv [big1] nohook.
  Proof. intros d l r w _ _ H. discriminate. Qed.

  (** phases are +1 or -1 on all payloads of this instance if the others are mapped to 1 *)
  Definition phase1 (d : D) : Z := if snd d =? -1 then -1 else 1.
  Lemma phase_ok : phases_cancel phase1 vphase.
  Proof. intros d v. unfold phase1, vphase. destruct (snd d =? -1); lia. Qed.
  Lemma keys_ok1 : keys_sound op phase1 vsum vprod vadj vphase leafv peq [big1] keys.
  Proof. intros n k W [<-|[]] E. cases W; vm_compute in E; try discriminate; reflexivity. Qed.

  (** the hypotheses of C20_value hold for a tree with a repeated intermediate whose two
      occurrences differ in phase *)
  Example C20_hypotheses : exists a s',
    evaluate peq op phase1 vsum vprod vadj vphase le None nohook 100 true big1
      (mkest [3] (cache_ctor peq [(shared 1, 2)] (fun _ => false)) []) = Done (Some a) s' /\
    nth_error (e_heap s') a = Some (value op vsum vprod vadj leafv big1) /\ value op vsum vprod vadj leafv big1 = 72.
  Proof.
    assert (IT : intact own [3]) by (intros a v [H|[]]; injection H as <- <-; auto).
    destruct (C20_value peq op phase1 vsum vprod vadj vphase leafv le None nohook keys own big1 phase_ok keys_ok1 le_ok hook_none
       ltac:(discriminate) (mkest [3] (cache_ctor peq [(shared 1, 2)] (fun _ => false)) []) true 100
       (C20_fresh_cache peq op phase1 vsum vprod vadj vphase leafv own _ _ [3] [] IT eqv) ltac:(vm_compute; lia)) as (a & s' & E & N & _).
    exists a, s'. split; auto.
  Qed.

  (** C21: the shared intermediate is computed once *)
  Example C21_hypotheses : exists r s',
    evaluate_range peq op phase1 vsum vprod vadj vphase (fun _ v => v) Z.add le None nohook 100 None [big1] None
      (mkest [3] (cache_ctor peq (filtered peq [big1] 2) (fun _ => false)) []) = Done r s' /\
    occurrences peq (shared 1) (e_log s') = 1%nat /\ length (filtered peq [big1] 2) = 1%nat.
  Proof. eexists. eexists. split; [vm_compute; reflexivity|]. vm_compute. auto. Qed.

  (** C22: [n, m, n] without a layout, with the cache built from that list: the accumulator is the
      cached object of n, and the second n is read from it. The sum is 6 + 35 + 6. *)
  Definition n1 : tree D := Node (30%nat, 1) (L 2) (L 3).
  Definition m1 : tree D := Node (31%nat, 1) (L 5) (L 7).
End Instance.

Import Instance.

Theorem C22_alias_refuted :
  let nodes := [n1; m1; n1] in
  let c := cache_ctor peq (filtered peq nodes 2) (fun _ => false) in
  map (value op vsum vprod vadj leafv) nodes = [6; 35; 6] /\
  exists a s', evaluate_range peq op phase1 vsum vprod vadj vphase (fun _ v => v) Z.add le None nohook 100 None nodes None
                 (mkest [3] c []) = Done (Some a) s' /\ nth_error (e_heap s') a = Some 82.
Proof. cbv zeta. split; [vm_compute; reflexivity|]. eexists. eexists. split; vm_compute; reflexivity. Qed.

(** A first term that is a leaf: the object that the leaf evaluator keeps is overwritten, and the
    third term is read from it. The sum is 3 + 35 + 3. *)
Theorem C22_leaf_alias_refuted :
  let nodes := [L 3; m1; L 3] in
  leaf_evaluator_ok leafv nodes own le /\ map (value op vsum vprod vadj leafv) nodes = [3; 35; 3] /\
  exists a s', evaluate_range peq op phase1 vsum vprod vadj vphase (fun _ v => v) Z.add le None nohook 100 None nodes None
                 (mkest [3] (cache_ctor peq [] (fun _ => false)) []) = Done (Some a) s' /\
    nth_error (e_heap s') a = Some 76 /\ intact own [3] /\ ~ intact own (e_heap s').
Proof.
  cbv zeta. split; [|split; [vm_compute; reflexivity|]].
  - intros n h W Lf IT.
    assert (FR : forall v : Z, grows h (h ++ [v]) /\ nth_error (h ++ [v]) (length h) = Some v /\ (In (length h) (map fst own) \/ length h <= length h)%nat).
    { intros v. split; [apply grows_app|]. split; [apply nth_error_snoc|auto]. }
    unfold le. destruct (peq (data n) (3%nat, 1) && (snd (data n) =? 1)) eqn:E; cbn [fst snd]; [|apply FR].
    split; [apply grows_refl|]. rewrite andb_true_iff in E. destruct E as [E1 E2]. apply Nat.eqb_eq in E1. apply Z.eqb_eq in E2.
    split; [|left; left; auto]. rewrite (IT 0%nat 3 (or_introl eq_refl)). unfold leafv. rewrite E2. cbn in E1. rewrite E1. auto.
  - eexists. eexists. split; [vm_compute; reflexivity|]. split; [vm_compute; reflexivity|]. split.
    + intros a v [H|[]]; injection H as <- <-; auto.
    + intros H. specialize (H 0%nat 3 (or_introl eq_refl)). vm_compute in H. discriminate.
Qed.

(** C22_sum_partial on the same list with a layout gives the sum. *)
Example C22_layout_example : exists a s',
  evaluate_range peq op phase1 vsum vprod vadj vphase (fun _ v => v) Z.add le None nohook 100 (Some (0%nat, 1)) [n1; m1; n1] None
    (mkest [3] (cache_ctor peq (filtered peq [n1; m1; n1] 2) (fun _ => false)) []) = Done (Some a) s' /\ nth_error (e_heap s') a = Some 47.
Proof. eexists. eexists. split; vm_compute; reflexivity. Qed.

(** C47 on the tree above with leaf 5 volatile: the shared product feeds the volatile product 31,
    so it is persistent. *)
Example C47_example :
  let isv := fun t => match t with Leaf d => peq d (5%nat, 1) | _ => false end in
  let c := cache_ctor (P := nat) peq (p_filtered peq isv (fun _ => false) [big1] 2) (p_is_persistent peq isv (fun _ => false) [big1] 2) in
  map (fun ke => (fst ke, persistent_ (snd ke))) c = [(shared 1, true); (Node (32%nat, 1) (shared (-1)) (L 7), true)].
Proof. vm_compute. reflexivity. Qed.

Print Assumptions C19_history.
Print Assumptions C19_unregistered.
Print Assumptions C19_reads.
Print Assumptions C19_persistent.
Print Assumptions C19_reset.
Print Assumptions C19_wrap_refuted.
Print Assumptions C19_alive_count_refuted.
Print Assumptions C20_value.
Print Assumptions C20_any_cache.
Print Assumptions C20_fresh_cache.
Print Assumptions C20_reset.
Print Assumptions C21_computed_once.
Print Assumptions C21_use_counts.
Print Assumptions C22_sum_partial.
Print Assumptions C22_alias_refuted.
Print Assumptions C22_leaf_alias_refuted.
Print Assumptions C47_reset_sound.
Print Assumptions C47_flags_kept.
Print Assumptions C47_classification.
Print Assumptions C47_counts.
Print Assumptions C48_peak_cache_sums.
Print Assumptions C48_peak_refuted.
Print Assumptions C49_mode_batches.
Print Assumptions C49_empty.
