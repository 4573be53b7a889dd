(** Volatile data and reset, the simulated peak, batches of tiles. *)
From Coq Require Import List ZArith Bool Arith Lia Permutation.
From Verif Require Import BT_Model Ev_Model Ev_Spec Ev_Proofs1 Ev_Proofs2 Ev_Proofs3 Ev_Proofs4 Ev_Proofs5 Ev_Proofs6.
Import ListNotations.
Local Open Scope Z_scope.

(** ** Persistence flags do not change during an evaluation *)
Section Flags.
  Context {D V : Type}.
  Variable peq : D -> D -> bool.
  Variable op_type : D -> eop.
  Variable canon_phase : D -> Z.
  Variable vsum vprod : D -> D -> D -> V -> V -> V.
  Variable vadj : D -> D -> V -> V.
  Variable vphase : Z -> V -> V.
  Notation est := (@est D V).
  Variable le : tree D -> list V -> nat * list V.
  Variable hook : tree D -> V -> V -> option V.
  Notation big := (big peq op_type canon_phase vsum vprod vadj vphase le None hook).
  Notation fin := (fin peq canon_phase vphase).

  Definition flags {P} (c : list (tree D * entry P)) : list (tree D * bool) := map (fun ke => (fst ke, persistent_ (snd ke))) c.

  Lemma flags_assign : forall {P} (c : list (tree D * entry P)) n e e', find peq c n = Some e -> persistent_ e' = persistent_ e ->
    flags (assign peq c n e') = flags c.
  Proof.
    induction c as [|[k x] c IH]; intros n e e' F E; cbn in *; auto. destruct (node_eq peq k n); cbn.
    - injection F as <-. rewrite E. auto.
    - f_equal. eapply IH; eauto.
  Qed.

  Lemma entry_access_flag : forall {P} (e : entry P), persistent_ (snd (entry_access e)) = persistent_ e.
  Proof.
    intros P [em el [d|] eb ep]; cbn; auto. unfold entry_access; cbn. destruct ep; auto. unfold decay; cbn.
    destruct (0 <? el); [destruct (to_int (el - 1) =? 0)|]; reflexivity.
  Qed.

  Lemma access_flags : forall (c : list (tree D * entry nat)) n, flags (snd (cache_access peq c n)) = flags c.
  Proof.
    intros c n. unfold cache_access. destruct (find peq c n) as [e|] eqn:F; auto.
    pose proof (entry_access_flag e) as E. destruct (entry_access e) as [p e']. cbn [snd] in *. eapply flags_assign; eauto.
  Qed.
  Lemma store_flags : forall (c : list (tree D * entry nat)) n d, flags (snd (cache_store peq c n d)) = flags c.
  Proof.
    intros c n d. unfold cache_store. destruct (find peq c n) as [e|] eqn:F; auto.
    pose proof (entry_access_flag (entry_store e d)) as E. destruct (entry_access (entry_store e d)) as [p e']. cbn [snd] in *. eapply flags_assign; eauto.
  Qed.

  Definition fl (s : est) (x : option (option nat * est)) : Prop := forall r s', x = Some (r, s') -> flags (e_cache s') = flags (e_cache s).

  Lemma fl_mono : forall s s0 x, flags (e_cache s0) = flags (e_cache s) -> fl s0 x -> fl s x.
  Proof. intros s s0 x E H r s' X. rewrite (H r s' X). auto. Qed.

  Lemma phase_fl : forall n p s, fl s (apply_phase canon_phase vphase n p s).
  Proof.
    intros n p s r s' E. unfold apply_phase in E. destruct (canon_phase (data n) =? 1); [injection E as <- <-; auto|].
    destruct p as [a|]; [|discriminate]. destruct (nth_error (e_heap s) a); [|discriminate]. injection E as <- <-. auto.
  Qed.

  Lemma fin_fl : forall n st p s, fl s (fin n st p s).
  Proof.
    intros n st p s r s' E. unfold Ev_Proofs2.fin, finish_phase_b in E. cbn [f_store f_node] in E. destruct st; cbn in E; [|injection E as <- <-; auto].
    destruct (apply_phase canon_phase vphase n p s) as [[p1 s1]|] eqn:A1; [|discriminate]. pose proof (store_flags (e_cache s1) n p1) as SF.
    destruct (cache_store peq (e_cache s1) n p1) as [ptr c]. cbn [snd] in SF.
    pose proof (phase_fl n ptr (with_cache s1 c) _ _ E) as A2. cbn [e_cache with_cache] in A2. rewrite A2, SF. apply (phase_fl n p s _ _ A1).
  Qed.

  Lemma big_fl : forall n chk s, fl s (big n chk s).
  Proof.
    assert (CK : forall miss n chk s, (forall st s, fl s (miss st s)) -> fl s (checked_of peq canon_phase vphase miss n chk s)).
    { intros miss n chk s H. unfold checked_of. destruct chk; [|auto]. pose proof (access_flags (e_cache s) n) as A.
      destruct (cache_access peq (e_cache s) n) as [p c]. cbn [snd] in A. destruct p.
      - eapply fl_mono; [|apply phase_fl]. exact A.
      - eapply fl_mono; [|apply H]. exact A. }
    induction n as [d|d l IHl r IHr]; intros chk s; cbn [Ev_Proofs2.big]; apply CK; clear chk s; intros st s.
    - unfold leaf_of. destruct (le (Leaf d) (e_heap s)) as [a h]. eapply fl_mono; [|apply fin_fl]. reflexivity.
    - unfold inner_of, std_of. destruct (op_type d).
      + destruct (big l true s) as [[[al|] s1]|] eqn:E1; try (intros ? ? ?; discriminate). pose proof (IHl true s _ _ E1) as F1.
        destruct (big r true s1) as [[ar s2]|] eqn:E2; try (intros ? ? ?; discriminate). pose proof (IHr true s1 _ _ E2) as F2.
        destruct (deref s2 (Some al)) as [vl|]; try (intros ? ? ?; discriminate). destruct (deref s2 ar) as [vr|]; try (intros ? ? ?; discriminate).
        cbn [alloc]. eapply fl_mono; [|apply fin_fl]. cbn [e_cache logged]. congruence.
      + destruct (big l true s) as [[[al|] s1]|] eqn:E1; try (intros ? ? ?; discriminate). pose proof (IHl true s _ _ E1) as F1.
        destruct (big r true s1) as [[ar s2]|] eqn:E2; try (intros ? ? ?; discriminate). pose proof (IHr true s1 _ _ E2) as F2.
        destruct (deref s2 (Some al)) as [vl|]; try (intros ? ? ?; discriminate). destruct (deref s2 ar) as [vr|]; try (intros ? ? ?; discriminate).
        cbn [alloc]. eapply fl_mono; [|apply fin_fl]. cbn [e_cache logged]. congruence.
      + destruct (big l true s) as [[al s1]|] eqn:E1; try (intros ? ? ?; discriminate). pose proof (IHl true s _ _ E1) as F1.
        destruct (deref s1 al) as [vl|]; try (intros ? ? ?; discriminate).
        cbn [alloc]. eapply fl_mono; [|apply fin_fl]. cbn [e_cache logged]. congruence.
  Qed.
End Flags.

(** ** Changing the volatile leaves and resetting *)
Section Reset.
  Context {D V : Type}.
  Variable op_type : D -> eop.
  Variable canon_phase : D -> Z.
  Variable vsum vprod : D -> D -> D -> V -> V -> V.
  Variable vadj : D -> D -> V -> V.
  Variable vphase : Z -> V -> V.
  Variable leafv leafv' : D -> V.
  Variable isv : tree D -> bool.
  Hypothesis SAME : forall d, isv (Leaf d) = false -> leafv' d = leafv d.

  Lemma value_nonvolatile : forall t, volatile isv t = false ->
    value op_type vsum vprod vadj leafv' t = value op_type vsum vprod vadj leafv t.
  Proof.
    induction t as [d|d l IHl r IHr]; cbn [volatile value]; intros H.
    - apply SAME. rewrite orb_false_r in H. auto.
    - apply orb_false_iff in H. destruct H as [_ H]. apply orb_false_iff in H. destruct H as [Hl Hr]. rewrite (IHl Hl), (IHr Hr). auto.
  Qed.

  Lemma reset_consistent : forall h c,
    consistent op_type canon_phase vsum vprod vadj vphase leafv h c ->
    (forall k e, In (k, e) c -> persistent_ e = true -> volatile isv k = false) ->
    consistent op_type canon_phase vsum vprod vadj vphase leafv' h (cache_reset c).
  Proof.
    intros h c C NV k e I a Da. unfold cache_reset in I. apply in_map_iff in I. destruct I as ([k0 e0] & E & I0). injection E as <- <-.
    unfold entry_reset in Da. cbn [snd] in Da. destruct (persistent_ e0) eqn:P; [|discriminate]. cbn in Da.
    rewrite (C k0 e0 I0 a Da). f_equal. unfold canon_value. rewrite value_nonvolatile; auto. eapply NV; eauto.
  Qed.

  Lemma reset_keys : forall {P} (c : list (tree D * entry P)), map fst (cache_reset c) = map fst c.
  Proof. intros. unfold cache_reset. rewrite map_map. cbn. auto. Qed.
End Reset.

(** ** peak_cache *)
Section Peak.
  Context {D : Type}.
  Variable peq : D -> D -> bool.
  Hypothesis EQ : equivb peq.
  Variable mem_cost : tree D -> Z.
  Hypothesis POS : forall n, 0 <= mem_cost n.
  Notation tr := (tree D).
  Notation cm := (list (tr * entry unit)).

  (** the cost of all occurrences of registered internal nodes *)
  Fixpoint all_cost (reg : tr -> bool) (n : tr) : Z :=
    match n with
    | Leaf _ => 0
    | Node _ l r => all_cost reg l + all_cost reg r + (if reg n then mem_cost n else 0)
    end.

  Definition dead (c : cm) : Prop := forall k e, find peq c k = Some e -> data_p e = None.

  Lemma assign_self : forall (c : cm) n e, find peq c n = Some e -> assign peq c n e = c.
  Proof.
    induction c as [|[k x] c IH]; intros n e F; cbn in *; auto. destruct (node_eq peq k n); [injection F as <-; auto|]. rewrite IH; auto.
  Qed.

  Lemma all_cost_ext : forall r1 r2 n, (forall k, r1 k = r2 k) -> all_cost r1 n = all_cost r2 n.
  Proof. induction n as [d|d l IHl r IHr]; intros H; cbn [all_cost]; auto. rewrite IHl, IHr, H; auto. Qed.

  Lemma all_cost_pos : forall reg n, 0 <= all_cost reg n.
  Proof. induction n as [d|d l IHl r IHr]; cbn [all_cost]; [lia|]. pose proof (POS (Node d l r)). destruct (reg (Node d l r)); lia. Qed.

  Lemma max_cache_all : forall n c curr, dead c -> 0 <= curr -> exists c',
    max_cache peq mem_cost n (c, curr, curr) = (c', curr + all_cost (cache_exists peq c) n, curr + all_cost (cache_exists peq c) n) /\
    dead c' /\ (forall k, cache_exists peq c' k = cache_exists peq c k).
  Proof.
    induction n as [d|d l IHl r IHr]; intros c curr DD HC; cbn [max_cache all_cost].
    - assert (A : cache_access peq c (Leaf d) = (None, c)).
      { unfold cache_access. destruct (find peq c (Leaf d)) as [e|] eqn:F; auto. unfold entry_access. rewrite (DD _ _ F). rewrite assign_self; auto. }
      rewrite A. exists c. rewrite Z.add_0_r. auto.
    - assert (A : cache_access peq c (Node d l r) = (None, c)).
      { unfold cache_access. destruct (find peq c (Node d l r)) as [e|] eqn:F; auto. unfold entry_access. rewrite (DD _ _ F). rewrite assign_self; auto. }
      rewrite A. destruct (IHl c curr DD HC) as (c1 & -> & D1 & X1).
      pose proof (all_cost_pos (cache_exists peq c) l) as P1.
      destruct (IHr c1 (curr + all_cost (cache_exists peq c) l) D1 ltac:(lia)) as (c2 & -> & D2 & X2).
      rewrite (all_cost_ext (cache_exists peq c1) (cache_exists peq c) r X1).
      pose proof (all_cost_pos (cache_exists peq c) r) as P2. pose proof (POS (Node d l r)) as P3.
      rewrite X2, X1. destruct (cache_exists peq c (Node d l r)) eqn:EX.
      + exists (snd (cache_store peq c2 (Node d l r) None)). split; [f_equal; [f_equal|]; lia|].
        unfold cache_store. destruct (find peq c2 (Node d l r)) as [e|] eqn:F; cbn [snd].
        * unfold entry_access, entry_store. cbn [data_p snd].
          split.
          -- intros k e' F'. rewrite (find_self_assign _ EQ _ _ _ _ _ F) in F'. destruct (node_eq peq k (Node d l r)); [injection F' as <-; auto|eauto].
          -- intros k. rewrite <- X1, <- X2. unfold cache_exists. rewrite (find_self_assign _ EQ _ _ _ _ _ F).
             destruct (node_eq peq k (Node d l r)) eqn:E; auto. rewrite (find_eq _ EQ _ _ _ E), F. auto.
        * split; auto. intros k. rewrite X2; auto.
      + exists c2. split; [f_equal; [f_equal|]; lia|]. split; auto. intros k. rewrite X2; auto.
  Qed.

  Lemma peak_cache_all : forall nodes min,
    peak_cache peq mem_cost nodes min =
    fold_right Z.add 0 (map (all_cost (cache_exists peq (cache_ctor (P := unit) peq (filtered peq nodes min) (fun _ => false)))) nodes).
  Proof.
    intros nodes min. unfold peak_cache. set (c0 := cache_ctor peq _ _).
    assert (D0 : dead c0).
    { intros k e F. unfold c0 in F. rewrite (ctor_find peq EQ) in F. destruct (List.find _ _); [injection F as <-; auto|discriminate]. }
    assert (G : forall ns c curr, dead c -> 0 <= curr -> (forall k, cache_exists peq c k = cache_exists peq c0 k) ->
      snd (fold_left (fun st n => max_cache peq mem_cost n st) ns (c, curr, curr)) = curr + fold_right Z.add 0 (map (all_cost (cache_exists peq c0)) ns)).
    { induction ns as [|n ns IH]; intros c curr DD HC X; cbn [fold_left map fold_right]; [cbn; lia|].
      destruct (max_cache_all n c curr DD HC) as (c' & -> & D' & X'). pose proof (all_cost_pos (cache_exists peq c) n).
      rewrite IH; auto; [|lia|intros k; rewrite X'; auto]. rewrite (all_cost_ext _ _ n X). lia. }
    specialize (G nodes c0 0 D0 ltac:(lia) ltac:(auto)). destruct (fold_left _ nodes (c0, 0, 0)) as [[cc cu] mx]. cbn [snd] in G. lia.
  Qed.
End Peak.

(** ** mode_batches *)
Lemma chain_app : forall l l' lo mid hi, chain lo mid l -> chain mid hi l' -> chain lo hi (l ++ l').
Proof. induction l as [|[a b] l IH]; intros l' lo mid hi H H'; cbn in *; [subst; auto|]. destruct H as (A & B & C). repeat split; auto. eapply IH; eauto. Qed.

Lemma chain_le : forall l lo hi, chain lo hi l -> lo <= hi.
Proof. induction l as [|[a b] l IH]; intros lo hi H; cbn in *; [lia|]. destruct H as (A & B & C). apply IH in C. lia. Qed.

Lemma chain_lt : forall l lo hi, chain lo hi l -> l <> [] -> lo < hi.
Proof. intros [|[a b] l] lo hi H N; [congruence|]. cbn in H. destruct H as (A & B & C). apply chain_le in C. lia. Qed.

Lemma batch_loop_bs : forall limit tiles g acc bs, batch_loop limit tiles g acc bs = bs ++ batch_loop limit tiles g acc [].
Proof.
  induction tiles as [|[lo hi] tiles IH]; intros g acc bs; cbn [batch_loop]; [rewrite app_nil_r; auto|].
  destruct ((0 <? acc) && (limit <? acc + (hi - lo))).
  - destruct tiles as [|t tiles]; [reflexivity || (cbn; rewrite <- app_assoc; auto)|].
    rewrite (IH lo _ (bs ++ _)), (IH lo _ ([] ++ _)). rewrite <- app_assoc. auto.
  - destruct tiles as [|t tiles]; [reflexivity|]. rewrite (IH g _ bs). auto.
Qed.

Lemma batch_loop_cut : forall limit tiles grp lo hi cur, 1 <= limit -> tiles <> [] -> chain lo hi tiles -> chain grp lo cur ->
  (cur = [] \/ lo - grp <= limit \/ length cur = 1%nat) ->
  exists gs, concat gs = cur ++ tiles /\ cut limit (batch_loop limit tiles grp (lo - grp) []) gs /\ chain grp hi (batch_loop limit tiles grp (lo - grp) []) /\
    (cur <> [] -> exists g gs', gs = g :: gs' /\ exists x, g = cur ++ x).
Proof.
  induction tiles as [|[a b] tiles IH]; intros grp lo hi cur L N C CC OK; [congruence|].
  cbn [chain] in C. destruct C as (-> & AB & C). cbn [batch_loop].
  assert (GL := chain_le _ _ _ CC).
  destruct (Z.ltb_spec 0 (lo - grp)) as [P|P]; [destruct (Z.ltb_spec limit (lo - grp + (b - lo))) as [Q|Q]|]; cbn [andb].
  - (* close the batch *)
    assert (CN : cur <> []). { intros ->. cbn in CC. lia. }
    assert (C1 : chain lo b [(lo, b)]) by (cbn; auto).
    destruct tiles as [|t tiles].
    + cbn in C. subst b. cbn [batch_loop app]. exists [cur; [(lo, hi)]]. cbn [concat app cut fst snd].
      split; [auto|]. split.
      * repeat split; auto; try congruence; try lia. destruct OK as [?|[?|?]]; [congruence|auto|auto].
      * split; [cbn; repeat split; auto; lia|]. intros _. exists cur, [[(lo, hi)]]. split; auto. exists []. rewrite app_nil_r; auto.
    + destruct (IH lo b hi [(lo, b)] L ltac:(discriminate) C C1 ltac:(auto)) as (gs & E & CT & CH & HD).
      destruct (HD ltac:(discriminate)) as (g & gs' & -> & x & Eg).
      replace (0 + (b - lo)) with (b - lo) by lia. rewrite batch_loop_bs. cbn [app].
      exists (cur :: g :: gs'). split; [cbn [concat] in *; rewrite E; reflexivity|]. split; [|split].
      * cbn [cut fst snd]. split; auto. split; auto. split; [destruct OK as [?|[?|?]]; [congruence|auto|auto]|].
        split; [|exact CT]. rewrite Eg. cbn [app fst snd]. lia.
      * cbn [chain]. split; auto. split; [lia|exact CH].
      * intros _. exists cur, (g :: gs'). split; auto. exists []. rewrite app_nil_r; auto.
  - (* extend *)
    assert (C1 : chain grp b (cur ++ [(lo, b)])) by (eapply chain_app; [exact CC|cbn; auto]).
    replace (lo - grp + (b - lo)) with (b - grp) in * by lia.
    destruct tiles as [|t tiles].
    + cbn in C. subst b. cbn [batch_loop app]. exists [cur ++ [(lo, hi)]]. cbn [concat app cut fst snd]. rewrite app_nil_r.
      split; auto. split.
      * split; [destruct cur; discriminate|]. split; auto.
      * split; [cbn; repeat split; auto; lia|]. intros _. exists (cur ++ [(lo, hi)]), []. split; auto. exists [(lo, hi)]. auto.
    + destruct (IH grp b hi (cur ++ [(lo, b)]) L ltac:(discriminate) C C1 ltac:(auto)) as (gs & E & CT & CH & HD).
      exists gs. rewrite <- app_assoc in E. split; auto. split; auto. split; auto.
      intros _. destruct (HD ltac:(destruct cur; discriminate)) as (g & gs' & -> & x & Eg). exists g, gs'. split; auto.
      exists ([(lo, b)] ++ x). rewrite app_assoc. auto.
  - (* first tile of a batch *)
    assert (grp = lo) by lia. subst grp. assert (cur = []). { destruct cur; auto. apply chain_lt in CC; [lia|discriminate]. } subst cur.
    replace (lo - lo + (b - lo)) with (b - lo) in * by lia.
    assert (C1 : chain lo b [(lo, b)]) by (cbn; auto).
    destruct tiles as [|t tiles].
    + cbn in C. subst b. cbn [batch_loop app]. exists [[(lo, hi)]]. cbn [concat app cut fst snd length].
      split; auto. split; [repeat split; auto; congruence|]. split; [cbn; auto|congruence].
    + destruct (IH lo b hi [(lo, b)] L ltac:(discriminate) C C1 ltac:(auto)) as (gs & E & CT & CH & HD).
      exists gs. split; auto. split; auto. split; auto. congruence.
Qed.
