(** C42: putting the optimizer in front of a code generator does not change what the generated
    program does. *)
From Coq Require Import List Arith Bool Lia Relations Permutation.
From Verif Require Import Gen_Model Gen_Spec Gen_Proofs Gen_Proofs2.
Import ListNotations.
Local Arguments Nat.eqb : simpl never.
Local Arguments Nat.ltb : simpl never.

(** The full claim would be: for every list of calls that a machine can execute, the optimizer
    finishes, and the program it passes on has the same effect. It is false; see [GenExample].

    Proved: when assertions are enabled and the optimizer finishes, the program it passes on can be
    executed as well, from every store and for every meaning of the computations, makes the same
    computations on the same values in the same order, and ends in the same state, with the same
    objects in memory in the same order and the same permanent store. Missing: this needs that
    objects that are loaded and unloaded are only read, and that no creation, zeroing, destruction or
    persistence has been removed. *)
Theorem C42_optimizer_partial :
  forall (V : Type) (zero : V) (add : V -> V -> V) (ev : list nat -> list V -> V) (garbage : obj -> V)
         (calls out : list op) (s : obj -> option V) m t,
    optimize_calls true calls = Done out ->
    inputs_only_read calls ->
    length (filter special out) = length (filter special calls) ->
    run zero add ev garbage calls (start s) = Some (m, t) ->
    exists m', run zero add ev garbage out (start s) = Some (m', t) /\ same m m'.
Proof.
  intros V zero add ev garbage calls out s m t H RO Sp R.
  apply (opts_run zero add ev garbage calls out (start s) m t);
    [apply optimize_opts; exact H|exact RO|exact Sp|apply wf_start|intros o; apply clean_start|exact R].
Qed.

(** The condition on what was removed always holds when every object that is not just read is
    allocated once. *)
Definition allocations (o : obj) (l : list op) : nat :=
  length (filter (fun x => is_allocate x && Nat.eqb (object x) o) l).
Lemma allocations_app : forall o l l', allocations o (l ++ l') = allocations o l + allocations o l'.
Proof. intros; unfold allocations; rewrite filter_app, app_length; reflexivity. Qed.
Lemma allocations_cons : forall o x l,
  allocations o (x :: l) = (if is_allocate x && Nat.eqb (object x) o then 1 else 0) + allocations o l.
Proof. intros; unfold allocations; cbn [filter]; destruct (is_allocate x && _); reflexivity. Qed.
Lemma opt1_allocations : forall l l' o, opt1 l l' -> allocations o l' <= allocations o l.
Proof.
  intros l l' o []; rewrite !allocations_app, !allocations_cons, ?allocations_app, ?allocations_cons; lia.
Qed.
Definition others_allocated_once (calls : list op) : Prop :=
  forall o, only_read o calls \/ allocations o calls <= 1.
Lemma once_step : forall l l', opt1 l l' -> others_allocated_once l ->
  others_allocated_once l' /\ specials l' = specials l.
Proof.
  intros l l' O H. split.
  - intros o. destruct (H o) as [R|R].
    + left. intros x Hx. apply R. eapply opt1_incl; eauto.
    + right. assert (A := opt1_allocations _ _ o O). lia.
  - destruct O.
    + destruct (cancels_is _ _ H0) as (o & [[-> ->]|[-> ->]]); rewrite !specials_app, !specials_cons; cbn; lia.
    + assert (R : only_read (object x) (p0 ++ u :: v :: p1 ++ x :: y :: z :: post)).
      { destruct (H (object x)) as [R|R]; [exact R|]. exfalso.
        rewrite allocations_app, !allocations_cons, allocations_app, !allocations_cons in R.
        unfold is_allocate in R. rewrite H1, H4, H5, H6 in R. rewrite Nat.eqb_refl in R. cbn in R. lia. }
      assert (Ex : x = Unload (object x)).
      { destruct (R x) as [E|E]; auto; [repeat (rewrite in_app_iff || cbn [In]); tauto|].
        rewrite E in H2. discriminate. }
      assert (Ez : z = Load (object x)).
      { destruct (R z) as [E|E]; auto; [repeat (rewrite in_app_iff || cbn [In]); tauto|].
        rewrite E in H4. discriminate. }
      rewrite !specials_app, !specials_cons, !specials_app, !specials_cons. rewrite Ex, Ez. cbn. lia.
Qed.
Theorem C42_allocated_once :
  forall (V : Type) (zero : V) (add : V -> V -> V) (ev : list nat -> list V -> V) (garbage : obj -> V)
         (calls out : list op) (s : obj -> option V) m t,
    optimize_calls true calls = Done out ->
    inputs_only_read calls ->
    others_allocated_once calls ->
    run zero add ev garbage calls (start s) = Some (m, t) ->
    exists m', run zero add ev garbage out (start s) = Some (m', t) /\ same m m'.
Proof.
  intros V zero add ev garbage calls out s m t H RO On R.
  eapply C42_optimizer_partial; eauto. apply optimize_opts in H. clear - H On.
  change (specials out = specials calls).
  apply clos_rt_rt1n in H. induction H as [|l l1 l' O1 O IH]; [reflexivity|].
  destruct (once_step _ _ O1 On) as [On1 E]. rewrite <- E. apply IH. exact On1.
Qed.

(** With assertions enabled no computation is ever lost, repeated or moved past another one, whatever
    the calls are; nothing is added; and the loops of the optimizer end. *)
Theorem C42_computations : forall calls out, optimize_calls true calls = Done out ->
  filter is_compute out = filter is_compute calls /\ incl out calls /\ length out <= length calls.
Proof.
  intros calls out H. apply optimize_opts in H.
  split; [apply opts_computes; exact H|]. split; [apply opts_incl; exact H|apply opts_shorter; exact H].
Qed.

Lemma pair_loop_fuel : forall chk q base i p, pair_loop chk base i q p <> OutOfFuel.
Proof.
  induction q as [|x q IH]; intros base i p; cbn; [discriminate|].
  destruct (partner x (S i) q) as [k|]; [|apply IH].
  unfold assert. destruct (chk && _); [discriminate|].
  destruct (find _ p) as [[a b]|]; [|apply IH]. destruct (_ && _); [|discriminate].
  destruct (chk && _); [discriminate|apply IH].
Qed.
Lemma process_queue_fuel : forall chk s, process_queue chk s <> OutOfFuel.
Proof.
  intros chk s. unfold process_queue.
  assert (F : cancel_loop (cancel_fuel (queue s)) 0 (queue s) <> OutOfFuel).
  { apply cancel_loop_fuel; [unfold cancel_fuel|]; lia. }
  destruct (cancel_loop _ 0 (queue s)) as [q| | | |]; cbn [bind]; try discriminate; [|congruence].
  destruct q; [discriminate|].
  assert (P := pair_loop_fuel chk (o :: q) (length (cache s)) 0 (paired s)).
  destruct (pair_loop chk _ 0 (o :: q) (paired s)); cbn [bind]; try discriminate. congruence.
Qed.
Lemma receive_fuel : forall chk calls s, receive chk calls s <> OutOfFuel.
Proof.
  induction calls as [|x calls IH]; intros s; cbn [receive]; [discriminate|].
  destruct (is_compute x); [|apply IH].
  assert (P := process_queue_fuel chk (mkState (queue s ++ [x]) (cache s) (paired s))).
  destruct (process_queue chk _); cbn [bind]; try discriminate; [apply IH|congruence].
Qed.
Lemma optimize_cache_fuel : forall chk ps c e, optimize_cache chk c e ps <> OutOfFuel.
Proof.
  induction ps as [|p ps IH]; intros c e; cbn [optimize_cache]; [discriminate|].
  assert (P : optimize_pair chk c e p <> OutOfFuel).
  { destruct p as [f0 s0]. unfold optimize_pair, assert.
    repeat match goal with
           | |- (if ?b then _ else _) <> _ => destruct b; try discriminate
           | |- (match nth_error ?a ?b with _ => _ end) <> _ => destruct (nth_error a b); try discriminate
           | |- (match allocation_before ?a ?b with _ => _ end) <> _ => destruct (allocation_before a b); try discriminate
           end. }
  destruct (optimize_pair chk c e p); cbn [bind]; try discriminate; [apply IH|congruence].
Qed.
Theorem C42_terminates : forall chk calls, optimize_calls chk calls <> OutOfFuel.
Proof.
  intros chk calls. unfold optimize_calls.
  assert (P := receive_fuel chk calls (mkState [] [] [])).
  destruct (receive chk calls _) as [s| | | |]; cbn [bind]; try discriminate; [|congruence].
  assert (Q := process_queue_fuel chk s).
  destruct (process_queue chk s) as [s'| | | |]; cbn [bind]; try discriminate; [|congruence].
  unfold process_cache, assert. destruct (chk && _); [discriminate|]. apply optimize_cache_fuel.
Qed.

(** Loads and unloads of the same object that follow each other are removed: none is left in a block
    that has been processed, also none that has come together because others were removed. *)
Definition no_cancelling_neighbours (l : list op) : Prop :=
  forall l1 x y l2, l = l1 ++ x :: y :: l2 -> cancels x y = false.
Lemma cancel_loop_done : forall fuel i q q', cancel_loop fuel i q = Done q' ->
  (forall j x y, j < i -> nth_error q j = Some x -> nth_error q (S j) = Some y -> cancels x y = false) ->
  no_cancelling_neighbours q'.
Proof.
  induction fuel; intros i q q' H Inv; cbn [cancel_loop] in H; [discriminate|].
  destruct q as [|a q0] eqn:Eq; [discriminate|]. rewrite <- Eq in *. clear Eq a q0.
  destruct (i <? length q - 1) eqn:El.
  - destruct (nth_error q i) as [x|] eqn:Ex; [|discriminate].
    destruct (nth_error q (S i)) as [y|] eqn:Ey; [|discriminate].
    destruct (cancels x y) eqn:Ec.
    + eapply IHfuel; [exact H|]. intros; lia.
    + eapply IHfuel; [exact H|]. intros j x' y' Hj Hx Hy.
      destruct (Nat.eq_dec j i) as [->|Hn]; [congruence|]. apply (Inv j); auto; lia.
  - apply Nat.ltb_ge in El. inversion H; subst q'. intros l1 x y l2 E.
    assert (L : length q = length l1 + S (S (length l2))) by (rewrite E, app_length; reflexivity).
    apply (Inv (length l1)); [lia| |].
    + rewrite E, nth_error_app2 by lia. rewrite Nat.sub_diag. reflexivity.
    + rewrite E, nth_error_app2 by lia. replace (S (length l1) - length l1) with 1 by lia. reflexivity.
Qed.
Theorem C42_cancelled : forall chk s s', process_queue chk s = Done s' ->
  exists block, cache s' = cache s ++ block /\ no_cancelling_neighbours block /\ opts (queue s) block.
Proof.
  intros chk s s' H. unfold process_queue in H.
  destruct (cancel_loop _ 0 (queue s)) as [q| | | |] eqn:E; cbn [bind] in H; try discriminate.
  assert (N : no_cancelling_neighbours q) by (eapply cancel_loop_done; [exact E|intros; lia]).
  assert (O : opts (queue s) q).
  { apply cancel_loop_opts with (pre := []) (post := []) in E. cbn in E. rewrite !app_nil_r in E. exact E. }
  destruct q as [|x q0] eqn:Eq; [discriminate|]. rewrite <- Eq in *.
  destruct (pair_loop chk (length (cache s)) 0 q (paired s)) as [p| | | |]; cbn [bind] in H; try discriminate.
  inversion H; subst s'. exists q. auto.
Qed.

(** A program in which no operation has a partner before the next computation is passed on as it is,
    whether or not assertions are enabled. *)
Definition nothing_to_do (calls : list op) : Prop :=
  forall l1 x l2 y l3, calls = l1 ++ x :: l2 ++ y :: l3 -> pairs_with x y = true -> exists c, In c l2 /\ is_compute c = true.
Lemma cancels_pairs : forall x y, cancels x y = true -> pairs_with x y = true.
Proof.
  intros x y H. destruct (cancels_is _ _ H) as (o & [[-> ->]|[-> ->]]); unfold pairs_with; cbn;
    rewrite Nat.eqb_refl; reflexivity.
Qed.
Definition unpaired (q : list op) : Prop := forall l1 x l2 y l3, q = l1 ++ x :: l2 ++ y :: l3 -> pairs_with x y = false.
Lemma cancel_loop_id : forall fuel i q, unpaired q -> q <> [] -> length q < fuel + i -> cancel_loop fuel i q = Done q \/ i > length q.
Proof.
  induction fuel; intros i q U Hq F; [right; cbn in F; lia|]. cbn [cancel_loop].
  destruct q as [|a q0] eqn:Eq; [congruence|]. rewrite <- Eq in *. clear Eq a q0.
  destruct (i <? length q - 1) eqn:El; [|left; reflexivity]. apply Nat.ltb_lt in El.
  destruct (nth_error q i) as [x|] eqn:Ex; [|apply nth_error_None in Ex; lia].
  destruct (nth_error q (S i)) as [y|] eqn:Ey; [|apply nth_error_None in Ey; lia].
  destruct (cancels x y) eqn:Ec.
  - exfalso. destruct (nth_error_split2 _ _ _ _ _ Ex Ey) as (l1 & l2 & E & _).
    apply cancels_pairs in Ec. rewrite (U l1 x [] y l2 E) in Ec. discriminate.
  - destruct (IHfuel (S i) q U Hq) as [E|E]; [lia|left; exact E|lia].
Qed.
Lemma partner_none : forall x k q, (forall l1 y l2, q = l1 ++ y :: l2 -> pairs_with x y = false) -> partner x k q = None.
Proof.
  intros x k q. revert k. induction q as [|y q IH]; intros k H; cbn; [reflexivity|].
  rewrite (H [] y q eq_refl). apply IH. intros l1 z l2 E. apply (H (y :: l1) z l2). cbn. congruence.
Qed.
Lemma pair_loop_id : forall chk q base i p, unpaired q -> pair_loop chk base i q p = Done p.
Proof.
  induction q as [|x q IH]; intros base i p U; cbn; [reflexivity|].
  rewrite partner_none.
  - apply IH. intros l1 y l2 z l3 E. apply (U (x :: l1) y l2 z l3). cbn. congruence.
  - intros l1 y l2 E. apply (U [] x l1 y l2). cbn. congruence.
Qed.
Lemma process_queue_id : forall chk s, unpaired (queue s) -> queue s <> [] ->
  process_queue chk s = Done (mkState [] (cache s ++ queue s) (paired s)).
Proof.
  intros chk s U Hq. unfold process_queue.
  destruct (cancel_loop_id (cancel_fuel (queue s)) 0 (queue s) U Hq) as [E|E]; [unfold cancel_fuel; nia| |lia].
  rewrite E. cbn [bind]. destruct (queue s) as [|x q] eqn:Eq; [congruence|]. rewrite <- Eq in *.
  rewrite pair_loop_id by exact U. reflexivity.
Qed.
Lemma receive_id : forall chk calls c q, nothing_to_do (q ++ calls) -> (forall x, In x q -> is_compute x = false) ->
  exists q', receive chk calls (mkState q c []) = Done (mkState q' (firstn (length (c ++ q ++ calls) - length q') (c ++ q ++ calls)) []) /\
             (exists r, c ++ q ++ calls = r ++ q') /\ unpaired q' /\
             (q' = [] -> calls = [] /\ q = [] \/ exists r x, calls = r ++ [x] /\ is_compute x = true).
Proof.
  induction calls as [|x calls IH]; intros c q N Q; cbn [receive].
  - exists q. rewrite app_nil_r in *. split; [|split; [exists c; reflexivity|split]].
    + do 2 f_equal. rewrite app_length. replace (length c + length q - length q) with (length c) by lia.
      rewrite firstn_app, Nat.sub_diag, firstn_all, firstn_O, app_nil_r. reflexivity.
    + intros l1 a l2 b l3 E. destruct (pairs_with a b) eqn:P; [|reflexivity]. exfalso.
      destruct (N l1 a l2 b l3 E P) as (w & Hw & Cw). rewrite (Q w) in Cw; [discriminate|].
      rewrite E. repeat (rewrite in_app_iff || cbn [In]). auto.
    + intros ->. left; auto.
  - cbn [queue cache paired]. destruct (is_compute x) eqn:Cx.
    + rewrite process_queue_id; cbn [queue cache paired].
      2:{ intros l1 a l2 b l3 E. destruct (pairs_with a b) eqn:P; [|reflexivity]. exfalso.
          destruct (N l1 a l2 b (l3 ++ calls)) as (w & Hw & Cw); [|exact P|].
          - replace (q ++ x :: calls) with ((q ++ [x]) ++ calls) by (rewrite <- app_assoc; reflexivity).
            rewrite E. repeat (rewrite <- app_assoc; cbn). reflexivity.
          - assert (Hw' : In w q).
            { assert (In w (l1 ++ a :: l2)) by (rewrite in_app_iff; cbn; auto).
              destruct (exists_last (l := b :: l3)) as (l4 & z & Ez); [discriminate|].
              assert (E' : q ++ [x] = (l1 ++ a :: l2 ++ l4) ++ [z]).
              { rewrite E, Ez. repeat (rewrite <- app_assoc; cbn). reflexivity. }
              apply app_inj_tail in E'. destruct E' as [E' _]. rewrite E'.
              rewrite in_app_iff in *. cbn in *. rewrite in_app_iff. tauto. }
            rewrite (Q w Hw') in Cw. discriminate. }
      2:{ destruct q; discriminate. }
      cbn [bind]. destruct (IH (c ++ q ++ [x]) []) as (q' & E & (r & Er) & U & Em).
      * intros l1 a l2 b l3 E P. cbn in E. apply (N (q ++ x :: l1) a l2 b l3); [|exact P].
        rewrite E, <- app_assoc. reflexivity.
      * intros w [].
      * exists q'. cbn [app] in E, Er. replace ((c ++ q ++ [x]) ++ calls) with (c ++ q ++ x :: calls) in E, Er.
        2:{ repeat (rewrite <- app_assoc; cbn). reflexivity. }
        split; [exact E|]. split; [exists r; exact Er|]. split; [exact U|].
        intros Hq. right. destruct (Em Hq) as [[-> _]|(r0 & z & -> & Cz)].
        -- exists [], x. auto.
        -- exists (x :: r0), z. auto.
    + cbn [bind]. destruct (IH c (q ++ [x])) as (q' & E & (r & Er) & U & Em).
      * rewrite <- app_assoc. exact N.
      * intros w Hw. apply in_app_iff in Hw. destruct Hw as [Hw|[<-|[]]]; auto.
      * exists q'. rewrite <- app_assoc in E, Er. cbn [app] in E, Er. split; [exact E|].
        split; [exists r; exact Er|]. split; [exact U|].
        intros Hq. right. destruct (Em Hq) as [[_ Hn]|(r0 & z & -> & Cz)].
        -- destruct q; discriminate.
        -- exists (x :: r0), z. auto.
Qed.
Theorem C42_unchanged : forall chk x calls y, nothing_to_do (x :: calls ++ [y]) -> pairs_with x y = true ->
  optimize_calls chk (x :: calls ++ [y]) = Done (x :: calls ++ [y]).
Proof.
  intros chk x calls y N P. unfold optimize_calls.
  destruct (receive_id chk (x :: calls ++ [y]) [] [] N ltac:(intros w [])) as (q' & E & (r & Er) & U & Em).
  set (l := x :: calls ++ [y]) in *. cbn [app] in E, Er. rewrite E. cbn [bind].
  assert (Hq : q' <> []).
  { intros Hq. destruct (Em Hq) as [[Hn _]|(r0 & z & Ez & Cz)]; [discriminate|].
    unfold l in Ez. change (x :: calls ++ [y]) with ((x :: calls) ++ [y]) in Ez. apply app_inj_tail in Ez.
    destruct Ez as [_ <-]. destruct y; try discriminate. destruct x; unfold pairs_with in P; cbn in P;
      rewrite andb_false_r in P; discriminate. }
  rewrite process_queue_id by assumption. cbn [bind queue cache paired].
  assert (Ef : firstn (length l - length q') l ++ q' = l).
  { rewrite Er. rewrite app_length. replace (length r + length q' - length q') with (length r) by lia.
    rewrite firstn_app, Nat.sub_diag, firstn_all, firstn_O, app_nil_r. reflexivity. }
  rewrite Ef. unfold process_cache. cbn [cache paired optimize_cache]. unfold assert.
  assert (El : last l x = y) by (unfold l; change (x :: calls ++ [y]) with ((x :: calls) ++ [y]); apply last_last).
  unfold l at 1. cbv iota. fold l. rewrite El, P, andb_false_r. reflexivity.
Qed.

Module GenExample.
(** R += A B; R += A C: the pair of calls that unloads and loads A is removed, which needs the two
    loads to be exchanged *)
Definition calls := [Create 0 true; Load 1; Load 2; Compute 0 [0] [1; 2]; Unload 2; Unload 1;
                     Load 2; Load 3; Compute 0 [1] [2; 3]; Unload 3; Unload 2; Persist 0].
Definition optimized := [Create 0 true; Load 2; Load 1; Compute 0 [0] [1; 2]; Unload 1;
                         Load 3; Compute 0 [1] [2; 3]; Unload 3; Unload 2; Persist 0].
Example calls_optimized : optimize_calls true calls = Done optimized.
Proof. reflexivity. Qed.
Example calls_inputs : inputs_only_read calls.
Proof.
  intros o H H0 x Hx <-. unfold calls in Hx. cbn [In] in Hx.
  repeat (destruct Hx as [<-|Hx]; [first [left; reflexivity | right; reflexivity | exfalso; cbn in H; intuition discriminate]|]).
  destruct Hx.
Qed.
Example calls_specials : length (filter special optimized) = length (filter special calls).
Proof. reflexivity. Qed.
Example calls_once : others_allocated_once calls.
Proof.
  intros o. destruct (Nat.eq_dec o 2) as [->|H2].
  - left. intros x Hx Ho. unfold calls in Hx. cbn [In] in Hx.
    repeat (destruct Hx as [<-|Hx]; [cbn in Ho; try discriminate; auto|]). destruct Hx.
  - right. unfold allocations, calls. cbn [filter is_allocate memory_action andb object].
    destruct (Nat.eqb 0 o) eqn:E0, (Nat.eqb 1 o) eqn:E1, (Nat.eqb 2 o) eqn:E2, (Nat.eqb 3 o) eqn:E3;
      repeat match goal with H : Nat.eqb _ _ = true |- _ => apply Nat.eqb_eq in H end; cbn; lia.
Qed.
(** numbers as values; expression [0] or [1] is the product of the objects *)
Definition ev (e : list nat) (l : list nat) : nat := fold_right Nat.mul 1 l.
Definition inputs (o : obj) : option nat := Some (o + 10).
Definition observe (l : list op) :=
  match run 0 Nat.add ev (fun _ => 0) l (start inputs) with
  | Some (m, t) => Some (stack m, store m 0, t)
  | None => None
  end.
Example calls_run : observe calls = Some ([], Some 288, [(0, [0], [11; 12]); (0, [1], [12; 13])]).
Proof. reflexivity. Qed.
Example optimized_run : observe optimized = observe calls.
Proof. reflexivity. Qed.
Example plain : nothing_to_do [Create 0 true; Load 1; Compute 0 [0] [1]; Unload 1; Persist 0].
Proof.
  intros l1 x l2 y l3 E P.
  assert (A : forall a, In a [Create 0 true; Load 1] -> In a [Unload 1; Persist 0] -> False).
  { cbn. intuition (subst; discriminate). }
  destruct l1 as [|a1 [|a2 [|a3 [|a4 [|a5 l1]]]]]; cbn in E; inversion E; subst; clear E;
    repeat match goal with
           | H : _ = ?l ++ _ :: _ |- _ => destruct l; cbn in H; inversion H; subst; clear H
           end; try discriminate; cbn; eauto.
Qed.

(** R = A B + B A. Both objects are unloaded and loaded again between the two computations, and the
    position of the second pair is computed as if all removed operations stood before it. With
    assertions the export stops. Without them, which is the default build, the first computation is
    removed from the program. *)
Definition abba := [Create 0 true; Load 1; Load 2; Compute 0 [0] [1; 2]; Unload 2; Unload 1;
                    Load 2; Load 1; Compute 0 [1] [2; 1]; Unload 1; Unload 2; Persist 0].
Theorem C42_computation_lost_refuted :
  observe abba = Some ([], Some 264, [(0, [0], [11; 12]); (0, [1], [12; 11])]) /\
  optimize_calls true abba = AssertionFailed /\
  exists out, optimize_calls false abba = Done out /\
    filter is_compute abba = [Compute 0 [0] [1; 2]; Compute 0 [1] [2; 1]] /\
    filter is_compute out = [Compute 0 [1] [2; 1]].
Proof.
  split; [reflexivity|]. split; [reflexivity|]. eexists. split; [vm_compute; reflexivity|]. split; reflexivity.
Qed.

(** An intermediate that is reused has to be set to zero when it is loaded again. The optimizer
    removes the zeroing load together with the unload, because it looks for operations that form a
    pair and not for operations that cancel. *)
Definition reuse := [Create 0 true; Load 1; Create 2 true; Compute 2 [0] [1]; Compute 0 [0] [2]; Unload 2; Unload 1;
                     LoadAndZero 2; Load 3; Compute 2 [0] [3]; Compute 0 [0] [2]; Unload 3; Unload 2; Persist 0].
Example reuse_inputs : inputs_only_read reuse.
Proof.
  intros o H H0 x Hx <-. unfold reuse in Hx. cbn [In] in Hx.
  repeat (destruct Hx as [<-|Hx]; [first [left; reflexivity | right; reflexivity | exfalso; cbn in H; intuition discriminate]|]).
  destruct Hx.
Qed.
Theorem C42_zeroing_lost_refuted : exists out, optimize_calls true reuse = Done out /\
  observe reuse = Some ([], Some 24, [(2, [0], [11]); (0, [0], [11]); (2, [0], [13]); (0, [0], [13])]) /\
  observe out = Some ([], Some 35, [(2, [0], [11]); (0, [0], [11]); (2, [0], [13]); (0, [0], [24])]).
Proof. eexists. split; [vm_compute; reflexivity|]. split; reflexivity. Qed.

(** Unloading discards the value of an object. Removing "unload, load" keeps a changed value. *)
Definition discard := [Create 0 true; Load 1; Compute 1 [0] []; Unload 1; Load 1; Compute 0 [0] [1]; Unload 1; Persist 0].
Theorem C42_discarded_value_refuted : exists out, optimize_calls true discard = Done out /\
  observe discard = Some ([], Some 11, [(1, [0], []); (0, [0], [11])]) /\
  observe out = Some ([], Some 12, [(1, [0], []); (0, [0], [12])]).
Proof. eexists. split; [vm_compute; reflexivity|]. split; reflexivity. Qed.

(** Programs that can be executed but are not accepted: nothing to process at the end (the size of an
    empty queue minus one is used as a bound), and an object that is allocated and released without a
    computation in between. *)
Theorem C42_accepted_refuted :
  observe [Create 0 true; Compute 0 [0] []; Load 1; Unload 1] <> None /\
  (forall chk, optimize_calls chk [Create 0 true; Compute 0 [0] []; Load 1; Unload 1] = Undefined) /\
  observe [LoadAndZero 0; Persist 0] = Some ([], Some 0, []) /\
  optimize_calls true [LoadAndZero 0; Persist 0] = AssertionFailed.
Proof. split; [discriminate|]. split; [intros []; reflexivity|]. split; reflexivity. Qed.
End GenExample.

Print Assumptions C42_optimizer_partial.
Print Assumptions C42_unchanged.
Print Assumptions GenExample.C42_computation_lost_refuted.
