(** * Theorems about default contexts, scopes and operator registries *)
From Coq Require Import List Arith Bool Lia.
From Verif Require Import Ctx_Model Ctx_Spec Ctx_Proofs.
Import ListNotations.

(** ** C105: scoped contexts *)

(** A scope that installs a context different from the current one puts the
    previous context back, whatever the body does (sets, resets, nested
    scopes, changes of the objects pointed to) and however it ends.  The body
    starts with the requested context, and after a normal end the program goes
    on with the previous one.  The full property has no hypothesis on the
    comparison: see [CtxExamples.C105_scope_restores_refuted]. *)
Theorem C105_scope_restores_partial :
  forall H C neq (f : H -> C -> C) body p h c r,
    neq h c (f h c) = Some true ->
    exec H C neq (PScope f body p) h c = Some r ->
    exists rb,
      exec H C neq body h (f h c) = Some rb /\
      (if r_throw rb
       then r_throw r = true /\ r_ctx r = c /\
            r_heap r = r_heap rb /\ r_obs r = r_obs rb
       else exists rp, exec H C neq p (r_heap rb) c = Some rp /\
            r_throw r = r_throw rp /\ r_ctx r = r_ctx rp /\
            r_heap r = r_heap rp /\ r_obs r = r_obs rb ++ r_obs rp).
Proof. intros H C neq. exact (scope_restores H C neq). Qed.

Theorem C105_scope_alone_restores_partial :
  forall H C neq (f : H -> C -> C) body h c r,
    neq h c (f h c) = Some true ->
    exec H C neq (PScope f body PNil) h c = Some r -> r_ctx r = c.
Proof.
  intros H C neq f body h c r Hn E.
  destruct (scope_restores H C neq f body PNil h c r Hn E) as (rb & _ & K).
  destruct (r_throw rb); [tauto|].
  destruct K as (rp & Ep & _ & Ec & _). cbn in Ep. inversion Ep; subst. exact Ec.
Qed.

(** A program that changes the context only by scopes leaves it as it was,
    with no condition on the contexts, also when it throws. *)
Theorem C105_scopes_only_restore :
  forall H C neq (p : prog H C), scopes_only p ->
  forall h c r, exec H C neq p h c = Some r -> r_ctx r = c.
Proof. intros H C neq p S. exact (scopes_only_restores H C neq p S). Qed.

(** Inside set_scoped_default_context(map), get_default_context(s) gives the
    context the map has for [s] or for Arbitrary, or one that reads the same. *)
Theorem C105_inside_scope :
  forall h m new m' prev,
    set_scoped heap ctxmap cm_neq h m new = Some (m', prev) ->
    cm_find Arbitrary new <> None ->
    forall s, let want := match cm_find s new with
                          | Some c => c
                          | None => match cm_find Arbitrary new with
                                    | Some c => c | None => ctx_default end
                          end in
    fst (get_default_context s m') = want \/
    ctx_same h (fst (get_default_context s m')) want.
Proof. exact scoped_get. Qed.

(** Inside set_scoped_default_context(ctx) this holds of [ctx] for every
    statistics, whatever had been set for particular statistics. *)
Theorem C105_inside_scope_of_one :
  forall h m c m' prev,
    set_scoped heap ctxmap cm_neq h m (scoped_map c) = Some (m', prev) ->
    forall s, fst (get_default_context s m') = c \/
              ctx_same h (fst (get_default_context s m')) c.
Proof.
  intros h m c m' prev E s.
  pose proof (scoped_get h m (scoped_map c) m' prev E) as X.
  specialize (X ltac:(discriminate) s). cbn [scoped_map cm_find] in X.
  rewrite Nat.eqb_refl in X. cbv zeta in X.
  destruct (Arbitrary =? s); exact X.
Qed.

(** Comparing two core contexts answers whether they read the same, unless it
    dereferences a null registry, which happens exactly when the fields
    compared first agree and a registry is missing. *)
Theorem C105_core_comparison :
  forall h a b,
    (ctx_eq h a b = Some true <-> ctx_same h a b) /\
    (ctx_eq h a b = None <->
     c_before a = c_before b /\
     (deref h (c_reg a) = None \/ deref h (c_reg b) = None)).
Proof.
  intros h a b. split; [split; [apply ctx_eq_same|apply ctx_eq_complete]|].
  unfold ctx_eq. destruct (Nat.eqb_spec (c_before a) (c_before b)) as [->|N].
  - destruct (deref h (c_reg a)), (deref h (c_reg b)); split; intros X; auto;
      try discriminate; destruct X as [_ [X|X]]; discriminate.
  - split; [discriminate|]. intros [X _]; contradiction.
Qed.

(** The contexts of mbpt are always comparable. *)
Theorem C105_mbpt_comparison :
  forall h a b,
    (forall p, m_reg a = Some p -> p < length h) ->
    (forall p, m_reg b = Some p -> p < length h) ->
    exists v, mctx_neq h a b = Some v /\
      (v = false <-> m_csv a = m_csv b /\
        match m_reg a, m_reg b with
        | None, None => True
        | Some p, Some q => nth_error h p = nth_error h q
        | _, _ => False
        end).
Proof.
  intros h [x a] [y b] HA HB. unfold mctx_neq. cbn [m_csv m_reg] in *.
  destruct (Nat.eqb_spec x y) as [->|N]; cbn [negb].
  - destruct a as [p|], b as [q|].
    + destruct (nth_some _ h p (HA p eq_refl)) as [u Eu].
      destruct (nth_some _ h q (HB q eq_refl)) as [v Ev]. rewrite Eu, Ev.
      eexists; split; [reflexivity|]. destruct (Nat.eqb_spec u v) as [->|N]; cbn.
      * tauto.
      * split; [discriminate|]. intros [_ X]. congruence.
    + eexists; split; [reflexivity|]. split; [discriminate|tauto].
    + eexists; split; [reflexivity|]. split; [discriminate|tauto].
    + eexists; split; [reflexivity|]. tauto.
  - eexists; split; [reflexivity|]. split; [discriminate|tauto].
Qed.

(** ** C106: default contexts per statistics *)

(** After any history of calls, get_default_context(s) gives the context last
    given for [s] since the last reset, else the one last given for Arbitrary,
    else Context{}. *)
Theorem C106_get_default_context :
  forall os s, drun (os ++ [DGet s]) [] = drun os [] ++ [Some (promised s (rev os))].
Proof.
  intros os s.
  assert (A : forall os m, drun (os ++ [DGet s]) m =
              drun os m ++ [Some (fst (get_default_context s (dstate os m)))]).
  { induction os0 as [|o os0 IH]; intros m.
    - cbn. destruct (get_default_context s m); reflexivity.
    - cbn [app drun dstate]. destruct (dstep o m) as [r m'] eqn:E.
      cbn [snd]. rewrite IH. reflexivity. }
  rewrite A. f_equal. f_equal. f_equal.
  pose proof (dstate_tracks os [] [] tracks_nil) as T. rewrite app_nil_r in T.
  apply (proj1 (get_ok _ _ s T)).
Qed.

(** ** C107: operator registries *)

(** Every history of constructions, copies, moves, clones, assignments, edits
    and queries, except construction from the map of another registry, gives
    the results of shared dictionaries from labels to class and Hermiticity.
    Missing: see [CtxExamples.C107_shared_map_refuted]. *)
Theorem C107_registry_is_dictionary_partial :
  forall reserved os, no_from os ->
    rrun reserved os rinit = spec_run reserved os spec_init.
Proof. intros reserved os N. apply run_rel; [apply rel_init|exact N]. Qed.

(** A reserved label is never in a registry, in any history. *)
Theorem C107_reserved_never_registered :
  forall reserved os s, rfinal reserved os rinit = Some s ->
  forall i l, reserved l = true ->
    rstep reserved (RContains i l) s = Some (OBool false, s) \/
    rstep reserved (RContains i l) s = None.
Proof.
  intros reserved os s E i l Hl.
  assert (I : forall os s0 s1, rfinal reserved os s0 = Some s1 ->
     (forall o, In o (s_ops s0) -> lfind l o = None) ->
     (forall o, In o (s_ops s1) -> lfind l o = None)).
  { induction os0 as [|op os0 IH]; cbn [rfinal]; intros s0 s1 E0 H0.
    - inversion E0; subst; assumption.
    - destruct (rstep reserved op s0) as [[r s2]|] eqn:Es; [|discriminate].
      apply (IH s2 s1 E0). clear IH E0.
      assert (MO : forall j p o q h, maps_of j s0 = Some (p, o, q, h) -> In o (s_ops s0)).
      { intros j p o q h. unfold maps_of.
        destruct (nth_error (s_vars s0) j) as [[[p0|] [q0|]]|]; try discriminate.
        destruct (nth_error (s_ops s0) p0) eqn:X; [|discriminate].
        destruct (nth_error (s_herm s0) q0); [|discriminate].
        intros Y; inversion Y; subst. eapply nth_error_In; eauto. }
      assert (NE : forall k (o : list (nat * opclass)) c,
                   reserved k = false -> lfind l o = None -> lfind k o = None ->
                   lfind l (lemplace k c o) = None).
      { intros k o c Hk Ho Hko. rewrite lfind_emplace by assumption.
        destruct (Nat.eqb_spec l k); [congruence|assumption]. }
      destruct op as [|j|j|j|j|j k|j k|j k c|j k c hm|j k hm|j k|j|j k|j k|j k];
        cbn [rstep] in Es.
      + inversion Es; subst; cbn. intros o Ho. apply in_app_iff in Ho.
        destruct Ho as [Ho|[<-|[]]]; [auto|reflexivity].
      + destruct (nth_error (s_vars s0) j) as [[[p|] b]|]; inversion Es; subst; auto.
      + destruct (nth_error (s_vars s0) j); inversion Es; subst; auto.
      + destruct (nth_error (s_vars s0) j); inversion Es; subst; auto.
      + destruct (maps_of j s0) as [[[[p o] q] h]|] eqn:M; [|discriminate].
        inversion Es; subst; cbn. intros o' Ho. apply in_app_iff in Ho.
        destruct Ho as [Ho|[<-|[]]]; [auto|]. apply H0. eapply MO; eauto.
      + destruct (nth_error (s_vars s0) j), (nth_error (s_vars s0) k); inversion Es; subst; auto.
      + destruct (nth_error (s_vars s0) j), (nth_error (s_vars s0) k); inversion Es; subst; auto.
      + destruct (maps_of j s0) as [[[[p o] q] h]|] eqn:M; [|discriminate].
        destruct (reserved k) eqn:Rk; [inversion Es; subst; auto|].
        destruct (lfind k o) eqn:F; inversion Es; subst; auto.
        cbn. intros o' Ho. apply in_set_nth in Ho. destruct Ho as [->|Ho]; [|auto].
        apply NE; auto. apply H0. eapply MO; eauto.
      + destruct (maps_of j s0) as [[[[p o] q] h]|] eqn:M; [|discriminate].
        destruct (reserved k) eqn:Rk; [inversion Es; subst; auto|].
        destruct (lfind k o) eqn:F; inversion Es; subst; auto.
        cbn. intros o' Ho. apply in_set_nth in Ho. destruct Ho as [->|Ho]; [|auto].
        apply NE; auto. apply H0. eapply MO; eauto.
      + destruct (maps_of j s0) as [[[[p o] q] h]|] eqn:M; [|discriminate].
        destruct (lfind k o); inversion Es; subst; auto.
      + destruct (maps_of j s0) as [[[[p o] q] h]|] eqn:M; [|discriminate].
        destruct (lfind k o); inversion Es; subst; auto.
        cbn. intros o' Ho. apply in_set_nth in Ho. destruct Ho as [->|Ho]; [|auto].
        rewrite lfind_erase. destruct (l =? k); [reflexivity|]. apply H0. eapply MO; eauto.
      + destruct (maps_of j s0) as [[[[p o] q] h]|] eqn:M; [|discriminate].
        inversion Es; subst; cbn. intros o' Ho. apply in_set_nth in Ho.
        destruct Ho as [->|Ho]; [reflexivity|auto].
      + destruct (maps_of j s0) as [[[[p o] q] h]|]; inversion Es; subst; auto.
      + destruct (maps_of j s0) as [[[[p o] q] h]|]; [|discriminate].
        destruct (lfind k o); inversion Es; subst; auto.
      + destruct (maps_of j s0) as [[[[p o] q] h]|]; [|discriminate].
        destruct (lfind k h); [inversion Es; subst; auto|].
        destruct (lfind k o); inversion Es; subst; auto. }
  cbn [rstep]. destruct (maps_of i s) as [[[[p o] q] h]|] eqn:M; [|auto].
  left. rewrite (I os rinit s E); [reflexivity|intros ? []|].
  unfold maps_of in M. destruct (nth_error (s_vars s) i) as [[[p0|] [q0|]]|]; try discriminate.
  destruct (nth_error (s_ops s) p0) eqn:X; [|discriminate].
  destruct (nth_error (s_herm s) q0); [|discriminate].
  inversion M; subst. eapply nth_error_In; eauto.
Qed.

(** Registries that compare equal answer every query alike. *)
Theorem C107_equal_registries_answer_alike :
  forall reserved s i j, reg_eq i j s = Some true ->
  forall l,
    (exists b, rstep reserved (RContains i l) s = Some (OBool b, s) /\
               rstep reserved (RContains j l) s = Some (OBool b, s)) /\
    (exists r, rstep reserved (RClass i l) s = Some (r, s) /\
               rstep reserved (RClass j l) s = Some (r, s)) /\
    (exists r, rstep reserved (RHerm i l) s = Some (r, s) /\
               rstep reserved (RHerm j l) s = Some (r, s)).
Proof.
  intros reserved s i j E l. unfold reg_eq in E. cbn [rstep].
  destruct (maps_of i s) as [[[[p o] q] h]|]; [|discriminate].
  destruct (maps_of j s) as [[[[p2 o2] q2] h2]|]; [|discriminate].
  injection E as E. apply andb_prop in E. destruct E as [E1 E2].
  rewrite (map_eqb_find _ _ _ _ opclass_eqb_eq E1 l).
  rewrite (map_eqb_find _ _ _ _ herm_eqb_eq E2 l).
  split; [eauto|]. split; [destruct (lfind l o2); eauto|].
  destruct (lfind l h2); [eauto|]. destruct (lfind l o2); eauto.
Qed.

Module CtxExamples.
(** *** Scopes *)
(** two registries with different contents at addresses 0 and 1, and one at
    address 2 with the content of the first *)
Definition h0 : heap := [10; 20; 10].
Definition ca : ctx := mkCtx 1 (Some 0) 0.
Definition cb : ctx := mkCtx 1 (Some 1) 0.
Definition ca' : ctx := mkCtx 1 (Some 2) 0.

(** a body that sets, resets, nests and throws *)
Definition wild : prog heap ctxmap :=
  PObs (PUpd (set_default_context ca FermiDirac)
    (PScope (fun _ _ => scoped_map ca) (PUpd reset_default_context (PObs PNil))
       (PUpd reset_default_context PThrow))).

Example ex_restores :
  cm_neq h0 (scoped_map ca) (scoped_map cb) = Some true /\
  option_map r_ctx (core_exec (PScope (fun _ _ => scoped_map cb) wild PNil) h0 (scoped_map ca))
  = Some (scoped_map ca) /\
  option_map r_throw (core_exec (PScope (fun _ _ => scoped_map cb) wild PNil) h0 (scoped_map ca))
  = Some true.
Proof. repeat split; reflexivity. Qed.

Example ex_scopes_only :
  let p : prog heap ctxmap :=
    PScope (fun _ _ => scoped_map cb) (PScope (fun _ _ => scoped_map ca) (PObs PThrow) PNil) (PObs PNil) in
  scopes_only p /\
  option_map r_obs (core_exec p h0 (scoped_map ca)) = Some [(h0, scoped_map ca)].
Proof. cbn. repeat split. Qed.

(** A scope whose context equals the current one returns an empty resetter: a
    set_default_context in its body outlives the scope. *)
Theorem C105_scope_restores_refuted :
  ~ (forall f body h m r,
       core_exec (PScope f body PNil) h m = Some r -> r_ctx r = m).
Proof.
  intros X.
  specialize (X (fun _ _ => scoped_map ca) (PUpd (set_default_context cb Arbitrary) PNil)
                h0 (scoped_map ca) _ eq_refl).
  discriminate X.
Qed.

(** Nor is the requested context then installed: an equal context with another
    registry object is not the one in force, so a change of that registry is
    not seen through the default context in the scope. *)
Theorem C105_installed_refuted :
  ~ (forall h m c m' prev,
       set_scoped heap ctxmap cm_neq h m (scoped_map c) = Some (m', prev) ->
       fst (get_default_context Arbitrary m') = c).
Proof.
  intros X. specialize (X h0 (scoped_map ca) ca' _ _ eq_refl). discriminate X.
Qed.
Theorem C105_changes_seen_refuted :
  ~ (forall h m c m' prev v p,
       set_scoped heap ctxmap cm_neq h m (scoped_map c) = Some (m', prev) ->
       c_reg c = Some p -> p < length h ->
       deref (set_nth p v h) (c_reg (fst (get_default_context Arbitrary m'))) = Some v).
Proof.
  intros X. specialize (X h0 (scoped_map ca) ca' _ _ 99 2 eq_refl eq_refl ltac:(cbn; lia)).
  discriminate X.
Qed.

(** Reading the default context before anything was set stores Context{},
    whose registry is null; entering a scope with a context that differs only
    in its registry then dereferences that null pointer. *)
Theorem C105_scope_defined_refuted :
  ~ (forall os c h,
       (exists p, c_reg c = Some p /\ p < length h) ->
       set_scoped heap ctxmap cm_neq h (dstate os []) (scoped_map c) <> None).
Proof.
  intros X. apply (X [DGet FermiDirac] (mkCtx 0 (Some 0) 0) h0).
  - exists 0. split; [reflexivity|cbn; lia].
  - reflexivity.
Qed.

(** *** Histories *)
Example ex_history :
  drun [DGet FermiDirac; DSet Arbitrary ca; DGet BoseEinstein;
        DSetMap [(FermiDirac, cb); (BoseEinstein, ca')]; DGet BoseEinstein;
        DGet Arbitrary; DClear; DGet FermiDirac] []
  = [Some ctx_default; None; Some ca; None; Some ca'; Some ca; None; Some ctx_default].
Proof. reflexivity. Qed.

(** *** Registries *)
Definition rsv (l : nat) : bool := l =? 7.
Example ex_registry :
  let os := [RNew; RAdd 0 1 Gen; RAddH 0 2 Ex AntiHermitian; RAdd 0 7 Gen; RAdd 0 1 Ex;
             RCopy 0; RClone 0; RSet 1 1 NonHermitian; RHerm 0 1; RHerm 2 1;
             RRemove 0 2; RAdd 1 2 Ex; RHerm 0 2; RHerm 2 2; RMoveAssign 2 0; RHerm 2 1;
             RPurge 2; RContains 1 1; RContains 0 1] in
  no_from os /\
  rrun rsv os rinit =
  [Some ODone; Some ODone; Some ODone; Some OExc; Some OExc; Some ODone; Some ODone;
   Some ODone; Some (OHerm NonHermitian); Some (OHerm Hermitian);
   Some ODone; Some ODone; Some (OHerm NonHermitian); Some (OHerm AntiHermitian);
   Some ODone; Some (OHerm NonHermitian); Some ODone; Some (OBool false); None].
Proof.
  split; [|reflexivity]. intros i Hi. cbn in Hi.
  repeat (destruct Hi as [Hi|Hi]; [discriminate|]). exact Hi.
Qed.

(** Two registries made of the same map have separate overrides: a removal
    through one leaves the override in the other, which still reports a
    Hermiticity for an operator that is not registered and gives the stale
    value to an operator added later under that label. *)
Theorem C107_shared_map_refuted :
  ~ (forall os s i l, rfinal rsv os rinit = Some s ->
       rstep rsv (RContains i l) s = Some (OBool false, s) ->
       rstep rsv (RHerm i l) s = Some (OExc, s)).
Proof.
  intros X.
  specialize (X [RNew; RAdd 0 1 Gen; RFrom 0; RSet 1 1 AntiHermitian; RRemove 0 1] _ 1 1
                eq_refl eq_refl).
  discriminate X.
Qed.
Theorem C107_stale_override_refuted :
  ~ (forall os s s' i j l c, rfinal rsv os rinit = Some s ->
       rstep rsv (RContains j l) s = Some (OBool false, s) ->
       rstep rsv (RAdd i l c) s = Some (ODone, s') ->
       rstep rsv (RContains j l) s' = Some (OBool true, s') ->
       rstep rsv (RHerm j l) s' = Some (OHerm (default_hermiticity c), s')).
Proof.
  intros X.
  specialize (X [RNew; RAdd 0 1 Gen; RFrom 0; RSet 1 1 AntiHermitian; RRemove 0 1] _ _ 0 1 1 Ex
                eq_refl eq_refl eq_refl eq_refl).
  discriminate X.
Qed.

(** The converse of [C107_equal_registries_answer_alike] fails: an override
    that repeats the default makes registries differ that answer alike. *)
Theorem C107_equality_complete_refuted :
  ~ (forall os s i j, rfinal rsv os rinit = Some s ->
       (forall l, (exists b, rstep rsv (RContains i l) s = Some (OBool b, s) /\
                             rstep rsv (RContains j l) s = Some (OBool b, s)) /\
                  (exists r, rstep rsv (RClass i l) s = Some (r, s) /\
                             rstep rsv (RClass j l) s = Some (r, s)) /\
                  (exists r, rstep rsv (RHerm i l) s = Some (r, s) /\
                             rstep rsv (RHerm j l) s = Some (r, s))) ->
       reg_eq i j s = Some true).
Proof.
  intros X.
  specialize (X [RNew; RNew; RAdd 0 1 Gen; RAddH 1 1 Gen Hermitian] _ 0 1 eq_refl).
  assert (Y : reg_eq 0 1 (mkRS [[(1, Gen)]; [(1, Gen)]] [[]; [(1, Hermitian)]]
                 [mkReg (Some 0) (Some 0); mkReg (Some 1) (Some 1)]) = Some false)
    by reflexivity.
  cbn in X. unfold reg_eq in Y. cbn in Y.
  cut (Some false = Some true); [discriminate|]. apply X.
  intros l. destruct l as [|[|l]]; cbn; repeat split; eauto.
Qed.

Example ex_equal :
  exists s, rfinal rsv [RNew; RNew; RAddH 0 1 Gen AntiHermitian; RAdd 0 2 Ex; RAdd 1 2 Ex;
                        RAddH 1 1 Gen AntiHermitian] rinit = Some s /\
            reg_eq 0 1 s = Some true.
Proof. eexists. split; reflexivity. Qed.
End CtxExamples.
