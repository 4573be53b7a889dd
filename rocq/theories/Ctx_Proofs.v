(** * Proofs about default contexts, scopes and operator registries *)
From Coq Require Import List Arith Bool Lia.
From Verif Require Import Ctx_Model Ctx_Spec.
Import ListNotations.

(** ** Scopes *)
Section Scoped.
Variables H C : Type.
Variable neq : H -> C -> C -> option bool.
Let exec := exec H C neq.

Lemma scope_restores : forall f body p h c r,
  neq h c (f h c) = Some true ->
  exec (PScope f body p) h c = Some r ->
  exists rb,
    exec body h (f h c) = Some rb /\
    (if r_throw rb
     then r_throw r = true /\ r_ctx r = c /\ r_heap r = r_heap rb /\ r_obs r = r_obs rb
     else exists rp, exec p (r_heap rb) c = Some rp /\
          r_throw r = r_throw rp /\ r_ctx r = r_ctx rp /\ r_heap r = r_heap rp /\
          r_obs r = r_obs rb ++ r_obs rp).
Proof.
  intros f body p h c r Hn. unfold exec. cbn [Ctx_Model.exec].
  unfold set_scoped. rewrite Hn.
  destruct (Ctx_Model.exec H C neq body h (f h c)) as [rb|]; [|discriminate].
  intros E. exists rb. split; [reflexivity|].
  unfold resetter_dtor in E. cbn [r_throw r_heap r_ctx r_obs] in E.
  destruct (r_throw rb) eqn:Et.
  - inversion E; subst; cbn. auto.
  - destruct (Ctx_Model.exec H C neq p (r_heap rb) c) as [rp|]; [|discriminate].
    cbn in E. inversion E; subst; cbn. exists rp; auto.
Qed.

Lemma scopes_only_restores : forall p, scopes_only p ->
  forall h c r, exec p h c = Some r -> r_ctx r = c.
Proof.
  induction p as [|g p IH|f p IH|p IH| |f body IHb p IH]; cbn [scopes_only]; intros S h c r.
  - intros E; inversion E; reflexivity.
  - contradiction.
  - unfold exec; cbn. apply IH; assumption.
  - unfold exec in *; cbn. specialize (IH S h c).
    destruct (Ctx_Model.exec H C neq p h c) as [r'|]; [|discriminate].
    intros E. inversion E; subst; cbn. apply IH; reflexivity.
  - intros E; inversion E; reflexivity.
  - destruct S as [Sb Sp]. unfold exec in *; cbn.
    destruct (set_scoped H C neq h c (f h c)) as [[c' prev]|] eqn:Es; [|discriminate].
    specialize (IHb Sb h c').
    destruct (Ctx_Model.exec H C neq body h c') as [rb|]; [|discriminate].
    specialize (IHb rb eq_refl).
    assert (Ec : r_ctx (resetter_dtor prev rb) = c).
    { unfold set_scoped in Es. destruct (neq h c (f h c)) as [[|]|]; [| |discriminate];
        inversion Es; subst; cbn; congruence. }
    destruct (r_throw (resetter_dtor prev rb)).
    + intros E; injection E as <-; exact Ec.
    + rewrite Ec. specialize (IH Sp (r_heap (resetter_dtor prev rb)) c).
      destruct (Ctx_Model.exec H C neq p (r_heap (resetter_dtor prev rb)) c) as [rp|];
        [|discriminate].
      intros E. inversion E; subst; cbn. apply IH; reflexivity.
Qed.
End Scoped.

(** ** Default contexts *)
Inductive sorted : ctxmap -> Prop :=
| so_nil : sorted []
| so_cons k c m : (forall k' c', In (k', c') m -> k < k') -> sorted m -> sorted ((k, c) :: m).

Lemma cm_find_set : forall m s c s',
  cm_find s' (cm_set s c m) = if s =? s' then Some c else cm_find s' m.
Proof.
  induction m as [|[k d] m IH]; intros s c s'.
  - cbn. reflexivity.
  - cbn [cm_set]. destruct (Nat.eqb_spec s k) as [->|N].
    + cbn. destruct (k =? s'); reflexivity.
    + destruct (s <? k).
      * cbn. reflexivity.
      * cbn [cm_find]. rewrite IH.
        destruct (Nat.eqb_spec k s') as [->|N'].
        -- destruct (Nat.eqb_spec s s'); [congruence|reflexivity].
        -- reflexivity.
Qed.

Lemma cm_find_set_map : forall l m s,
  cm_find s (set_default_contexts l m) =
  match find (fun e => fst e =? s) (rev l) with
  | Some e => Some (snd e)
  | None => cm_find s m
  end.
Proof.
  intros l m s. unfold set_default_contexts. rewrite <- fold_left_rev_right.
  induction (rev l) as [|[k c] t IH]; cbn [fold_right find]; [reflexivity|].
  cbn [fst snd]. unfold set_default_context at 1. rewrite cm_find_set.
  destruct (k =? s); [reflexivity|exact IH].
Qed.

(** The map after a history, seen through [cm_find]: the entry for Arbitrary
    may have been made by a call of get_default_context. *)
Definition tracks (hist : list dop) (m : ctxmap) : Prop :=
  (forall s, s <> Arbitrary -> cm_find s m = last_given s hist) /\
  (cm_find Arbitrary m = last_given Arbitrary hist \/
   last_given Arbitrary hist = None /\ cm_find Arbitrary m = Some ctx_default).

Lemma get_arbitrary_ok : forall hist m, tracks hist m ->
  fst (get_arbitrary m) = match last_given Arbitrary hist with
                          | Some c => c | None => ctx_default end /\
  tracks hist (snd (get_arbitrary m)).
Proof.
  intros hist m [T1 T2]. unfold get_arbitrary.
  destruct (cm_find Arbitrary m) as [c|] eqn:E.
  - destruct T2 as [T2|[T2 T3]].
    + rewrite <- T2. cbn. split; [reflexivity|]. split; [assumption|]. left; congruence.
    + inversion T3; subst. rewrite T2. cbn. split; [reflexivity|]. split; [assumption|]. right; auto.
  - destruct T2 as [T2|[_ T3]]; [|discriminate].
    rewrite <- T2. unfold set_default_context. rewrite cm_find_set, Nat.eqb_refl. cbn.
    split; [reflexivity|]. split.
    + intros s Hs. rewrite cm_find_set. destruct (Nat.eqb_spec Arbitrary s); [congruence|auto].
    + right. split; [auto|]. rewrite cm_find_set, Nat.eqb_refl. reflexivity.
Qed.

Lemma get_ok : forall hist m s, tracks hist m ->
  fst (get_default_context s m) = promised s hist /\
  tracks hist (snd (get_default_context s m)).
Proof.
  intros hist m s T. unfold get_default_context, promised.
  destruct (Nat.eqb_spec s Arbitrary) as [->|N].
  - destruct (get_arbitrary_ok hist m T) as [A B]. split; [|exact B]. rewrite A.
    destruct (last_given Arbitrary hist); reflexivity.
  - destruct T as [T1 T2] eqn:ET. rewrite (T1 s N).
    destruct (last_given s hist); [cbn; split; auto|].
    apply get_arbitrary_ok. split; assumption.
Qed.

Lemma step_tracks : forall o hist m, tracks hist m -> tracks (o :: hist) (snd (dstep o m)).
Proof.
  intros [s c|l| |s] hist m T.
  - destruct T as [T1 T2]. cbn. unfold set_default_context. split.
    + intros s' Hs'. rewrite cm_find_set. cbn. destruct (s =? s'); [reflexivity|auto].
    + rewrite cm_find_set. cbn. destruct (s =? Arbitrary); [left; reflexivity|assumption].
  - destruct T as [T1 T2]. cbn. split.
    + intros s' Hs'. rewrite cm_find_set_map. cbn [last_given].
      destruct (find (fun e => fst e =? s') (rev l)); [reflexivity|auto].
    + rewrite cm_find_set_map. cbn [last_given].
      destruct (find (fun e => fst e =? Arbitrary) (rev l)); [left; reflexivity|assumption].
  - cbn. split; [reflexivity|left; reflexivity].
  - cbn [dstep]. destruct (get_default_context s m) as [c m'] eqn:E. cbn.
    pose proof (proj2 (get_ok hist m s T)) as T'. rewrite E in T'. exact T'.
Qed.

Lemma dstate_tracks : forall os hist m, tracks hist m -> tracks (rev os ++ hist) (dstate os m).
Proof.
  induction os as [|o os IH]; intros hist m T; [exact T|].
  cbn [dstate rev]. rewrite <- app_assoc. apply IH. apply step_tracks; assumption.
Qed.

Lemma tracks_nil : tracks [] [].
Proof. split; [reflexivity|left; reflexivity]. Qed.

(** *** Comparison of the maps *)
Lemma ctx_eq_same : forall h a b, ctx_eq h a b = Some true -> ctx_same h a b.
Proof.
  intros h a b. unfold ctx_eq, ctx_same.
  destruct (Nat.eqb_spec (c_before a) (c_before b)); [|discriminate].
  destruct (deref h (c_reg a)) as [x|]; [|discriminate].
  destruct (deref h (c_reg b)) as [y|]; [|discriminate].
  intros E. inversion E as [E1]. apply andb_prop in E1. destruct E1 as [E1 E2].
  apply Nat.eqb_eq in E1, E2. subst y. eauto.
Qed.

Lemma ctx_eq_complete : forall h a b, ctx_same h a b -> ctx_eq h a b = Some true.
Proof.
  intros h a b (A & B & x & X & Y). unfold ctx_eq. rewrite A, Nat.eqb_refl, X, Y, B, !Nat.eqb_refl.
  reflexivity.
Qed.

Lemma cm_equal_find : forall h m1 m2, cm_equal h m1 m2 = Some true ->
  forall s, match cm_find s m1, cm_find s m2 with
            | Some a, Some b => ctx_same h a b
            | None, None => True
            | _, _ => False
            end.
Proof.
  induction m1 as [|[k a] m1 IH]; intros [|[k2 b] m2]; cbn; try discriminate; [intros; exact I|].
  destruct (Nat.eqb_spec k k2) as [->|]; [|discriminate].
  destruct (ctx_eq h a b) as [[|]|] eqn:E; try discriminate.
  intros Q s. destruct (k2 =? s); [apply ctx_eq_same; assumption|apply IH; assumption].
Qed.

(** What get_default_context finds in a map *)
Lemma get_found : forall s m, fst (get_default_context s m) =
  match cm_find s m with
  | Some c => c
  | None => match cm_find Arbitrary m with Some c => c | None => ctx_default end
  end.
Proof.
  intros s m. unfold get_default_context, get_arbitrary.
  destruct (Nat.eqb_spec s Arbitrary) as [->|N].
  - destruct (cm_find Arbitrary m); [reflexivity|].
    unfold set_default_context. rewrite cm_find_set, Nat.eqb_refl. reflexivity.
  - destruct (cm_find s m); [reflexivity|].
    destruct (cm_find Arbitrary m); [reflexivity|].
    unfold set_default_context. rewrite cm_find_set, Nat.eqb_refl. reflexivity.
Qed.

Lemma scoped_get : forall h m new m' prev,
  set_scoped heap ctxmap cm_neq h m new = Some (m', prev) ->
  cm_find Arbitrary new <> None ->
  forall s, let want := match cm_find s new with
                        | Some c => c
                        | None => match cm_find Arbitrary new with Some c => c | None => ctx_default end
                        end in
  fst (get_default_context s m') = want \/ ctx_same h (fst (get_default_context s m')) want.
Proof.
  intros h m new m' prev E HA s want. unfold set_scoped in E.
  rewrite get_found.
  destruct (cm_neq h m new) as [[|]|] eqn:En; [| |discriminate]; inversion E; subst.
  - left. reflexivity.
  - right. unfold cm_neq in En.
    destruct (length m' =? length new); [|discriminate].
    destruct (cm_equal h m' new) as [[|]|] eqn:Q; try discriminate.
    pose proof (cm_equal_find h m' new Q s) as F1.
    pose proof (cm_equal_find h m' new Q Arbitrary) as F2. unfold want.
    destruct (cm_find s m'), (cm_find s new); try contradiction; [assumption|].
    destruct (cm_find Arbitrary m'), (cm_find Arbitrary new); try contradiction; congruence.
Qed.

(** ** Operator registries *)
Lemma nth_set_nth : forall A (l : list A) n m a,
  nth_error (set_nth n a l) m =
  if n =? m then (if n <? length l then Some a else None) else nth_error l m.
Proof.
  intros A l. induction l as [|x l IH]; intros n m a.
  - unfold set_nth. rewrite firstn_nil, skipn_nil. cbn.
    destruct m; destruct (n =? _); reflexivity.
  - destruct n as [|n].
    + unfold set_nth. cbn. destruct m; reflexivity.
    + destruct m as [|m].
      * reflexivity.
      * change (nth_error (set_nth n a l) m =
                if n =? m then (if S n <? S (length l) then Some a else None) else nth_error l m).
        rewrite IH. reflexivity.
Qed.

Lemma set_nth_length : forall A (l : list A) n a, length (set_nth n a l) = length l.
Proof.
  intros A l. induction l as [|x l IH]; intros [|n] a; unfold set_nth in *; cbn; auto.
Qed.

Lemma map_set_nth : forall A B (f : A -> B) (l : list A) n a,
  map f (set_nth n a l) = set_nth n (f a) (map f l).
Proof.
  intros A B f l n a. unfold set_nth. rewrite map_app, firstn_map, skipn_map.
  destruct (skipn n l); reflexivity.
Qed.

Lemma lfind_erase : forall A (m : list (nat * A)) l k,
  lfind k (lerase l m) = if k =? l then None else lfind k m.
Proof.
  induction m as [|[x a] m IH]; intros l k.
  - cbn. destruct (k =? l); reflexivity.
  - unfold lerase in *. cbn [filter fst].
    destruct (Nat.eqb_spec x l) as [->|N]; cbn [negb lfind].
    + rewrite IH. destruct (Nat.eqb_spec k l) as [->|]; [reflexivity|].
      destruct (Nat.eqb_spec l k); [congruence|reflexivity].
    + rewrite IH. destruct (Nat.eqb_spec x k) as [->|]; [|reflexivity].
      destruct (Nat.eqb_spec k l); [congruence|reflexivity].
Qed.
Lemma lfind_insert : forall A (m : list (nat * A)) l a k,
  lfind k (linsert l a m) = if k =? l then Some a else lfind k m.
Proof.
  intros. unfold linsert. cbn. rewrite lfind_erase, (Nat.eqb_sym l k).
  destruct (k =? l); reflexivity.
Qed.
Lemma lfind_emplace : forall A (m : list (nat * A)) l a k, lfind l m = None ->
  lfind k (lemplace l a m) = if k =? l then Some a else lfind k m.
Proof.
  intros A m l a k E. unfold lemplace. rewrite E. cbn. rewrite (Nat.eqb_sym l k). reflexivity.
Qed.

(** The dictionary that two maps stand for. *)
Definition abs (o : list (nat * opclass)) (h : list (nat * herm)) : dict :=
  fun l => match lfind l o with
           | None => None
           | Some c => Some (c, match lfind l h with
                                | Some x => x | None => default_hermiticity c end)
           end.

Definition abs_var (r : reg) : option nat := g_ops r.

Record rel (s : rstate) (d : dstore) : Prop := mkRel {
  rel_len : length (s_ops s) = length (s_herm s);
  rel_lend : length (d_dicts d) = length (s_ops s);
  rel_vars : d_vars d = map abs_var (s_vars s);
  rel_pair : forall r, In r (s_vars s) ->
    g_ops r = g_herm r /\ (forall p, g_ops r = Some p -> p < length (s_ops s));
  rel_dict : forall p o h dd, nth_error (s_ops s) p = Some o ->
    nth_error (s_herm s) p = Some h -> nth_error (d_dicts d) p = Some dd ->
    (forall l, dd l = abs o h l) /\
    (forall l, lfind l h <> None -> lfind l o <> None) }.

Lemma rel_init : rel rinit spec_init.
Proof.
  constructor; cbn; auto.
  - intros r [].
  - intros [|p]; discriminate.
Qed.

Lemma nth_some : forall A (l : list A) n, n < length l -> exists a, nth_error l n = Some a.
Proof.
  intros A l n L. destruct (nth_error l n) eqn:E; [eauto|].
  apply nth_error_None in E. lia.
Qed.

Lemma maps_of_rel : forall s d i, rel s d ->
  match maps_of i s, dict_of i d with
  | Some (p, o, q, h), Some (p', dd) =>
      p = q /\ p' = p /\ nth_error (s_ops s) p = Some o /\ nth_error (s_herm s) p = Some h /\
      nth_error (d_dicts d) p = Some dd /\
      (forall l, dd l = abs o h l) /\ (forall l, lfind l h <> None -> lfind l o <> None)
  | None, None => True
  | _, _ => False
  end.
Proof.
  intros s d i [L LD V P D]. unfold maps_of, dict_of. rewrite V, nth_error_map.
  destruct (nth_error (s_vars s) i) as [[a b]|] eqn:E; [|exact I].
  pose proof (P _ (nth_error_In _ _ E)) as [P1 P2]. cbn in P1, P2. subst b.
  cbn. destruct a as [p|]; [|exact I].
  specialize (P2 p eq_refl).
  destruct (nth_some _ (s_ops s) p P2) as [o Eo].
  destruct (nth_some _ (s_herm s) p ltac:(lia)) as [h Eh].
  destruct (nth_some _ (d_dicts d) p ltac:(lia)) as [dd Ed].
  rewrite Eo, Eh, Ed.
  pose proof (D p o h dd Eo Eh Ed) as [D1 D2]. repeat split; auto.
Qed.

(** changing the maps at [p] *)
Lemma rel_put : forall s d p o h dd,
  rel s d -> p < length (s_ops s) ->
  (forall l, dd l = abs o h l) -> (forall l, lfind l h <> None -> lfind l o <> None) ->
  rel (mkRS (set_nth p o (s_ops s)) (set_nth p h (s_herm s)) (s_vars s)) (put_dict p dd d).
Proof.
  intros s d p o h dd [L LD V P D] Lp A B. unfold put_dict.
  constructor; cbn [s_ops s_herm s_vars d_dicts d_vars]; rewrite ?set_nth_length; auto.
  intros p' o' h' dd'. rewrite !nth_set_nth. destruct (Nat.eqb_spec p p') as [->|N].
  - assert (p' <? length (s_ops s) = true) as X1 by (apply Nat.ltb_lt; lia).
    rewrite <- L, LD, X1. intros X Y Z. inversion X; inversion Y; inversion Z; subst. auto.
  - apply D.
Qed.

Lemma rel_vars_only : forall s d v dv,
  rel s d -> dv = map abs_var v ->
  (forall r, In r v -> In r (s_vars s) \/ r = mkReg None None) ->
  rel (mkRS (s_ops s) (s_herm s) v) (put_vars dv d).
Proof.
  intros s d v dv [L LD V P D] -> Hin.
  constructor; cbn; auto.
  intros r Hr. destruct (Hin r Hr) as [X| ->]; [auto|]. cbn. split; [reflexivity|discriminate].
Qed.

Lemma in_set_nth : forall A (l : list A) n a x, In x (set_nth n a l) -> x = a \/ In x l.
Proof.
  intros A l n a x. unfold set_nth. rewrite in_app_iff. intros [X|X].
  - right. rewrite <- (firstn_skipn n l). apply in_or_app; auto.
  - destruct (skipn n l) as [|y t] eqn:E; [contradiction|].
    destruct X as [<-|X]; [auto|]. right. rewrite <- (firstn_skipn n l), E.
    apply in_or_app; right; right; assumption.
Qed.

Lemma rel_fresh : forall s d o h dd,
  rel s d -> (forall l, dd l = abs o h l) -> (forall l, lfind l h <> None -> lfind l o <> None) ->
  rel (mkRS (s_ops s ++ [o]) (s_herm s ++ [h])
            (s_vars s ++ [mkReg (Some (length (s_ops s))) (Some (length (s_herm s)))]))
      (mkDS (d_dicts d ++ [dd]) (d_vars d ++ [Some (length (d_dicts d))])).
Proof.
  intros s d o h dd [L LD V P D] A B.
  constructor; cbn [s_ops s_herm s_vars d_dicts d_vars]; rewrite ?app_length; cbn; try lia.
  - rewrite map_app, V. cbn. rewrite LD. reflexivity.
  - intros r Hr. apply in_app_iff in Hr. destruct Hr as [Hr|[<-|[]]].
    + destruct (P r Hr) as [P1 P2]. split; [assumption|]. intros p Hp. specialize (P2 p Hp). lia.
    + cbn. split; [congruence|]. intros p Hp. inversion Hp. lia.
  - intros p o' h' dd'.
    destruct (lt_eq_lt_dec p (length (s_ops s))) as [[X|X]|X].
    + rewrite !nth_error_app1 by lia. apply D.
    + subst p. rewrite (nth_error_app2 (s_ops s)), (nth_error_app2 (s_herm s)), (nth_error_app2 (d_dicts d)) by lia.
      rewrite L, LD, <- L, !Nat.sub_diag. cbn. intros X Y Z.
      inversion X; inversion Y; inversion Z; subst. auto.
    + intros Y. assert (nth_error (s_ops s ++ [o]) p <> None) as Y' by congruence.
      apply nth_error_Some in Y'. rewrite app_length in Y'. cbn in Y'. lia.
Qed.

Section Reg.
Variable reserved : nat -> bool.

Lemma step_rel : forall op s d, rel s d -> (forall i, op <> RFrom i) ->
  match rstep reserved op s, spec_step reserved op d with
  | Some (r, s'), Some (r', d') => r = r' /\ rel s' d'
  | None, None => True
  | _, _ => False
  end.
Proof.
  intros op s d R NF.
  pose proof (rel_len _ _ R) as RL. pose proof (rel_lend _ _ R) as RLD.
  pose proof (rel_vars _ _ R) as RV.
  assert (bound : forall A (l : list A) n a, nth_error l n = Some a -> n < length l).
  { intros A l n a E. apply nth_error_Some. congruence. }
  assert (setsame : forall A (l : list A) n a, nth_error l n = Some a -> set_nth n a l = l).
  { intros A l. induction l as [|x l IH]; intros [|n] a E; cbn in E; try discriminate.
    - inversion E; reflexivity.
    - unfold set_nth. cbn. f_equal. apply IH. assumption. }
  destruct op as [|i|i|i|i|i j|i j|i l c|i l c h|i l h|i l|i|i l|i l|i l];
    cbn [rstep spec_step].
  - split; [reflexivity|]. apply rel_fresh; auto.
  - exfalso. apply (NF i); reflexivity.
  - rewrite RV, nth_error_map. destruct (nth_error (s_vars s) i) as [r|] eqn:E; [|exact I].
    cbn [option_map]. split; [reflexivity|]. apply rel_vars_only; auto.
    + rewrite map_app. reflexivity.
    + intros r' Hr'. apply in_app_iff in Hr'. destruct Hr' as [X|[<-|[]]]; [auto|].
      left. eapply nth_error_In; eauto.
  - rewrite RV, nth_error_map. destruct (nth_error (s_vars s) i) as [r|] eqn:E; [|exact I].
    cbn [option_map]. split; [reflexivity|]. apply rel_vars_only; auto.
    + rewrite map_app, map_set_nth. reflexivity.
    + intros r' Hr'. apply in_app_iff in Hr'. destruct Hr' as [X|[<-|[]]].
      * apply in_set_nth in X. tauto.
      * left. eapply nth_error_In; eauto.
  - pose proof (maps_of_rel s d i R) as M.
    destruct (maps_of i s) as [[[[p o] q] h]|], (dict_of i d) as [[p' dd]|]; try contradiction; [|exact I].
    destruct M as (-> & -> & _ & _ & _ & A & B).
    split; [reflexivity|]. apply rel_fresh; assumption.
  - rewrite RV, !nth_error_map. destruct (nth_error (s_vars s) i) as [r0|] eqn:E0; [|exact I].
    destruct (nth_error (s_vars s) j) as [r|] eqn:E; [|exact I].
    cbn [option_map]. split; [reflexivity|]. apply rel_vars_only; auto.
    + rewrite map_set_nth. reflexivity.
    + intros r' Hr'. apply in_set_nth in Hr'. destruct Hr' as [->|X]; [|auto].
      left. eapply nth_error_In; eauto.
  - rewrite RV, !nth_error_map. destruct (nth_error (s_vars s) i) as [r0|] eqn:E0; [|exact I].
    destruct (nth_error (s_vars s) j) as [r|] eqn:E; [|exact I].
    cbn [option_map]. split; [reflexivity|]. apply rel_vars_only; auto.
    + rewrite !map_set_nth. reflexivity.
    + intros r' Hr'. apply in_set_nth in Hr'. destruct Hr' as [->|X].
      * left. eapply nth_error_In; eauto.
      * apply in_set_nth in X. tauto.
  - pose proof (maps_of_rel s d i R) as M.
    destruct (maps_of i s) as [[[[p o] q] h]|], (dict_of i d) as [[p' dd]|]; try contradiction; [|exact I].
    destruct M as (<- & -> & Eo & Eh & Ed & A & B).
    destruct (reserved l); [auto|]. rewrite A. unfold abs at 1.
    destruct (lfind l o) as [c0|] eqn:El; [auto|].
    split; [reflexivity|].
    rewrite <- (setsame _ (s_herm s) p h Eh). apply rel_put; eauto.
    + intros k. unfold dput, abs. rewrite lfind_emplace by assumption.
      destruct (Nat.eqb_spec k l) as [->|]; [|apply A].
      destruct (lfind l h) eqn:Ehl; [|destruct c; reflexivity].
      exfalso. apply (B l); congruence.
    + intros k Hk. rewrite lfind_emplace by assumption. destruct (k =? l); [discriminate|auto].
  - pose proof (maps_of_rel s d i R) as M.
    destruct (maps_of i s) as [[[[p o] q] h0]|], (dict_of i d) as [[p' dd]|]; try contradiction; [|exact I].
    destruct M as (<- & -> & Eo & Eh & Ed & A & B).
    destruct (reserved l); [auto|]. rewrite A. unfold abs at 1.
    destruct (lfind l o) as [c0|] eqn:El; [auto|].
    split; [reflexivity|]. apply rel_put; eauto.
    + intros k. unfold dput, abs. rewrite lfind_emplace, lfind_insert by assumption.
      destruct (Nat.eqb_spec k l) as [->|]; [reflexivity|apply A].
    + intros k. rewrite lfind_emplace, lfind_insert by assumption. destruct (k =? l); [discriminate|auto].
  - pose proof (maps_of_rel s d i R) as M.
    destruct (maps_of i s) as [[[[p o] q] h0]|], (dict_of i d) as [[p' dd]|]; try contradiction; [|exact I].
    destruct M as (<- & -> & Eo & Eh & Ed & A & B).
    rewrite A. unfold abs at 1.
    destruct (lfind l o) as [c0|] eqn:El; [|auto].
    split; [reflexivity|]. rewrite <- (setsame _ (s_ops s) p o Eo) at 1. apply rel_put; eauto.
    + intros k. unfold dput, abs. rewrite lfind_insert.
      destruct (Nat.eqb_spec k l) as [->|]; [rewrite El; reflexivity|apply A].
    + intros k. rewrite lfind_insert. destruct (Nat.eqb_spec k l) as [->|]; [congruence|auto].
  - pose proof (maps_of_rel s d i R) as M.
    destruct (maps_of i s) as [[[[p o] q] h0]|], (dict_of i d) as [[p' dd]|]; try contradiction; [|exact I].
    destruct M as (<- & -> & Eo & Eh & Ed & A & B).
    rewrite A. unfold abs at 1.
    destruct (lfind l o) as [c0|] eqn:El; [|auto].
    split; [reflexivity|]. apply rel_put; eauto.
    + intros k. unfold dput, abs. rewrite !lfind_erase.
      destruct (Nat.eqb_spec k l) as [->|]; [reflexivity|apply A].
    + intros k. rewrite !lfind_erase. destruct (k =? l); auto.
  - pose proof (maps_of_rel s d i R) as M.
    destruct (maps_of i s) as [[[[p o] q] h0]|], (dict_of i d) as [[p' dd]|]; try contradiction; [|exact I].
    destruct M as (<- & -> & Eo & Eh & Ed & A & B).
    split; [reflexivity|]. apply rel_put; eauto.
  - pose proof (maps_of_rel s d i R) as M.
    destruct (maps_of i s) as [[[[p o] q] h0]|], (dict_of i d) as [[p' dd]|]; try contradiction; [|exact I].
    destruct M as (<- & -> & Eo & Eh & Ed & A & B).
    rewrite A. unfold abs. destruct (lfind l o); auto.
  - pose proof (maps_of_rel s d i R) as M.
    destruct (maps_of i s) as [[[[p o] q] h0]|], (dict_of i d) as [[p' dd]|]; try contradiction; [|exact I].
    destruct M as (<- & -> & Eo & Eh & Ed & A & B).
    rewrite A. unfold abs. destruct (lfind l o); auto.
  - pose proof (maps_of_rel s d i R) as M.
    destruct (maps_of i s) as [[[[p o] q] h0]|], (dict_of i d) as [[p' dd]|]; try contradiction; [|exact I].
    destruct M as (<- & -> & Eo & Eh & Ed & A & B).
    rewrite A. unfold abs. specialize (B l).
    destruct (lfind l h0), (lfind l o); auto. exfalso; apply B; congruence.
Qed.

Lemma run_rel : forall os s d, rel s d -> no_from os ->
  rrun reserved os s = spec_run reserved os d.
Proof.
  induction os as [|op os IH]; intros s d R NF; [reflexivity|].
  cbn [rrun spec_run].
  assert (N1 : forall i, op <> RFrom i) by (intros i ->; apply (NF i); left; reflexivity).
  assert (N2 : no_from os) by (intros i Hi; apply (NF i); right; assumption).
  pose proof (step_rel op s d R N1) as S.
  destruct (rstep reserved op s) as [[r s']|], (spec_step reserved op d) as [[r' d']|]; try contradiction.
  - destruct S as [-> R']. f_equal. apply IH; assumption.
  - reflexivity.
Qed.
End Reg.

(** *** Equality *)
Lemma map_eqb_find : forall A (e : A -> A -> bool) (m1 m2 : list (nat * A)),
  (forall a b, e a b = true -> a = b) -> map_eqb e m1 m2 = true ->
  forall l, lfind l m1 = lfind l m2.
Proof.
  intros A e m1 m2 He Hm l. unfold map_eqb in Hm. rewrite forallb_forall in Hm.
  assert (NI : forall m : list (nat * A), ~ In l (map fst m) -> lfind l m = None).
  { induction m as [|[k a] m IH]; intros N; [reflexivity|]. cbn in *.
    destruct (Nat.eqb_spec k l); [exfalso; apply N; auto|apply IH; tauto]. }
  destruct (in_dec Nat.eq_dec l (map fst m1 ++ map fst m2)) as [X|X].
  - specialize (Hm l X). unfold opt_eqb in Hm.
    destruct (lfind l m1), (lfind l m2); try discriminate; [|reflexivity].
    f_equal. auto.
  - rewrite in_app_iff in X. rewrite !NI by tauto. reflexivity.
Qed.
Lemma opclass_eqb_eq : forall a b, opclass_eqb a b = true -> a = b.
Proof. intros [] []; cbn; congruence. Qed.
Lemma herm_eqb_eq : forall a b, herm_eqb a b = true -> a = b.
Proof. intros [] []; cbn; congruence. Qed.
