(** Evaluation computes the value of the tree, whatever consistent cache is supplied. *)
From Coq Require Import List ZArith Bool Arith Lia.
From Verif Require Import BT_Model Ev_Model Ev_Spec Ev_Proofs1 Ev_Proofs2.
Import ListNotations.
Local Open Scope Z_scope.

Lemma grows_refl : forall {V} (h : list V), grows h h.
Proof. intros V h a v H; auto. Qed.
Lemma grows_trans : forall {V} (h1 h2 h3 : list V), grows h1 h2 -> grows h2 h3 -> grows h1 h3.
Proof. intros V h1 h2 h3 A B a v H; auto. Qed.
Lemma grows_app : forall {V} (h t : list V), grows h (h ++ t).
Proof.
  intros V h t a v H. rewrite nth_error_app1; auto. apply nth_error_Some. congruence.
Qed.
Lemma nth_error_snoc : forall {V} (h : list V) v, nth_error (h ++ [v]) (length h) = Some v.
Proof. intros. rewrite nth_error_app2 by lia. rewrite Nat.sub_diag. reflexivity. Qed.

Lemma subtrees_self : forall {D} (t : tree D), In t (subtrees t).
Proof. destruct t; cbn; auto. Qed.
Lemma subtrees_left : forall {D} (root : tree D) d l r, In (Node d l r) (subtrees root) -> In l (subtrees root).
Proof.
  induction root as [d0|d0 l0 IHl r0 IHr]; intros d l r; cbn [subtrees In]; [intros [H|[]]; discriminate|].
  intros [H|H].
  - injection H as -> -> ->. right. apply in_app_iff. left. apply subtrees_self.
  - right. apply in_app_iff. apply in_app_iff in H. destruct H; eauto.
Qed.
Lemma subtrees_right : forall {D} (root : tree D) d l r, In (Node d l r) (subtrees root) -> In r (subtrees root).
Proof.
  induction root as [d0|d0 l0 IHl r0 IHr]; intros d l r; cbn [subtrees In]; [intros [H|[]]; discriminate|].
  intros [H|H].
  - injection H as -> -> ->. right. apply in_app_iff. right. apply subtrees_self.
  - right. apply in_app_iff. apply in_app_iff in H. destruct H; eauto.
Qed.
Lemma subtrees_trans : forall {D} (c a b : tree D), In a (subtrees b) -> In b (subtrees c) -> In a (subtrees c).
Proof.
  induction c as [d|d l IHl r IHr]; intros a b A B.
  - cbn in B. destruct B as [<-|[]]. auto.
  - cbn [subtrees In] in B. destruct B as [<-|B]; [auto|]. cbn [subtrees In]. right. apply in_app_iff.
    apply in_app_iff in B. destruct B; eauto.
Qed.

Lemma within_left : forall {D} (roots : list (tree D)) d l r, within roots (Node d l r) -> within roots l.
Proof. intros D roots d l r (x & I & J). exists x. split; auto. eapply subtrees_left; eauto. Qed.
Lemma within_right : forall {D} (roots : list (tree D)) d l r, within roots (Node d l r) -> within roots r.
Proof. intros D roots d l r (x & I & J). exists x. split; auto. eapply subtrees_right; eauto. Qed.

Section EvalValue.
  Context {D V : Type}.
  Variable peq : D -> D -> bool.
  Hypothesis EQ : equivb peq.
  Variable op_type : D -> eop.
  Variable canon_phase : D -> Z.
  Variable vsum vprod : D -> D -> D -> V -> V -> V.
  Variable vadj : D -> D -> V -> V.
  Variable vphase : Z -> V -> V.
  Notation est := (@est D V).
  Variable le : tree D -> list V -> nat * list V.
  Variable custom : option (tree D -> est -> option nat * est).
  Variable hook : tree D -> V -> V -> option V.
  Variable leafv : D -> V.

  Notation value := (value op_type vsum vprod vadj leafv).
  Notation canon_value := (canon_value op_type canon_phase vsum vprod vadj vphase leafv).
  Notation consistent := (consistent op_type canon_phase vsum vprod vadj vphase leafv).
  Notation big := (big peq op_type canon_phase vsum vprod vadj vphase le custom hook).
  Notation fin := (fin peq canon_phase vphase).

  Notation sound_state := (sound_state op_type canon_phase vsum vprod vadj vphase leafv).
  Variable roots : list (tree D).
  Variable K : list (tree D).
  Variable own : list (nat * V).
  Hypothesis KS : keys_sound op_type canon_phase vsum vprod vadj vphase leafv peq roots K.
  Hypothesis PH : forall d v, vphase (canon_phase d) (vphase (canon_phase d) v) = v.
  Hypothesis LE : leaf_evaluator_ok leafv roots own le.
  Hypothesis HK : hook_ok op_type vsum vprod vadj leafv roots hook.
  Hypothesis CU : forall ce, custom = Some ce -> custom_ok op_type canon_phase vsum vprod vadj vphase leafv roots K own ce.

  Notation ginv := (sound_state own K).

  Definition evo (s s' : est) : Prop :=
    grows (e_heap s) (e_heap s') /\ (forall p, private own p s -> private own p s').

  Lemma evo_refl : forall s, evo s s.
  Proof. intros s. split; [apply grows_refl|auto]. Qed.
  Lemma evo_trans : forall a b c, evo a b -> evo b c -> evo a c.
  Proof. intros a b c [A B] [C E]. split; [eapply grows_trans; eauto|auto]. Qed.

  Definition okres (v : V) (s : est) (x : option (option nat * est)) : Prop :=
    exists a s', x = Some (Some a, s') /\ evo s s' /\ ginv s' /\ nth_error (e_heap s') a = Some v /\
      (forall p, private own p s -> a <> p).

  Lemma okres_mono : forall v s0 s x, evo s0 s -> okres v s x -> okres v s0 x.
  Proof.
    intros v s0 s x G (a & s' & E & G' & I & N & P). exists a, s'. split; auto. split; [eapply evo_trans; eauto|].
    split; auto. split; auto. intros p Hp. apply P. apply G; auto.
  Qed.

  Lemma consistent_grows : forall h h' c, grows h h' -> consistent h c -> consistent h' c.
  Proof. intros h h' c G C k e I a E. apply G. eapply C; eauto. Qed.

  Lemma grows_length : forall h h' : list V, grows h h' -> (length h <= length h')%nat.
  Proof.
    intros h h' G. destruct (length h) eqn:L; [lia|]. destruct (nth_error h n) as [v|] eqn:N.
    - apply G in N. assert (n < length h')%nat by (apply nth_error_Some; congruence). lia.
    - apply nth_error_None in N. lia.
  Qed.

  Lemma ginv_heap : forall s h, ginv s -> grows (e_heap s) h -> ginv (mkest h (e_cache s) (e_log s)).
  Proof.
    intros s h (C & E & IT) G. split; [eapply consistent_grows; eauto|]. split; auto. intros a v I. apply G, IT, I.
  Qed.

  Lemma evo_heap : forall s h l, grows (e_heap s) h -> evo s (mkest h (e_cache s) l).
  Proof.
    intros s h l G. split; auto. intros p (A & B & C). split; [|split; auto]. apply grows_length in G. cbn. lia.
  Qed.

  Lemma alloc_ok : forall s v, ginv s -> evo s (snd (alloc s v)) /\ ginv (snd (alloc s v)) /\
    nth_error (e_heap (snd (alloc s v))) (fst (alloc s v)) = Some v /\ (forall p, private own p s -> fst (alloc s v) <> p).
  Proof.
    intros s v G. cbn. split; [apply evo_heap, grows_app|]. split; [apply ginv_heap; auto; apply grows_app|].
    split; [apply nth_error_snoc|]. intros p (A & _) <-. lia.
  Qed.

  Lemma ginv_logged : forall s n, ginv s -> ginv (logged s n).
  Proof. intros s n H. exact H. Qed.
  Lemma evo_logged : forall s n, evo s (logged s n).
  Proof. intros s n. apply evo_heap, grows_refl. Qed.

  Lemma apply_phase_ok : forall s0 n a s v, evo s0 s -> ginv s -> nth_error (e_heap s) a = Some v -> (forall p, private own p s0 -> a <> p) ->
    okres (if canon_phase (data n) =? 1 then v else vphase (canon_phase (data n)) v) s0
          (apply_phase canon_phase vphase n (Some a) s).
  Proof.
    intros s0 n a s v EV G H P. unfold apply_phase. destruct (canon_phase (data n) =? 1).
    - exists a, s. auto.
    - rewrite H. destruct (alloc s (vphase (canon_phase (data n)) v)) as [b s'] eqn:A.
      destruct (alloc_ok s (vphase (canon_phase (data n)) v) G) as (X & Y & Z & W). rewrite A in *.
      exists b, s'. split; auto. split; [eapply evo_trans; eauto|]. split; auto. split; auto.
      intros p Hp. apply W, EV, Hp.
  Qed.

  Lemma assign_in : forall (c : list (tree D * entry nat)) n e k x, In (k, x) (assign peq c n e) ->
    In (k, x) c \/ (x = e /\ node_eq peq k n = true /\ In k (map fst c)).
  Proof.
    induction c as [|[k0 e0] c IH]; intros n e k x I; cbn in *; [tauto|].
    destruct (node_eq peq k0 n) eqn:A; cbn in I; destruct I as [I|I].
    - injection I as <- <-. right. auto.
    - auto.
    - injection I as <- <-. auto.
    - destruct (IH _ _ _ _ I) as [?|(? & ? & ?)]; auto.
  Qed.

  Lemma access_ok : forall n s p c, within roots n -> ginv s -> cache_access peq (e_cache s) n = (p, c) ->
    ginv (with_cache s c) /\ evo s (with_cache s c) /\
    (forall a, p = Some a -> nth_error (e_heap s) a = Some (canon_value n) /\ (forall q, private own q s -> a <> q)).
  Proof.
    intros n s p c In_n (C & E & IT) A. unfold cache_access in A. destruct (find peq (e_cache s) n) as [e|] eqn:F.
    - destruct (entry_access e) as [p' e'] eqn:EA. injection A as <- <-.
      destruct (find_in peq _ _ _ F) as (k & Ik & Ek).
      assert (Kk : In k K). { rewrite <- E. apply in_map_iff. exists (k, e); auto. }
      assert (DP : forall a, data_p e = Some a -> nth_error (e_heap s) a = Some (canon_value n)).
      { intros a Da. rewrite <- (KS n k In_n Kk Ek). eapply C; eauto. }
      unfold entry_access, decay in EA.
      assert (S1 : (forall a, p' = Some a -> data_p e = Some a) /\ (forall a, data_p e' = Some a -> data_p e = Some a)).
      { destruct e as [em el [d|] eb ep]; cbn in *; [|injection EA as <- <-; cbn; auto].
        destruct ep; [injection EA as <- <-; cbn; auto|].
        destruct (0 <? el); [destruct (to_int (el - 1) =? 0)|]; cbn in EA; injection EA as <- <-; cbn; split; intros; congruence. }
      destruct S1 as [S1 S2]. split; [|split].
      + split; [|split; [cbn; rewrite assign_keys; auto|auto]].
        cbn. intros k' x I a Da. destruct (assign_in _ _ _ _ _ I) as [I'|(-> & Ek' & I')]; [eapply C; eauto|].
        rewrite E in I'. rewrite (KS n k' In_n I' Ek'). apply DP, S2, Da.
      + split; [apply grows_refl|]. intros q (A1 & A2 & A3). split; [auto|]. split; [auto|]. cbn.
        intros k' x I. destruct (assign_in _ _ _ _ _ I) as [I'|(-> & Ek' & I')]; [eapply A3; eauto|].
        intros Hq. apply (A3 k e Ik). apply S2, Hq.
      + intros a Ha. split; [apply DP, S1, Ha|]. intros q (A1 & A2 & A3) <-. apply (A3 k e Ik), S1, Ha.
    - injection A as <- <-. split; [split; auto|]. split; [|discriminate]. apply evo_heap, grows_refl.
  Qed.

  Lemma fin_ok : forall s0 n st a s, within roots n -> evo s0 s -> ginv s -> nth_error (e_heap s) a = Some (value n) ->
    (forall p, private own p s0 -> a <> p) -> okres (value n) s0 (fin n st (Some a) s).
  Proof.
    intros s0 n st a s In_n EV G H P. unfold Ev_Proofs2.fin, finish_phase_b. cbn [f_store f_node]. destruct st; cbn [negb].
    2: { exists a, s. auto. }
    destruct (apply_phase_ok s0 n a s _ EV G H P) as (p1 & s1 & E1 & G1 & I1 & N1 & P1). rewrite E1.
    fold (canon_value n) in N1. unfold cache_store.
    assert (BACK : forall s2, ginv s2 -> evo s0 s2 -> e_heap s2 = e_heap s1 ->
      okres (value n) s0 (apply_phase canon_phase vphase n (Some p1) s2)).
    { intros s2 I2 EV2 EH. rewrite <- EH in N1.
      destruct (apply_phase_ok s0 n p1 s2 _ EV2 I2 N1 P1) as (p2 & s3 & E2 & G2 & I2' & N2 & P2).
      exists p2, s3. rewrite E2. split; auto. split; auto. split; auto. split; [|auto].
      rewrite N2. unfold Ev_Spec.canon_value. destruct (canon_phase (data n) =? 1); [auto|]. rewrite PH. auto. }
    destruct (find peq (e_cache s1) n) as [e|] eqn:F.
    - destruct (entry_access (entry_store e (Some p1))) as [p' e'] eqn:EA.
      assert (S1 : p' = Some p1 /\ (forall b, data_p e' = Some b -> b = p1)).
      { unfold entry_access, entry_store, decay in EA. cbn in EA. destruct (persistent_ e); [injection EA as <- <-; cbn; split; congruence|].
        destruct (0 <? life_c e); [destruct (to_int (life_c e - 1) =? 0)|]; cbn in EA; injection EA as <- <-; cbn; split; intros; congruence. }
      destruct S1 as [-> S2]. destruct I1 as (C1 & K1 & IT1).
      apply BACK; auto.
      + split; [|split; [cbn; rewrite assign_keys; auto|auto]]. cbn. intros k' x I b Db.
        destruct (assign_in _ _ _ _ _ I) as [I'|(-> & Ek' & I')]; [eapply C1; eauto|].
        rewrite K1 in I'. rewrite (KS n k' In_n I' Ek'). apply S2 in Db. subst. auto.
      + split; [apply G1|]. intros q Hq. pose proof (proj2 G1 q Hq) as (A1 & A2 & A3). split; [auto|]. split; [auto|]. cbn.
        intros k' x I. destruct (assign_in _ _ _ _ _ I) as [I'|(-> & Ek' & I')]; [eapply A3; eauto|].
        intros Db. apply S2 in Db. apply (P1 q Hq). auto.
    - apply BACK; auto.
  Qed.

  Lemma checked_ok : forall n miss chk s, within roots n -> ginv s ->
    (forall st s, ginv s -> okres (value n) s (miss st s)) ->
    okres (value n) s (checked_of peq canon_phase vphase miss n chk s).
  Proof.
    intros n miss chk s In_n G H. unfold checked_of. destruct chk; [|auto].
    destruct (cache_access peq (e_cache s) n) as [p c] eqn:A. destruct (access_ok _ _ _ _ In_n G A) as (G1 & EV1 & P1).
    destruct p as [a|].
    - destruct (P1 a eq_refl) as [N1 Q1].
      destruct (apply_phase_ok s n a (with_cache s c) _ EV1 G1 N1 Q1) as (b & s' & E & G2 & I2 & N2 & Q2).
      exists b, s'. split; auto. split; auto. split; auto. split; [|auto]. rewrite N2. unfold Ev_Spec.canon_value.
      destruct (canon_phase (data n) =? 1); auto. rewrite PH. auto.
    - eapply okres_mono; [exact EV1|]. apply H; auto.
  Qed.

  Lemma big_ok : forall n chk s, within roots n -> ginv s -> okres (value n) s (big n chk s).
  Proof.
    induction n as [d|d l IHl r IHr]; intros chk s In_n G; cbn [Ev_Proofs2.big]; apply checked_ok; auto; clear chk s G; intros st s G.
    - unfold leaf_of. destruct (LE (Leaf d) (e_heap s) In_n eq_refl ltac:(apply G)) as (L1 & L2 & L3).
      destruct (le (Leaf d) (e_heap s)) as [a h]. cbn in L1, L2, L3.
      apply fin_ok; auto.
      + apply evo_heap; auto.
      + apply ginv_heap; auto.
      + intros p (A1 & A2 & A3) <-. destruct L3; [auto|lia].
    - assert (In_l := within_left _ _ _ _ In_n). assert (In_r := within_right _ _ _ _ In_n).
      assert (STD : forall s, ginv s -> okres (value (Node d l r)) s
        (std_of peq op_type canon_phase vsum vprod vadj vphase hook (big l true) (big r true) (Node d l r) d l r st s)).
      { clear s G. intros s G. unfold std_of.
        destruct (IHl true s In_l G) as (al & s1 & E1 & G1 & I1 & N1 & P1). rewrite E1.
        assert (BIN : op_type d <> OpAdjoint ->
          okres (value (Node d l r)) s
           match big r true s1 with
           | Some (rr, s2) =>
               match deref s2 (Some al), deref s2 rr with
               | Some vl, Some vr => let '(a, s3) := alloc s2 (binop op_type vsum vprod hook (Node d l r) d l r vl vr) in
                                     fin (Node d l r) st (Some a) (logged s3 (Node d l r))
               | _, _ => None
               end
           | None => None
           end).
        { intros Hop. destruct (IHr true s1 In_r I1) as (ar & s2 & E2 & G2 & I2 & N2 & P2). rewrite E2.
          unfold deref. rewrite (proj1 G2 _ _ N1), N2.
          assert (BV : binop op_type vsum vprod hook (Node d l r) d l r (value l) (value r) = value (Node d l r)).
          { unfold binop. cbn [Ev_Spec.value]. destruct (op_type d) eqn:OP; auto; [|congruence].
            destruct (hook (Node d l r) (value l) (value r)) as [w|] eqn:HH; auto. }
          rewrite BV. destruct (alloc s2 (value (Node d l r))) as [a s3] eqn:A.
          destruct (alloc_ok s2 (value (Node d l r)) I2) as (X & Y & Z & W). rewrite A in *. cbn [fst snd] in *.
          apply fin_ok; auto.
          - eapply evo_trans; [exact G1|]. eapply evo_trans; [exact G2|]. eapply evo_trans; [exact X|]. apply evo_logged.
          - intros p Hp. apply W, G2, G1, Hp. }
        destruct (op_type d) eqn:OP; try (apply BIN; congruence).
        unfold deref. rewrite N1. assert (AV : vadj (data l) d (value l) = value (Node d l r)) by (cbn [Ev_Spec.value]; rewrite OP; auto).
        rewrite AV. destruct (alloc s1 (value (Node d l r))) as [a s3] eqn:A.
        destruct (alloc_ok s1 (value (Node d l r)) I1) as (X & Y & Z & W). rewrite A in *. cbn [fst snd] in *.
        apply fin_ok; auto.
        - eapply evo_trans; [exact G1|]. eapply evo_trans; [exact X|]. apply evo_logged.
        - intros p Hp. apply W, G1, Hp. }
      unfold inner_of. destruct custom as [ce|] eqn:CE; [|auto].
      destruct (ce (Node d l r) s) as [x s1] eqn:X.
      destruct (CU ce eq_refl (Node d l r) s x s1 In_n eq_refl G X) as (G1 & I1 & P1 & N1).
      assert (EV : evo s s1) by (split; auto; intros p Hp; apply P1; auto).
      destruct x as [a|].
      + apply fin_ok; auto. intros p Hp ->. destruct (P1 p Hp) as [_ N]. apply N. auto.
      + eapply okres_mono; [exact EV|]. auto.
  Qed.

  (** An internal node that the cache does not know is computed into a new object. *)
  Lemma big_fresh : forall d l r s, custom = None -> within roots (Node d l r) -> ginv s ->
    (forall k, In k K -> node_eq peq k (Node d l r) = false) ->
    exists a s', big (Node d l r) true s = Some (Some a, s') /\ private own a s'.
  Proof.
    intros d l r s CN In_n G NK. cbn [Ev_Proofs2.big]. unfold checked_of, cache_access.
    assert (FN : find peq (e_cache s) (Node d l r) = None).
    { rewrite find_none. destruct G as (_ & E & _). rewrite E. auto. }
    rewrite FN. unfold cache_exists. cbn [e_cache with_cache]. rewrite FN. unfold inner_of. rewrite CN. cbv iota. rewrite <- CN.
    assert (G' : ginv (with_cache s (e_cache s))) by exact G. set (s0 := with_cache s (e_cache s)) in *.
    assert (In_l := within_left _ _ _ _ In_n). assert (In_r := within_right _ _ _ _ In_n).
    assert (FR : forall s2 v, ginv s2 -> exists a s', (let '(a, s3) := alloc s2 v in
       fin (Node d l r) false (Some a) (logged s3 (Node d l r))) = Some (Some a, s') /\ private own a s').
    { intros s2 v (C & E & IT). exists (length (e_heap s2)). eexists. split; [reflexivity|].
      split; [cbn; rewrite app_length; cbn; lia|]. split.
      - intros I. apply in_map_iff in I. destruct I as ([a w] & Ea & Iw). cbn in Ea. subst a. apply IT in Iw.
        assert (length (e_heap s2) < length (e_heap s2))%nat by (apply nth_error_Some; congruence). lia.
      - intros k e I. cbn in I. intros Da. apply (C k e I) in Da.
        assert (length (e_heap s2) < length (e_heap s2))%nat by (apply nth_error_Some; congruence). lia. }
    unfold std_of. destruct (big_ok l true s0 In_l G') as (al & s1 & E1 & G1 & I1 & N1 & P1). rewrite E1.
    destruct (big_ok r true s1 In_r I1) as (ar & s2 & E2 & G2 & I2 & N2 & P2).
    destruct (op_type d); rewrite ?E2; unfold deref; rewrite ?(proj1 G2 _ _ N1), ?N2, ?N1; apply FR; auto.
  Qed.
End EvalValue.
