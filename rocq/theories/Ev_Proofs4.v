(** Counting: with the cache built from a forest, each intermediate is computed once and the cache
    ends up empty. *)
From Coq Require Import List ZArith Bool Arith Lia Permutation.
From Verif Require Import BT_Model Ev_Model Ev_Spec Ev_Proofs1 Ev_Proofs2 Ev_Proofs3.
Import ListNotations.
Local Open Scope Z_scope.

Section Counts.
  Context {D : Type}.
  Variable peq : D -> D -> bool.
  Hypothesis EQ : equivb peq.
  Notation tr := (tree D).

  Definition cnt (M : list (tr * Z)) (k : tr) : Z := match find peq M k with Some c => c | None => 0 end.

  Definition bumpf (c : tr -> Z) (n : tr) : tr -> Z := fun k => if node_eq peq n k then c k + 1 else c k.

  Fixpoint fcount (c : tr -> Z) (n : tr) : tr -> Z :=
    match n with
    | Leaf _ => c
    | Node _ l r => if 0 <? c n then bumpf c n else fcount (fcount (bumpf c n) l) r
    end.

  Definition respects (c : tr -> Z) : Prop := forall a b, node_eq peq a b = true -> c a = c b.
  Definition nonneg (c : tr -> Z) : Prop := forall k, 0 <= c k.

  Lemma fcount_ext : forall n c c', (forall k, c k = c' k) -> forall k, fcount c n k = fcount c' n k.
  Proof.
    induction n as [d|d l IHl r IHr]; intros c c' H k; cbn [fcount]; auto.
    rewrite (H (Node d l r)). destruct (0 <? c' (Node d l r)).
    - unfold bumpf. rewrite H. auto.
    - apply IHr. apply IHl. intros k'. unfold bumpf. rewrite H. auto.
  Qed.

  Lemma bump_respects : forall c n, respects c -> respects (bumpf c n).
  Proof. intros c n R a b E. unfold bumpf. rewrite (node_eq_r _ EQ _ _ n E), (R _ _ E). auto. Qed.

  Lemma fcount_respects : forall n c, respects c -> respects (fcount c n).
  Proof.
    induction n as [d|d l IHl r IHr]; intros c R; cbn [fcount]; auto.
    destruct (0 <? c (Node d l r)); [apply bump_respects; auto|]. apply IHr, IHl, bump_respects; auto.
  Qed.

  Lemma fcount_mono : forall n c k, c k <= fcount c n k <= c k + Z.of_nat (size n).
  Proof.
    induction n as [d|d l IHl r IHr]; intros c k; cbn [fcount size]; [lia|].
    assert (B : c k <= bumpf c (Node d l r) k <= c k + 1) by (unfold bumpf; destruct (node_eq peq (Node d l r) k); lia).
    destruct (0 <? c (Node d l r)); [lia|].
    specialize (IHl (bumpf c (Node d l r)) k). specialize (IHr (fcount (bumpf c (Node d l r)) l) k). lia.
  Qed.

  Lemma fcount_far : forall n c x, (size n < size x)%nat -> fcount c n x = c x.
  Proof.
    induction n as [d|d l IHl r IHr]; intros c x H; cbn [fcount size] in *; auto.
    assert (B : bumpf c (Node d l r) x = c x).
    { unfold bumpf. destruct (node_eq peq (Node d l r) x) eqn:E; auto. apply node_eq_size in E. cbn [size] in E. lia. }
    destruct (0 <? c (Node d l r)); auto. rewrite IHr, IHl by lia. auto.
  Qed.

  Lemma fcount_bump : forall n c x, (size n < size x)%nat -> forall k, fcount (bumpf c x) n k = bumpf (fcount c n) x k.
  Proof.
    induction n as [d|d l IHl r IHr]; intros c x H k; cbn [fcount]; auto.
    assert (B : bumpf c x (Node d l r) = c (Node d l r)).
    { unfold bumpf. destruct (node_eq peq x (Node d l r)) eqn:E; auto. apply node_eq_size in E. rewrite <- E in H. lia. }
    rewrite B. cbn [size] in H.
    assert (CM : forall k, bumpf (bumpf c x) (Node d l r) k = bumpf (bumpf c (Node d l r)) x k).
    { intros k'. unfold bumpf. destruct (node_eq peq x k'), (node_eq peq (Node d l r) k'); lia. }
    destruct (0 <? c (Node d l r)); [apply CM|].
    rewrite (fcount_ext r _ (bumpf (fcount (bumpf c (Node d l r)) l) x)).
    - apply IHr. lia.
    - intros k'. rewrite (fcount_ext l _ (bumpf (bumpf c (Node d l r)) x)) by exact CM. apply IHl. lia.
  Qed.

  Lemma bump_cnt : forall M n k, find peq M n <> None -> cnt (assign peq M n (cnt M n + 1)) k = bumpf (cnt M) n k.
  Proof.
    intros M n k H. unfold cnt, bumpf. destruct (find peq M n) as [c|] eqn:F; [|congruence].
    destruct (node_eq peq n k) eqn:E.
    - rewrite (find_assign_same _ EQ _ _ _ _ _ F E). rewrite <- (find_eq _ EQ M _ _ E), F. auto.
    - rewrite (find_assign_other _ EQ) by auto. auto.
  Qed.

  Lemma count_visit_fcount : forall n M, (forall k c, find peq M k = Some c -> 1 <= c) ->
    (forall k, cnt (count_visit peq M n) k = fcount (cnt M) n k) /\
    (forall k c, find peq (count_visit peq M n) k = Some c -> 1 <= c).
  Proof.
    induction n as [d|d l IHl r IHr]; intros M P; cbn [count_visit fcount]; [auto|].
    unfold imed_visitor. destruct (find peq M (Node d l r)) as [c|] eqn:F.
    - assert (C : cnt M (Node d l r) = c) by (unfold cnt; rewrite F; auto). rewrite C.
      pose proof (P _ _ F) as P1. destruct (0 <? c) eqn:Z0; [|apply Z.ltb_ge in Z0; lia]. split.
      + intros k. rewrite <- C. apply bump_cnt. congruence.
      + intros k c' F'. destruct (node_eq peq (Node d l r) k) eqn:E.
        * rewrite (find_assign_same _ EQ _ _ _ _ _ F E) in F'. injection F' as <-. lia.
        * rewrite (find_assign_other _ EQ) in F' by auto. eauto.
    - assert (C : cnt M (Node d l r) = 0) by (unfold cnt; rewrite F; auto). rewrite C. cbn [Z.ltb Z.compare].
      assert (P1 : forall k c, find peq (M ++ [(Node d l r, 1)]) k = Some c -> 1 <= c).
      { intros k c. rewrite find_app. destruct (find peq M k) eqn:G; [intros [= <-]; eauto|].
        cbn [find]. destruct (node_eq peq (Node d l r) k); [intros [= <-]; lia|discriminate]. }
      destruct (IHl _ P1) as [A1 A2]. destruct (IHr _ A2) as [B1 B2]. split; auto.
      intros k. rewrite B1. apply fcount_ext. intros k'. rewrite A1. apply fcount_ext. intros k2.
      unfold cnt, bumpf. rewrite find_app. destruct (find peq M k2) as [c2|] eqn:G.
      + destruct (node_eq peq (Node d l r) k2) eqn:E; auto. rewrite (find_eq _ EQ M _ _ E), G in F. discriminate.
      + cbn [find]. destruct (node_eq peq (Node d l r) k2); auto.
  Qed.

  Definition fcounts (nodes : list tr) (c : tr -> Z) : tr -> Z := fold_left fcount nodes c.

  Lemma fcounts_ext : forall nodes c c', (forall k, c k = c' k) -> forall k, fcounts nodes c k = fcounts nodes c' k.
  Proof.
    induction nodes as [|n nodes IH]; intros c c' H k; cbn; auto. apply IH. intros k'. apply fcount_ext; auto.
  Qed.

  Lemma imed_counts_fcounts : forall nodes M, (forall k c, find peq M k = Some c -> 1 <= c) ->
    (forall k, cnt (fold_left (count_visit peq) nodes M) k = fcounts nodes (cnt M) k) /\
    (forall k c, find peq (fold_left (count_visit peq) nodes M) k = Some c -> 1 <= c).
  Proof.
    induction nodes as [|n nodes IH]; intros M P; cbn [fold_left fcounts]; [auto|].
    destruct (count_visit_fcount n M P) as [A B]. destruct (IH _ B) as [A' B']. split; auto.
    intros k. rewrite A'. apply fcounts_ext. auto.
  Qed.

  Lemma fcounts_mono : forall nodes c k, c k <= fcounts nodes c k.
  Proof.
    induction nodes as [|n nodes IH]; intros c k; cbn; [lia|]. specialize (IH (fcount c n) k).
    pose proof (fcount_mono n c k). unfold fcounts in *. lia.
  Qed.

  Lemma fcounts_bound : forall nodes c k, fcounts nodes c k <= c k + Z.of_nat (list_sum (map size nodes)).
  Proof.
    induction nodes as [|n nodes IH]; intros c k; cbn [fcounts fold_left map list_sum fold_right]; [lia|].
    specialize (IH (fcount c n) k). pose proof (fcount_mono n c k). unfold fcounts, list_sum in *. lia.
  Qed.

  (** every internal node of a visited tree has been counted *)
  Definition closed (c : tr -> Z) : Prop :=
    forall n, 0 < c n -> forall t, In t (subtrees n) -> is_leaf t = false -> 0 < c t.

  Lemma node_eq_subtrees : forall a b, node_eq peq a b = true -> forall t, In t (subtrees b) ->
    exists u, In u (subtrees a) /\ node_eq peq u t = true.
  Proof.
    induction a as [d|d l IHl r IHr]; intros [d'|d' l' r'] E t I; try discriminate.
    - cbn in I. destruct I as [<-|[]]. exists (Leaf d). cbn [subtrees In]. auto.
    - cbn [subtrees In] in I. destruct I as [<-|I]; [exists (Node d l r); cbn [subtrees In]; auto|].
      rewrite node_eq_node, !andb_true_iff in E. destruct E as [[_ El] Er]. apply in_app_iff in I. destruct I as [I|I].
      + destruct (IHl _ El _ I) as (u & Iu & Eu). exists u. split; auto. cbn [subtrees In]. right. apply in_app_iff. auto.
      + destruct (IHr _ Er _ I) as (u & Iu & Eu). exists u. split; auto. cbn [subtrees In]. right. apply in_app_iff. auto.
  Qed.

  Lemma node_eq_is_leaf : forall a b, node_eq peq a b = true -> is_leaf a = is_leaf b.
  Proof. intros [d|d l r] [d'|d' l' r'] H; auto; discriminate. Qed.

  Lemma fcount_closed : forall n c, respects c -> nonneg c -> closed c ->
    closed (fcount c n) /\ (forall t, In t (subtrees n) -> is_leaf t = false -> 0 < fcount c n t).
  Proof.
    induction n as [d|d l IHl r IHr]; intros c R NN CL; cbn [fcount].
    - split; auto. intros t [<-|[]]; discriminate.
    - set (n := Node d l r) in *.
      destruct (Z.ltb_spec 0 (c n)) as [P|P].
      + assert (S1 : forall t, In t (subtrees n) -> is_leaf t = false -> 0 < bumpf c n t).
        { intros t I L. specialize (CL n P t I L). unfold bumpf. destruct (node_eq peq n t); lia. }
        split; [|exact S1]. intros x Px t I L. unfold bumpf in *.
        destruct (node_eq peq n x) eqn:E.
        * assert (0 < c t). { apply (CL x); auto. rewrite <- (R _ _ E). auto. } destruct (node_eq peq n t); lia.
        * assert (0 < c t) by (apply (CL x); auto). destruct (node_eq peq n t); lia.
      + assert (EQf : forall k, fcount (fcount (bumpf c n) l) r k = bumpf (fcount (fcount c l) r) n k).
        { intros k. rewrite (fcount_ext r _ (bumpf (fcount c l) n)).
          - apply fcount_bump. subst n. cbn [size]. lia.
          - intros k'. apply fcount_bump. subst n. cbn [size]. lia. }
        destruct (IHl c R NN CL) as [CLl Sl].
        assert (Rl := fcount_respects l c R).
        assert (NNl : nonneg (fcount c l)). { intros k. pose proof (fcount_mono l c k). specialize (NN k). lia. }
        destruct (IHr _ Rl NNl CLl) as [CLr Sr].
        assert (Rr := fcount_respects r _ Rl).
        assert (S1 : forall t, In t (subtrees n) -> is_leaf t = false -> 0 < bumpf (fcount (fcount c l) r) n t).
        { intros t I L. unfold bumpf. pose proof (fcount_mono r (fcount c l) t). pose proof (NNl t).
          cbn [subtrees In] in I. destruct I as [I|I].
          - fold n in I. subst t. rewrite (node_eq_refl _ EQ). lia.
          - apply in_app_iff in I. destruct I as [I|I].
            + specialize (Sl t I L). destruct (node_eq peq n t); lia.
            + specialize (Sr t I L). destruct (node_eq peq n t); lia. }
        split.
        * intros x Px t I L. rewrite EQf in *. unfold bumpf in Px. destruct (node_eq peq n x) eqn:E.
          -- destruct (node_eq_subtrees _ _ E _ I) as (u & Iu & Eu).
             rewrite <- (bump_respects _ n Rr _ _ Eu). apply S1; auto. rewrite (node_eq_is_leaf _ _ Eu). auto.
          -- specialize (CLr x Px t I L). unfold bumpf. destruct (node_eq peq n t); lia.
        * intros t I L. rewrite EQf. auto.
  Qed.

  Lemma fcounts_closed : forall nodes c, respects c -> nonneg c -> closed c ->
    closed (fcounts nodes c) /\ (forall n t, In n nodes -> In t (subtrees n) -> is_leaf t = false -> 0 < fcounts nodes c t).
  Proof.
    induction nodes as [|n nodes IH]; intros c R NN CL; cbn [fcounts fold_left]; [split; auto; intros n t []|].
    destruct (fcount_closed n c R NN CL) as [C1 S1].
    assert (NN1 : nonneg (fcount c n)). { intros k. pose proof (fcount_mono n c k). specialize (NN k). lia. }
    destruct (IH _ (fcount_respects n c R) NN1 C1) as [C2 S2]. split; [exact C2|].
    intros n' t [<-|I] It L; [|eauto]. pose proof (fcounts_mono nodes (fcount c n) t). specialize (S1 t It L). unfold fcounts in *. lia.
  Qed.

  (** a counted node is an internal node *)
  Lemma fcount_leaf : forall n c d, fcount c n (Leaf d) = c (Leaf d).
  Proof.
    induction n as [d0|d0 l IHl r IHr]; intros c d; cbn [fcount]; auto.
    destruct (0 <? c (Node d0 l r)); [reflexivity|]. rewrite IHr, IHl. reflexivity.
  Qed.
End Counts.

Section Drain.
  Context {D V : Type}.
  Variable peq : D -> D -> bool.
  Hypothesis EQ : equivb peq.
  Variable op_type : D -> eop.
  Variable canon_phase : D -> Z.
  Variable vsum vprod : D -> D -> D -> V -> V -> V.
  Variable vadj : D -> D -> V -> V.
  Variable vphase : Z -> V -> V.
  Notation est := (@est D V).
  Variable le : tree D -> list V -> nat * list V.
  Variable hook : tree D -> V -> V -> option V.

  Notation big := (big peq op_type canon_phase vsum vprod vadj vphase le None hook).
  Notation fin := (fin peq canon_phase vphase).
  Notation tr := (tree D).

  (** the leaf evaluator returns an object that exists and frees nothing *)
  Hypothesis LE : forall n h, (length h <= length (snd (le n h)))%nat /\ (fst (le n h) < length (snd (le n h)))%nat.

  Variable tot : tr -> Z.
  Variable K : list tr.
  Hypothesis totR : respects peq tot.

  Notation adjoint_ok := (adjoint_ok op_type).

  Record dinv (c : tr -> Z) (s : est) : Prop := {
    di_resp : respects peq c;
    di_nonneg : nonneg c;
    di_keys : map fst (e_cache s) = K;
    di_addr : forall k e a, find peq (e_cache s) k = Some e -> data_p e = Some a -> (a < length (e_heap s))%nat;
    di_leaf : forall d, find peq (e_cache s) (Leaf d) = None;
    di_miss : forall k, find peq (e_cache s) k = None -> tot k <= 1;
    di_entry : forall k e, find peq (e_cache s) k = Some e -> c k <= tot k -> 
       persistent_ e = false /\ 1 <= tot k <= 4294967296 /\ life_c e = tot k - c k /\
       (data_p e <> None <-> 0 < c k < tot k);
    di_log : forall t, is_leaf t = false -> occurrences peq t (e_log s) = if 0 <? c t then 1%nat else 0%nat }.

  Lemma dinv_ext : forall c c' s, (forall k, c k = c' k) -> dinv c s -> dinv c' s.
  Proof.
    intros c c' s E [A B KK C1 C2 C3 C4 C5]. constructor; auto.
    - intros a b H. rewrite <- !E. auto.
    - intros k. rewrite <- E. auto.
    - intros k e. rewrite <- E. auto.
    - intros t. rewrite <- E. auto.
  Qed.

  Definition dres (c : tr -> Z) (s : est) (x : option (option nat * est)) : Prop :=
    exists a s', x = Some (Some a, s') /\ (a < length (e_heap s'))%nat /\ (length (e_heap s) <= length (e_heap s'))%nat /\ dinv c s'.

  Lemma dres_ext : forall c c' s x, (forall k, c k = c' k) -> dres c s x -> dres c' s x.
  Proof. intros c c' s x E (a & s' & H1 & H2 & H3 & I). exists a, s'. split; auto. split; auto. split; auto. eapply dinv_ext; eauto. Qed.

  Lemma dinv_heap : forall c s s', dinv c s -> e_cache s' = e_cache s -> e_log s' = e_log s ->
    (length (e_heap s) <= length (e_heap s'))%nat -> dinv c s'.
  Proof.
    intros c s s' [A B KK C1 C2 C3 C4 C5] E1 E2 L. constructor; auto; rewrite ?E1, ?E2; auto.
    intros k e a F H. specialize (C1 k e a F H). lia.
  Qed.

  Lemma phase_dres : forall c n a s, (a < length (e_heap s))%nat -> dinv c s ->
    dres c s (apply_phase canon_phase vphase n (Some a) s).
  Proof.
    intros c n a s H I. unfold apply_phase. destruct (canon_phase (data n) =? 1).
    - exists a, s. auto.
    - destruct (nth_error (e_heap s) a) as [v|] eqn:N; [|apply nth_error_None in N; lia].
      exists (length (e_heap s)), (snd (alloc s (vphase (canon_phase (data n)) v))).
      assert (L : length (e_heap (snd (alloc s (vphase (canon_phase (data n)) v)))) = S (length (e_heap s))).
      { cbn. rewrite app_length. cbn. lia. }
      split; [reflexivity|]. rewrite L. split; [lia|]. split; [lia|].
      eapply dinv_heap; [exact I|reflexivity|reflexivity|]. rewrite L. lia.
  Qed.

  Lemma phase_null : forall n s, exists x, apply_phase canon_phase vphase n None s = x.
  Proof. eauto. Qed.

  Lemma bumpf_le : forall c n, nonneg c -> nonneg (bumpf peq c n).
  Proof. intros c n H k. specialize (H k). unfold bumpf. destruct (node_eq peq n k); lia. Qed.

  (** a hit *)
  Lemma hit : forall c n s, dinv c s -> 0 < c n -> c n + 1 <= tot n ->
    exists a c', cache_access peq (e_cache s) n = (Some a, c') /\ (a < length (e_heap s))%nat /\
      dinv (bumpf peq c n) (with_cache s c').
  Proof.
    intros c n s I P T. destruct I as [A B KK C1 C2 C3 C4 C5]. unfold cache_access.
    destruct (find peq (e_cache s) n) as [e|] eqn:F.
    2: { specialize (C3 n F). lia. }
    destruct (C4 n e F ltac:(lia)) as (P1 & P2 & P3 & P4).
    destruct (data_p e) as [a|] eqn:DP; [|exfalso; apply (proj2 P4); [lia|reflexivity]].
    assert (X : entry_access e = (Some a, if tot n - c n =? 1
        then mkentry (max_life e) (life_c e - 1) None None false
        else mkentry (max_life e) (life_c e - 1) (data_p e) (size_bytes e) false)).
    { unfold entry_access. rewrite DP, P1. unfold decay. rewrite P3. destruct (Z.ltb_spec 0 (tot n - c n)); [|lia].
      rewrite to_int_small by lia. replace (tot n - c n - 1 =? 0) with (tot n - c n =? 1)
        by (destruct (Z.eqb_spec (tot n - c n) 1), (Z.eqb_spec (tot n - c n - 1) 0); auto; lia).
      destruct (tot n - c n =? 1); cbn; rewrite ?DP, ?P1; reflexivity. }
    rewrite X. exists a. eexists. split; [reflexivity|]. split; [eauto|].
    set (e' := if tot n - c n =? 1 then _ else _).
    assert (FS : forall k, find peq (e_cache (with_cache s (assign peq (e_cache s) n e'))) k =
      if node_eq peq n k then Some e' else find peq (e_cache s) k).
    { intros k. cbn. rewrite (find_self_assign _ EQ _ _ _ _ _ F), (node_eq_sym _ EQ k n). auto. }
    constructor.
    - apply bump_respects; auto.
    - apply bumpf_le; auto.
    - cbn. rewrite assign_keys. auto.
    - intros k e0 a0. rewrite FS. destruct (node_eq peq n k) eqn:E; [|eauto].
      intros [= <-]. subst e'. destruct (tot n - c n =? 1); cbn; [discriminate|]. intros H. eapply C1; eauto.
    - intros d. rewrite FS. destruct (node_eq peq n (Leaf d)) eqn:E; auto.
      rewrite (find_eq _ EQ _ _ _ E) in F. rewrite C2 in F. discriminate.
    - intros k. rewrite FS. destruct (node_eq peq n k) eqn:E; [discriminate|]. auto.
    - intros k e0. rewrite FS. unfold bumpf. destruct (node_eq peq n k) eqn:E; [|auto].
      intros [= <-] Hle. rewrite <- (totR _ _ E), <- (A _ _ E) in *. subst e'.
      destruct (Z.eqb_spec (tot n - c n) 1) as [Z1|Z1]; cbn.
      + split; [auto|]. split; [lia|]. split; [lia|]. split; [congruence|lia].
      + rewrite DP. split; [auto|]. split; [lia|]. split; [lia|]. split; [intros _; lia|discriminate].
    - intros t L. cbn [e_log with_cache]. rewrite (C5 t L). unfold bumpf. destruct (node_eq peq n t) eqn:E; auto.
      rewrite <- (A _ _ E). destruct (Z.ltb_spec 0 (c n)); [|lia]. destruct (Z.ltb_spec 0 (c n + 1)); [auto|lia].
  Qed.

  (** storing the result of the first computation *)
  Lemma fin_dres : forall c n a s, is_leaf n = false -> dinv c s -> c n = 0 -> 1 <= tot n ->
    (a < length (e_heap s))%nat ->
    dres (bumpf peq c n) s (fin n (cache_exists peq (e_cache s) n) (Some a) (logged s n)).
  Proof.
    intros c n a s L I Z0 T Ha. unfold Ev_Proofs2.fin, finish_phase_b. cbn [f_store f_node]. unfold cache_exists.
    assert (LOG : forall t, is_leaf t = false -> occurrences peq t (e_log s ++ [n]) = if 0 <? bumpf peq c n t then 1%nat else 0%nat).
    { intros t Lt. unfold occurrences. rewrite filter_app, app_length. cbn [filter]. fold (occurrences peq t (e_log s)).
      rewrite (di_log _ _ I t Lt). unfold bumpf. destruct (node_eq peq n t) eqn:E; cbn [length].
      - rewrite <- (di_resp _ _ I _ _ E), Z0. reflexivity.
      - lia. }
    destruct (find peq (e_cache s) n) as [e|] eqn:F; cbn [negb].
    2: { exists a, (logged s n). split; auto. split; [exact Ha|]. split; [cbn; lia|].
         destruct I as [A B KK C1 C2 C3 C4 C5]. constructor; auto.
         - apply bump_respects; auto.
         - apply bumpf_le; auto.
         - intros k e Fk Hle. cbn [e_cache logged] in Fk. unfold bumpf in *. destruct (node_eq peq n k) eqn:E; [|auto].
           rewrite (find_eq _ EQ _ _ _ E) in F. cbn in Fk. congruence. }
    (* the entry of n, untouched so far *)
    destruct I as [A B KK C1 C2 C3 C4 C5].
    destruct (C4 n e F ltac:(lia)) as (P1 & P2 & P3 & P4).
    (* first phase: allocation only *)
    assert (PH : exists a1 h1, apply_phase canon_phase vphase n (Some a) (logged s n) = Some (Some a1, mkest h1 (e_cache s) (e_log s ++ [n]))
               /\ (a1 < length h1)%nat /\ (length (e_heap s) <= length h1)%nat).
    { unfold apply_phase. destruct (canon_phase (data n) =? 1).
      - exists a, (e_heap s). repeat split; auto.
      - cbn [e_heap logged]. destruct (nth_error (e_heap s) a) as [v|] eqn:N; [|apply nth_error_None in N; lia].
        exists (length (e_heap s)), (e_heap s ++ [vphase (canon_phase (data n)) v]). split; [reflexivity|].
        rewrite app_length; cbn; split; lia. }
    destruct PH as (a1 & h1 & E1 & H1 & H2). rewrite E1. cbn [e_cache]. unfold cache_store. rewrite F.
    assert (X : entry_access (entry_store e (Some a1)) = (Some a1, if tot n =? 1
        then mkentry (max_life e) (life_c e - 1) None None false
        else mkentry (max_life e) (life_c e - 1) (Some a1) None false)).
    { unfold entry_access, entry_store. cbn. rewrite P1. unfold decay. cbn. rewrite P3, Z0, Z.sub_0_r. destruct (Z.ltb_spec 0 (tot n)); [|lia].
      rewrite to_int_small by lia. replace (tot n - 1 =? 0) with (tot n =? 1)
        by (destruct (Z.eqb_spec (tot n) 1), (Z.eqb_spec (tot n - 1) 0); auto; lia).
      destruct (tot n =? 1); cbn; reflexivity. }
    rewrite X. set (e' := if tot n =? 1 then _ else _).
    set (s1 := with_cache (mkest h1 (e_cache s) (e_log s ++ [n])) (assign peq (e_cache s) n e')).
    assert (FS : forall k, find peq (e_cache s1) k = if node_eq peq n k then Some e' else find peq (e_cache s) k).
    { intros k. cbn. rewrite (find_self_assign _ EQ _ _ _ _ _ F), (node_eq_sym _ EQ k n). auto. }
    assert (I1 : dinv (bumpf peq c n) s1).
    { constructor.
      - apply bump_respects; auto.
      - apply bumpf_le; auto.
      - cbn. rewrite assign_keys. auto.
      - intros k e0 a0. rewrite FS. cbn [e_heap s1 with_cache]. destruct (node_eq peq n k) eqn:E.
        + intros [= <-]. subst e'. destruct (tot n =? 1); cbn; [discriminate|]. intros [= <-]. auto.
        + intros Fk Hk. specialize (C1 _ _ _ Fk Hk). lia.
      - intros d. rewrite FS. destruct (node_eq peq n (Leaf d)) eqn:E; auto.
        rewrite (find_eq _ EQ _ _ _ E) in F. rewrite C2 in F. discriminate.
      - intros k. rewrite FS. destruct (node_eq peq n k) eqn:E; [discriminate|]. auto.
      - intros k e0. rewrite FS. unfold bumpf. destruct (node_eq peq n k) eqn:E; [|auto].
        intros [= <-] Hle. rewrite <- (totR _ _ E), <- (A _ _ E) in *. subst e'.
        destruct (Z.eqb_spec (tot n) 1) as [Z1|Z1]; cbn.
        + split; [auto|]. split; [lia|]. split; [lia|]. split; [congruence|lia].
        + split; [auto|]. split; [lia|]. split; [lia|]. split; [intros _; lia|discriminate].
      - intros t Lt. cbn [e_log s1 with_cache]. auto. }
    destruct (phase_dres _ n a1 s1 H1 I1) as (a2 & s2 & E2 & H3 & H4 & I2).
    exists a2, s2. split; [exact E2|]. split; auto. split; [|auto]. cbn [e_heap s1 with_cache] in H4. lia.
  Qed.

  (** changing only the counts of other nodes keeps the entry of n *)
  Lemma big_drain : forall n c s, adjoint_ok n -> dinv c s -> (forall k, fcount peq c n k <= tot k) ->
    dres (fcount peq c n) s (big n true s).
  Proof.
    induction n as [d|d l IHl r IHr]; intros c s AO I T.
    - cbn [Ev_Proofs2.big fcount]. unfold checked_of, cache_access. rewrite (di_leaf _ _ I d).
      unfold leaf_of, with_cache. cbn [e_heap e_cache e_log].
      destruct (LE (Leaf d) (e_heap s)) as [L1 L2]. destruct (le (Leaf d) (e_heap s)) as [a h]. cbn [fst snd] in L1, L2.
      unfold cache_exists. cbn [e_cache]. rewrite (di_leaf _ _ I d). unfold Ev_Proofs2.fin, finish_phase_b. cbn [f_store negb].
      exists a. eexists. split; [reflexivity|]. cbn [e_heap]. split; [auto|]. split; [auto|].
      eapply dinv_heap; [exact I|reflexivity|reflexivity|exact L1].
    - cbn [Ev_Proofs2.big fcount] in T |- *. set (n := Node d l r) in *.
      revert T. destruct (Z.ltb_spec 0 (c n)) as [P|P]; intros T.
      + pose proof (T n) as Tn. unfold bumpf in Tn. rewrite (node_eq_refl _ EQ) in Tn.
        destruct (hit c n s I P ltac:(lia)) as (a & c' & E & Ha & I').
        unfold checked_of. rewrite E. destruct (phase_dres _ n a (with_cache s c') Ha I') as (a2 & s2 & E2 & H3 & H4 & I2).
        exists a2, s2. auto.
      + assert (Z0 : c n = 0) by (pose proof (di_nonneg _ _ I n); lia).
        assert (EQf : forall k, fcount peq (fcount peq (bumpf peq c n) l) r k = bumpf peq (fcount peq (fcount peq c l) r) n k).
        { intros k. rewrite (fcount_ext _ r _ (bumpf peq (fcount peq c l) n)).
          - apply fcount_bump; auto. subst n. cbn [size]. lia.
          - intros k'. apply fcount_bump; auto. subst n. cbn [size]. lia. }
        assert (Tr : forall k, fcount peq (fcount peq c l) r k <= tot k).
        { intros k. specialize (T k). rewrite EQf in T. unfold bumpf in T. destruct (node_eq peq n k); lia. }
        assert (Tl : forall k, fcount peq c l k <= tot k).
        { intros k. specialize (Tr k). pose proof (fcount_mono peq r (fcount peq c l) k). lia. }
        destruct AO as (AOl & AOr & AOd).
        assert (FARl : forall s1, dinv (fcount peq c l) s1 -> fcount peq c l n = 0).
        { intros _ _. rewrite fcount_far; auto. subst n. cbn [size]. lia. }
        assert (FARr : fcount peq (fcount peq c l) r n = 0).
        { rewrite fcount_far by (subst n; cbn [size]; lia). rewrite fcount_far by (subst n; cbn [size]; lia). auto. }
        assert (Tn : 1 <= tot n).
        { specialize (T n). rewrite EQf in T. unfold bumpf in T. rewrite (node_eq_refl _ EQ), FARr in T. lia. }
        (* the lookup finds no data *)
        assert (CA : cache_access peq (e_cache s) n = (None, match find peq (e_cache s) n with
                   | Some e => assign peq (e_cache s) n e | None => e_cache s end)).
        { unfold cache_access. destruct (find peq (e_cache s) n) as [e|] eqn:F; auto.
          destruct (di_entry _ _ I n e F ltac:(lia)) as (_ & _ & _ & P4).
          unfold entry_access. destruct (data_p e) as [a|] eqn:DP; auto. exfalso.
          assert (0 < c n < tot n) by (apply P4; discriminate). lia. }
        unfold checked_of. rewrite CA. cbv zeta.
        set (s1 := with_cache s _).
        assert (FS : forall k, find peq (e_cache s1) k = find peq (e_cache s) k).
        { intros k. cbn. destruct (find peq (e_cache s) n) as [e|] eqn:F; auto.
          rewrite (find_self_assign _ EQ _ _ _ _ _ F). destruct (node_eq peq k n) eqn:E; auto. rewrite (find_eq _ EQ _ _ _ E). auto. }
        assert (I1 : dinv c s1).
        { destruct I as [A B KK C1 C2 C3 C4 C5]. constructor; auto.
          - cbn. destruct (find peq (e_cache s) n); rewrite ?assign_keys; auto.
          - intros k e a. rewrite FS. apply C1.
          - intros dd. rewrite FS. auto.
          - intros k. rewrite FS. auto.
          - intros k e. rewrite FS. auto. }
        assert (H0 : e_heap s1 = e_heap s) by reflexivity.
        assert (EX : forall c2 s2, dinv c2 s2 -> cache_exists peq (e_cache s1) n = cache_exists peq (e_cache s2) n).
        { intros c2 s2 I2.
          assert (EK : map fst (e_cache s1) = map fst (e_cache s2)) by (rewrite (di_keys _ _ I2); apply I1).
          unfold cache_exists.
          destruct (find peq (e_cache s1) n) eqn:F1, (find peq (e_cache s2) n) eqn:F2; auto.
          - rewrite find_none, <- EK in F2. apply find_in in F1. destruct F1 as (k & Ik & Ek).
            rewrite F2 in Ek; [discriminate|]. apply in_map_iff. exists (k, e). auto.
          - rewrite find_none, EK in F1. apply find_in in F2. destruct F2 as (k & Ik & Ek).
            rewrite F1 in Ek; [discriminate|]. apply in_map_iff. exists (k, e). auto. }
        assert (AL : forall c2 s2 v, dinv c2 s2 -> dinv c2 (snd (alloc s2 v)) /\
           length (e_heap (snd (alloc s2 v))) = S (length (e_heap s2)) /\ fst (alloc s2 v) = length (e_heap s2)).
        { intros c2 s2 v I2. assert (L : length (e_heap (snd (alloc s2 v))) = S (length (e_heap s2))).
          { cbn. rewrite app_length. cbn. lia. }
          split; [|split; auto]. eapply dinv_heap; [exact I2|reflexivity|reflexivity|lia]. }
        unfold inner_of. cbv beta. unfold std_of.
        assert (BIN : op_type d <> OpAdjoint ->
          dres (bumpf peq (fcount peq (fcount peq c l) r) n) s
            match big l true s1 with
            | Some (Some al, s2) =>
                match big r true s2 with
                | Some (rr, s3) =>
                    match deref s3 (Some al), deref s3 rr with
                    | Some vl, Some vr =>
                        let '(a, s4) := alloc s3 (binop op_type vsum vprod hook n d l r vl vr) in
                        fin n (cache_exists peq (e_cache s1) n) (Some a) (logged s4 n)
                    | _, _ => None
                    end
                | None => None
                end
            | _ => None
            end).
        { intros _. destruct (IHl c s1 AOl I1 Tl) as (al & s2 & -> & Hl1 & Hl2 & I2).
          destruct (IHr _ s2 AOr I2 Tr) as (ar & s3 & -> & Hr1 & Hr2 & I3).
          cbn [deref]. destruct (nth_error (e_heap s3) al) as [vl|] eqn:N1; [|apply nth_error_None in N1; lia].
          destruct (nth_error (e_heap s3) ar) as [vr|] eqn:N2; [|apply nth_error_None in N2; lia].
          destruct (AL _ s3 (binop op_type vsum vprod hook n d l r vl vr) I3) as (I4 & L4 & A4).
          destruct (alloc s3 _) as [a s4]. cbn [fst snd] in *. rewrite (EX _ _ I4).
          destruct (fin_dres _ n a s4 eq_refl I4 FARr Tn ltac:(lia)) as (a5 & s5 & E5 & H5 & H6 & I5).
          exists a5, s5. split; auto. split; auto. split; [|auto]. rewrite <- H0. lia. }
        eapply (fun X => dres_ext _ _ _ _ X); [intros k; symmetry; apply EQf|].
        destruct (op_type d) eqn:OP; [apply BIN; discriminate|apply BIN; discriminate|].
        assert (LR : is_leaf r = true) by (apply AOd; auto). destruct r as [dr|]; [|discriminate]. cbn [fcount] in *.
        destruct (IHl c s1 AOl I1 Tl) as (al & s2 & -> & Hl1 & Hl2 & I2).
        cbn [deref]. destruct (nth_error (e_heap s2) al) as [vl|] eqn:N1; [|apply nth_error_None in N1; lia].
        destruct (AL _ s2 (vadj (data l) d vl) I2) as (I4 & L4 & A4).
        destruct (alloc s2 _) as [a s4]. cbn [fst snd] in *. rewrite (EX _ _ I4).
        destruct (fin_dres _ n a s4 eq_refl I4 FARr Tn ltac:(lia)) as (a5 & s5 & E5 & H5 & H6 & I5).
        exists a5, s5. split; auto. split; auto. split; [|auto]. rewrite <- H0. lia.
  Qed.
End Drain.
