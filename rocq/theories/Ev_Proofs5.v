(** Sums over a range of trees; the state the cache starts and ends in. *)
From Coq Require Import List ZArith Bool Arith Lia Permutation.
From Verif Require Import BT_Model Ev_Model Ev_Spec Ev_Proofs1 Ev_Proofs2 Ev_Proofs3 Ev_Proofs4.
Import ListNotations.
Local Open Scope Z_scope.

Lemma set_nth_length : forall {V} (h : list V) a v, length (set_nth h a v) = length h.
Proof. induction h as [|x h IH]; intros [|a] v; cbn; auto. Qed.

Lemma set_nth_same : forall {V} (h : list V) a v, (a < length h)%nat -> nth_error (set_nth h a v) a = Some v.
Proof. induction h as [|x h IH]; intros [|a] v H; cbn in *; try lia; auto. apply IH. lia. Qed.

Lemma set_nth_other : forall {V} (h : list V) a b v, a <> b -> nth_error (set_nth h a v) b = nth_error h b.
Proof. induction h as [|x h IH]; intros [|a] [|b] v H; cbn in *; try congruence; auto. Qed.

Section Range.
  Context {D V : Type}.
  Variable peq : D -> D -> bool.
  Hypothesis EQ : equivb peq.
  Variable op_type : D -> eop.
  Variable canon_phase : D -> Z.
  Variable vsum vprod : D -> D -> D -> V -> V -> V.
  Variable vadj : D -> D -> V -> V.
  Variable vphase : Z -> V -> V.
  Variable vperm : D -> V -> V.
  Variable vadd : V -> V -> V.
  Notation est := (@est D V).
  Variable le : tree D -> list V -> nat * list V.
  Variable custom : option (tree D -> est -> option nat * est).
  Variable hook : tree D -> V -> V -> option V.
  Variable leafv : D -> V.

  Notation value := (value op_type vsum vprod vadj leafv).
  Notation big := (big peq op_type canon_phase vsum vprod vadj vphase le custom hook).
  Notation sound_state := (sound_state op_type canon_phase vsum vprod vadj vphase leafv).
  Notation evaluate_layout := (evaluate_layout peq op_type canon_phase vsum vprod vadj vphase vperm le custom hook).
  Notation evaluate_range := (evaluate_range peq op_type canon_phase vsum vprod vadj vphase vperm vadd le custom hook).
  Variable roots : list (tree D).
  Variable K : list (tree D).
  Variable own : list (nat * V).
  Hypothesis KS : keys_sound op_type canon_phase vsum vprod vadj vphase leafv peq roots K.
  Hypothesis PH : forall d v, vphase (canon_phase d) (vphase (canon_phase d) v) = v.
  Hypothesis LE : leaf_evaluator_ok leafv roots own le.
  Hypothesis HK : hook_ok op_type vsum vprod vadj leafv roots hook.
  Hypothesis CU : forall ce, custom = Some ce -> custom_ok op_type canon_phase vsum vprod vadj vphase leafv roots K own ce.
  Notation ginv := (sound_state own K).
  Notation evo := (evo own).

  Definition post (layout : option D) (v : V) : V := match layout with None => v | Some lay => vperm lay v end.

  Lemma layout_ok : forall fuel layout n s, within roots n -> ginv s -> (3 * size n <= fuel)%nat ->
    exists a s', evaluate_layout fuel layout n s = Done (Some a) s' /\ evo s s' /\ ginv s' /\
      nth_error (e_heap s') a = Some (post layout (value n)) /\ (forall p, private own p s -> a <> p) /\
      (layout <> None -> private own a s') /\
      (custom = None -> is_leaf n = false -> (forall k, In k K -> node_eq peq k n = false) -> private own a s').
  Proof.
    intros fuel layout n s W G F. unfold Ev_Model.evaluate_layout. rewrite evaluate_big by auto.
    destruct (big_ok peq op_type canon_phase vsum vprod vadj vphase le custom hook leafv roots K own KS PH LE HK CU n true s W G)
      as (a & s1 & E & EV & G1 & N1 & P1).
    rewrite E. destruct layout as [lay|].
    - cbn [deref]. rewrite N1.
      destruct (alloc_ok op_type canon_phase vsum vprod vadj vphase leafv K own s1 (vperm lay (value n)) G1) as (X & Y & Z & T).
      assert (FR : private own (fst (alloc s1 (vperm lay (value n)))) (snd (alloc s1 (vperm lay (value n))))).
      { destruct G1 as (C & _ & IT). cbn. split; [cbn; rewrite app_length; cbn; lia|]. split.
        - intros I. apply in_map_iff in I. destruct I as ([b w] & Ea & Iw). cbn in Ea. subst b. apply IT in Iw.
          assert (length (e_heap s1) < length (e_heap s1))%nat by (apply nth_error_Some; congruence). lia.
        - intros k e I. cbn in I. intros Da. apply (C k e I) in Da.
          assert (length (e_heap s1) < length (e_heap s1))%nat by (apply nth_error_Some; congruence). lia. }
      destruct (alloc s1 (vperm lay (value n))) as [b s2]. cbn [fst snd] in *.
      exists b, s2. split; auto. split; [eapply evo_trans; eauto|]. split; auto. split; auto.
      split; auto. intros p Hp. apply T, EV, Hp.
    - exists a, s1. split; auto. split; auto. split; auto. split; auto. split; auto. split; [congruence|].
      intros CN L NK. destruct n as [d|d l r]; [discriminate|].
      destruct (big_fresh peq op_type canon_phase vsum vprod vadj vphase le custom hook leafv roots K own KS PH LE HK CU d l r s CN W G NK)
        as (a' & s' & E' & Pa). rewrite E in E'. injection E' as <- <-. auto.
  Qed.

  Lemma range_acc : forall fuel layout nodes a s v, (forall n, In n nodes -> within roots n /\ (3 * size n <= fuel)%nat) ->
    ginv s -> private own a s -> nth_error (e_heap s) a = Some v ->
    exists s', evaluate_range fuel layout nodes (Some a) s = Done (Some a) s' /\ ginv s' /\ private own a s' /\
      nth_error (e_heap s') a = Some (fold_left vadd (map (fun n => post layout (value n)) nodes) v).
  Proof.
    induction nodes as [|n nodes IH]; intros a s v H G P N; cbn [Ev_Model.evaluate_range map fold_left].
    - exists s. auto.
    - destruct (H n (or_introl eq_refl)) as [W F].
      destruct (layout_ok fuel layout n s W G F) as (b & s1 & -> & EV & G1 & N1 & P1 & _).
      unfold add_inplace. rewrite (proj1 EV _ _ N), N1.
      assert (Pa := proj2 EV a P). assert (NE : b <> a) by (apply P1; auto).
      set (s2 := mkest (set_nth (e_heap s1) a (vadd v (post layout (value n)))) (e_cache s1) (e_log s1)).
      destruct Pa as (A1 & A2 & A3). destruct G1 as (C1 & K1 & IT).
      apply (IH a s2).
      + intros n' I. apply H. right; auto.
      + split; [|split; [auto|]].
        * intros k e I x Dx. cbn. rewrite set_nth_other; [eapply C1; eauto|]. intros <-. eapply A3; eauto.
        * intros x w I. cbn. rewrite set_nth_other; [auto|]. intros <-. apply A2. apply in_map_iff. exists (a, w). auto.
      + split; [cbn; rewrite set_nth_length; auto|]. split; auto.
      + cbn. apply set_nth_same. auto.
  Qed.

  Lemma range_ok : forall fuel layout n nodes s, (forall m, In m (n :: nodes) -> within roots m /\ (3 * size m <= fuel)%nat) ->
    ginv s ->
    (layout <> None \/ (custom = None /\ is_leaf n = false /\ (forall k, In k K -> node_eq peq k n = false))) ->
    exists a s', evaluate_range fuel layout (n :: nodes) None s = Done (Some a) s' /\ ginv s' /\
      nth_error (e_heap s') a = Some (fold_left vadd (map (fun m => post layout (value m)) nodes) (post layout (value n))).
  Proof.
    intros fuel layout n nodes s H G C. cbn [Ev_Model.evaluate_range].
    destruct (H n (or_introl eq_refl)) as [W F].
    destruct (layout_ok fuel layout n s W G F) as (a & s1 & -> & EV & G1 & N1 & P1 & PA & PB).
    assert (Pa : private own a s1) by (destruct C as [C|(C1 & C2 & C3)]; auto).
    destruct (range_acc fuel layout nodes a s1 _ (fun m I => H m (or_intror I)) G1 Pa N1) as (s' & E & G' & _ & N').
    exists a, s'. auto.
  Qed.
End Range.

(** ** The cache that cache_manager() builds, and what is left of it after evaluating the range *)
Section Build.
  Context {D : Type}.
  Variable peq : D -> D -> bool.
  Hypothesis EQ : equivb peq.
  Notation tr := (tree D).

  Lemma distinct_perm : forall {X} (m m' : list (tr * X)), Permutation m m' -> distinct_keys peq m -> distinct_keys peq m'.
  Proof.
    intros X m m' P. induction P as [|[k x] l l' P IH|[k x] [k' x'] l|l1 l2 l3 P1 IH1 P2 IH2]; cbn [distinct_keys]; auto.
    - intros [A B]. split; [|auto]. intros k' I. apply A. eapply Permutation_in; [|exact I]. apply Permutation_sym, Permutation_map, P.
    - cbn [map fst In]. intros [A [B C]]. split.
      + intros k0 [<-|I]; [|auto]. rewrite (node_eq_sym _ EQ). apply A. auto.
      + split; [|auto]. intros k0 I. apply A. auto.
  Qed.

  Lemma distinct_filter : forall {X} f (m : list (tr * X)), distinct_keys peq m -> distinct_keys peq (filter f m).
  Proof.
    induction m as [|[k x] m IH]; intros H; cbn; auto. destruct H as [A B]. destruct (f (k, x)); cbn; auto.
    split; auto. intros k' I. apply A. apply in_map_iff in I. destruct I as ([k1 x1] & <- & I). apply filter_In in I. 
    apply in_map_iff. exists (k1, x1). tauto.
  Qed.

  Lemma count_visit_distinct : forall n m, distinct_keys peq m -> distinct_keys peq (count_visit peq m n).
  Proof.
    induction n as [d|d l IHl r IHr]; intros m H; cbn [count_visit]; auto.
    unfold imed_visitor. destruct (find peq m (Node d l r)) eqn:F.
    - apply distinct_assign; auto.
    - apply IHr, IHl, distinct_snoc; auto.
  Qed.

  Lemma imed_distinct : forall nodes m, distinct_keys peq m -> distinct_keys peq (fold_left (count_visit peq) nodes m).
  Proof. induction nodes as [|n nodes IH]; intros m H; cbn; auto. apply IH, count_visit_distinct, H. Qed.

  Lemma List_find_find : forall {X} (m : list (tr * X)) k,
    find peq m k = option_map snd (List.find (fun kc => node_eq peq (fst kc) k) m).
  Proof. induction m as [|[k0 x] m IH]; intros k; cbn; auto. destruct (node_eq peq k0 k); auto. Qed.

  Lemma find_distinct_in : forall {X} (m : list (tr * X)) k k0 x, distinct_keys peq m -> In (k0, x) m -> node_eq peq k0 k = true ->
    find peq m k = Some x.
  Proof. intros. rewrite <- (find_eq _ EQ _ _ _ H1). apply in_find; auto. Qed.

  (** lookups in any permutation of the filtered counts *)
  Lemma find_filtered : forall nodes min ds k, Permutation ds (filtered peq nodes min) ->
    find peq ds k = match find peq (imed_counts peq nodes) k with
                    | Some c => if min <=? c then Some c else None
                    | None => None
                    end.
  Proof.
    intros nodes min ds k P.
    assert (DI : distinct_keys peq (imed_counts peq nodes)) by (apply imed_distinct; cbn; auto).
    assert (DF : distinct_keys peq (filtered peq nodes min)) by (apply distinct_filter; auto).
    assert (DD : distinct_keys peq ds) by (eapply distinct_perm; [apply Permutation_sym, P|auto]).
    destruct (find peq ds k) as [c|] eqn:F.
    - apply find_in in F. destruct F as (k' & I & E). apply (Permutation_in _ P) in I. unfold filtered in I.
      apply filter_In in I. destruct I as [I M]. cbn in M. rewrite (find_distinct_in _ _ _ _ DI I E), M. auto.
    - destruct (find peq (imed_counts peq nodes) k) as [c|] eqn:F2; auto.
      destruct (min <=? c) eqn:M; auto.
      apply find_in in F2. destruct F2 as (k' & I & E).
      assert (I2 : In (k', c) ds). { eapply Permutation_in; [apply Permutation_sym, P|]. unfold filtered. apply filter_In. auto. }
      rewrite (find_distinct_in _ _ _ _ DD I2 E) in F. discriminate.
  Qed.

  Lemma counts_internal : forall n m d, find peq m (Leaf d) = None -> find peq (count_visit peq m n) (Leaf d) = None.
  Proof.
    induction n as [d0|d0 l IHl r IHr]; intros m d H; cbn [count_visit]; auto.
    unfold imed_visitor. destruct (find peq m (Node d0 l r)) eqn:F.
    - rewrite (find_assign_other _ EQ); auto.
    - apply IHr, IHl. rewrite find_app, H. reflexivity.
  Qed.
  Lemma imed_internal : forall nodes m d, find peq m (Leaf d) = None -> find peq (fold_left (count_visit peq) nodes m) (Leaf d) = None.
  Proof. induction nodes as [|n nodes IH]; intros m d H; cbn; auto. apply IH, counts_internal, H. Qed.
End Build.

Section DrainAll.
  Context {D V : Type}.
  Variable peq : D -> D -> bool.
  Hypothesis EQ : equivb peq.
  Variable op_type : D -> eop.
  Variable canon_phase : D -> Z.
  Variable vsum vprod : D -> D -> D -> V -> V -> V.
  Variable vadj : D -> D -> V -> V.
  Variable vphase : Z -> V -> V.
  Variable vperm : D -> V -> V.
  Variable vadd : V -> V -> V.
  Notation est := (@est D V).
  Variable le : tree D -> list V -> nat * list V.
  Variable hook : tree D -> V -> V -> option V.
  Notation tr := (tree D).
  Hypothesis LE : forall n h, (length h <= length (snd (le n h)))%nat /\ (fst (le n h) < length (snd (le n h)))%nat.

  Notation evaluate_layout := (evaluate_layout peq op_type canon_phase vsum vprod vadj vphase vperm le None hook).
  Notation evaluate_range := (evaluate_range peq op_type canon_phase vsum vprod vadj vphase vperm vadd le None hook).
  Notation adjoint_ok := (adjoint_ok op_type).

  Lemma range_drain : forall tot K fuel layout nodes c s res, respects peq tot ->
    (forall n, In n nodes -> adjoint_ok n /\ (3 * size n <= fuel)%nat) -> dinv peq tot K c s ->
    (forall k, fcounts peq nodes c k <= tot k) -> (forall a, res = Some a -> a < length (e_heap s))%nat ->
    exists r s', evaluate_range fuel layout nodes res s = Done r s' /\ dinv peq tot K (fcounts peq nodes c) s' /\
      (nodes <> [] -> r <> None).
  Proof.
    intros tot K fuel layout nodes. induction nodes as [|n nodes IH]; intros c s res TR H I T R; cbn [Ev_Model.evaluate_range].
    - exists res, s. split; [reflexivity|]. split; [exact I|congruence].
    - destruct (H n (or_introl eq_refl)) as [AO F].
      assert (T1 : forall k, fcount peq c n k <= tot k).
      { intros k. specialize (T k). cbn [fcounts fold_left] in T. pose proof (fcounts_mono peq nodes (fcount peq c n) k).
        unfold fcounts in *. lia. }
      destruct (big_drain peq EQ op_type canon_phase vsum vprod vadj vphase le hook LE tot K TR n c s AO I T1)
        as (a & s1 & E1 & H1 & L1 & I1).
      assert (LAY : exists b s2, evaluate_layout fuel layout n s = Done (Some b) s2 /\ (b < length (e_heap s2))%nat /\
                 (length (e_heap s) <= length (e_heap s2))%nat /\ dinv peq tot K (fcount peq c n) s2).
      { unfold Ev_Model.evaluate_layout. rewrite evaluate_big by auto. rewrite E1. destruct layout as [lay|].
        - cbn [deref]. destruct (nth_error (e_heap s1) a) as [v|] eqn:N; [|apply nth_error_None in N; lia].
          exists (length (e_heap s1)). eexists. split; [reflexivity|]. cbn [e_heap alloc snd].
          rewrite app_length. cbn [length]. split; [lia|]. split; [lia|].
          eapply dinv_heap; [exact I1|reflexivity|reflexivity|]. cbn. rewrite app_length. cbn. lia.
        - exists a, s1. auto. }
      destruct LAY as (b & s2 & -> & Hb & L2 & I2).
      assert (R2 : exists a' s3, match res with
           | Some a => match add_inplace vadd s2 a b with Some s3 => evaluate_range fuel layout nodes (Some a) s3 | None => Failed end
           | None => evaluate_range fuel layout nodes (Some b) s2 end = evaluate_range fuel layout nodes (Some a') s3
           /\ (a' < length (e_heap s3))%nat /\ dinv peq tot K (fcount peq c n) s3).
      { destruct res as [a0|].
        - specialize (R a0 eq_refl). unfold add_inplace.
          destruct (nth_error (e_heap s2) a0) as [x|] eqn:N1; [|apply nth_error_None in N1; lia].
          destruct (nth_error (e_heap s2) b) as [y|] eqn:N2; [|apply nth_error_None in N2; lia].
          exists a0. eexists. split; [reflexivity|]. cbn [e_heap]. rewrite set_nth_length. split; [lia|].
          eapply dinv_heap; [exact I2|reflexivity|reflexivity|]. cbn. rewrite set_nth_length. lia.
        - exists b, s2. auto. }
      destruct R2 as (a' & s3 & E3 & H3 & I3).
      destruct (IH (fcount peq c n) s3 (Some a') TR (fun m J => H m (or_intror J)) I3 T ltac:(intros ? [= <-]; auto)) as (r & s' & E & I' & NE).
      exists r, s'. split; [|split; [exact I'|]].
      + destruct res as [a0|]; rewrite <- E, <- E3; reflexivity.
      + intros _. destruct nodes as [|m nodes]; [|apply NE; discriminate].
        cbn in E. injection E as <- <-. discriminate.
  Qed.

  Lemma start_dinv : forall nodes min ds (h : list V), min <= 2 -> Permutation ds (filtered peq nodes min) ->
    Z.of_nat (list_sum (map size nodes)) <= 4294967296 ->
    let c0 := cache_ctor peq ds (fun _ => false) in
    dinv peq (cnt peq (imed_counts peq nodes)) (map fst c0) (fun _ => 0) (mkest h c0 []) /\
    (forall k, fcounts peq nodes (fun _ => 0) k = cnt peq (imed_counts peq nodes) k) /\
    respects peq (cnt peq (imed_counts peq nodes)) /\
    (forall k e, find peq c0 k = Some e -> find peq (imed_counts peq nodes) k <> None).
  Proof.
    intros nodes min ds h M P B c0.
    destruct (imed_counts_fcounts peq EQ nodes [] ltac:(cbn; congruence)) as [A1 A2]. fold (imed_counts peq nodes) in A1, A2.
    assert (A : forall k, fcounts peq nodes (fun _ => 0) k = cnt peq (imed_counts peq nodes) k).
    { intros k. rewrite A1. apply fcounts_ext. reflexivity. }
    assert (FC : forall k, find peq c0 k = match find peq (imed_counts peq nodes) k with
       | Some c => if min <=? c then Some (new_entry c false) else None | None => None end).
    { intros k. unfold c0. rewrite (ctor_find peq EQ).
      pose proof (find_filtered peq EQ nodes min ds k P) as F. rewrite (List_find_find peq) in F.
      destruct (List.find _ ds) as [[k0 x]|]; cbn [option_map snd fst] in *.
      - destruct (find peq (imed_counts peq nodes) k) as [c|]; [|discriminate]. destruct (min <=? c); [|discriminate].
        injection F as <-. auto.
      - destruct (find peq (imed_counts peq nodes) k) as [c|]; [|auto]. destruct (min <=? c); [discriminate|auto]. }
    assert (RS : respects peq (cnt peq (imed_counts peq nodes))).
    { intros a b E. unfold cnt. rewrite (find_eq _ EQ _ _ _ E). auto. }
    split; [|split; [auto|split; [auto|]]].
    - constructor; cbn [e_cache e_heap e_log].
      + intros a b _. reflexivity.
      + intros k. lia.
      + reflexivity.
      + intros k e a F. rewrite FC in F. destruct (find peq (imed_counts peq nodes) k); [|discriminate].
        destruct (min <=? z); [|discriminate]. injection F as <-. discriminate.
      + intros d. rewrite FC. unfold imed_counts. rewrite (imed_internal peq EQ); auto.
      + intros k F. rewrite FC in F. unfold cnt. destruct (find peq (imed_counts peq nodes) k) as [c|] eqn:G; [|lia].
        destruct (Z.leb_spec min c); [discriminate|lia].
      + intros k e F _. rewrite FC in F. pose proof (A k) as Ak. pose proof (fcounts_bound peq nodes (fun _ => 0) k) as Bk.
        unfold cnt in *. destruct (find peq (imed_counts peq nodes) k) as [c|] eqn:G; [|discriminate].
        destruct (min <=? c); [|discriminate]. injection F as <-. cbn. specialize (A2 _ _ G).
        split; auto. split; [lia|]. split; [lia|]. split; [congruence|lia].
      + intros t _. reflexivity.
    - intros k e F. rewrite FC in F. destruct (find peq (imed_counts peq nodes) k); congruence.
  Qed.

  Lemma fcount_source : forall n c k, 0 < fcount peq c n k -> 0 < c k \/ exists u, In u (subtrees n) /\ node_eq peq u k = true.
  Proof.
    induction n as [d|d l IHl r IHr]; intros c k H; cbn [fcount] in H; auto.
    assert (B : 0 < bumpf peq c (Node d l r) k -> 0 < c k \/ exists u, In u (subtrees (Node d l r)) /\ node_eq peq u k = true).
    { unfold bumpf. destruct (node_eq peq (Node d l r) k) eqn:E; auto. intros _. right. exists (Node d l r). split; auto. apply subtrees_self. }
    destruct (0 <? c (Node d l r)); auto.
    destruct (IHr _ _ H) as [H1|(u & I & E)].
    - destruct (IHl _ _ H1) as [H2|(u & I & E)]; auto. right. exists u. split; auto. cbn [subtrees In]. right. apply in_app_iff. auto.
    - right. exists u. split; auto. cbn [subtrees In]. right. apply in_app_iff. auto.
  Qed.

  Lemma fcounts_source : forall nodes c k, 0 < fcounts peq nodes c k -> 0 < c k \/ exists u, within nodes u /\ node_eq peq u k = true.
  Proof.
    induction nodes as [|n nodes IH]; intros c k H; cbn [fcounts fold_left] in H; auto.
    destruct (IH _ _ H) as [H1|(u & (x & I & J) & E)].
    - destruct (fcount_source _ _ _ H1) as [H2|(u & I & E)]; auto. right. exists u. split; auto. exists n. cbn; auto.
    - right. exists u. split; auto. exists x. cbn; auto.
  Qed.

  Lemma drain_all : forall nodes min ds fuel layout h, min <= 2 -> Permutation ds (filtered peq nodes min) ->
    Z.of_nat (list_sum (map size nodes)) <= 4294967296 ->
    (forall n, In n nodes -> adjoint_ok n /\ (3 * size n <= fuel)%nat) ->
    exists r s', evaluate_range fuel layout nodes None (mkest h (cache_ctor peq ds (fun _ => false)) []) = Done r s' /\
      (nodes <> [] -> r <> None) /\
      (forall t, is_leaf t = false -> within nodes t -> occurrences peq t (e_log s') = 1%nat) /\
      (forall t, is_leaf t = false -> (forall u, within nodes u -> node_eq peq u t = false) -> occurrences peq t (e_log s') = 0%nat) /\
      (forall k, cache_alive peq (e_cache s') k = false).
  Proof.
    intros nodes min ds fuel layout h M P B H.
    destruct (start_dinv nodes min ds h M P B) as (I0 & A & RS & IN).
    destruct (range_drain _ _ fuel layout nodes _ _ None RS H I0 ltac:(intros k; rewrite A; lia) ltac:(discriminate))
      as (r & s' & E & I & NE).
    exists r, s'. split; [exact E|]. split; [exact NE|].
    assert (R0 : respects peq (fun _ : tr => 0)) by (intros ? ? ?; reflexivity).
    destruct (fcounts_closed peq EQ nodes (fun _ => 0) R0 ltac:(intros k; cbn; lia) ltac:(intros k Hk; lia)) as [_ POS].
    split; [|split].
    - intros t L (x & Ix & It). rewrite (di_log _ _ _ _ _ I t L). specialize (POS x t Ix It L).
      destruct (Z.ltb_spec 0 (fcounts peq nodes (fun _ => 0) t)); [auto|lia].
    - intros t L N. rewrite (di_log _ _ _ _ _ I t L). destruct (Z.ltb_spec 0 (fcounts peq nodes (fun _ => 0) t)) as [Q|Q]; auto.
      destruct (fcounts_source _ _ _ Q) as [Q'|(u & W & Eu)]; [lia|]. rewrite (N u W) in Eu. discriminate.
    - intros k. unfold cache_alive. destruct (find peq (e_cache s') k) as [e|] eqn:F; auto.
      destruct (di_entry _ _ _ _ _ I k e F ltac:(rewrite A; lia)) as (_ & _ & _ & D4). rewrite A in D4.
      unfold entry_alive. destruct (data_p e); auto. assert (0 < cnt peq (imed_counts peq nodes) k < cnt peq (imed_counts peq nodes) k) by (apply D4; discriminate). lia.
  Qed.
End DrainAll.

(** ** use counts *)
Section Uses.
  Context {D : Type}.
  Variable peq : D -> D -> bool.
  Hypothesis EQ : equivb peq.
  Notation tr := (tree D).
  Notation same := (node_eq peq).

  Lemma total_app : forall {A} (f : A -> Z) l l', total f (l ++ l') = total f l + total f l'.
  Proof. intros A f l l'. unfold total. induction l; cbn; [lia|]. cbn in *. lia. Qed.

  Lemma count_visit_uses : forall n M k, is_leaf k = false ->
    cnt peq (count_visit peq M n) k - total (child_uses same k) (map fst (count_visit peq M n)) =
    cnt peq M k - total (child_uses same k) (map fst M) + one (same n k).
  Proof.
    induction n as [d|d l IHl r IHr]; intros M k L; cbn [count_visit].
    - destruct k; [discriminate|]. cbn. lia.
    - unfold imed_visitor. destruct (find peq M (Node d l r)) as [c|] eqn:F.
      + rewrite assign_keys. assert (E : c = cnt peq M (Node d l r)) by (unfold cnt; rewrite F; auto). rewrite E at 1.
        rewrite (bump_cnt peq EQ) by congruence. unfold bumpf, one. destruct (same (Node d l r) k); lia.
      + rewrite IHr, IHl by auto. rewrite map_app, total_app. cbn [map fst].
        assert (E : cnt peq (M ++ [(Node d l r, 1)]) k = cnt peq M k + one (same (Node d l r) k)).
        { unfold cnt. rewrite find_app. destruct (same (Node d l r) k) eqn:E.
          - rewrite (find_eq _ EQ _ _ _ E) in F. rewrite F. cbn [find]. rewrite E. auto.
          - cbn [find one]. rewrite E. destruct (find peq M k); lia. }
        rewrite E. unfold total at 2. cbn [map fold_right child_uses]. lia.
  Qed.

  Lemma imed_uses : forall nodes M k, is_leaf k = false ->
    cnt peq (fold_left (count_visit peq) nodes M) k - total (child_uses same k) (map fst (fold_left (count_visit peq) nodes M)) =
    cnt peq M k - total (child_uses same k) (map fst M) + total (fun n => one (same n k)) nodes.
  Proof.
    induction nodes as [|n nodes IH]; intros M k L; cbn [fold_left]; [unfold total at 3; cbn; lia|].
    rewrite IH by auto. rewrite count_visit_uses by auto. unfold total at 4. cbn [map fold_right]. unfold total. lia.
  Qed.

  Lemma count_visit_within : forall n M k, In k (map fst (count_visit peq M n)) -> In k (map fst M) \/ (In k (subtrees n) /\ is_leaf k = false).
  Proof.
    induction n as [d|d l IHl r IHr]; intros M k I; cbn [count_visit] in I; auto.
    unfold imed_visitor in I. destruct (find peq M (Node d l r)).
    - rewrite assign_keys in I. auto.
    - destruct (IHr _ _ I) as [I1|[I1 L1]].
      + destruct (IHl _ _ I1) as [I2|[I2 L2]].
        * rewrite map_app in I2. apply in_app_iff in I2. destruct I2 as [I2|[<-|[]]]; auto. right. split; auto. apply subtrees_self.
        * right. split; auto. cbn [subtrees In]. right. apply in_app_iff. auto.
      + right. split; auto. cbn [subtrees In]. right. apply in_app_iff. auto.
  Qed.

  Lemma imed_within : forall nodes M k, In k (map fst (fold_left (count_visit peq) nodes M)) ->
    In k (map fst M) \/ (within nodes k /\ is_leaf k = false).
  Proof.
    induction nodes as [|n nodes IH]; intros M k I; cbn [fold_left] in I; auto.
    destruct (IH _ _ I) as [I1|[(x & Ix & Iy) L]].
    - destruct (count_visit_within _ _ _ I1) as [I2|[I2 L]]; auto. right. split; auto. exists n. cbn; auto.
    - right. split; auto. exists x. cbn; auto.
  Qed.

  Lemma imed_covers : forall nodes t, within nodes t -> is_leaf t = false -> find peq (imed_counts peq nodes) t <> None.
  Proof.
    intros nodes t (x & Ix & It) L.
    assert (R0 : respects peq (fun _ : tr => 0)) by (intros ? ? ?; reflexivity).
    destruct (fcounts_closed peq EQ nodes (fun _ => 0) R0 ltac:(intros k; cbn; lia) ltac:(intros k Hk; lia)) as [_ POS].
    specialize (POS x t Ix It L).
    destruct (imed_counts_fcounts peq EQ nodes [] ltac:(cbn; congruence)) as [A1 _]. fold (imed_counts peq nodes) in A1. specialize (A1 t).
    rewrite <- (fcounts_ext peq nodes (fun _ => 0) (cnt peq []) ltac:(reflexivity)) in A1. rewrite <- A1 in POS. unfold cnt in POS.
    destruct (find peq (imed_counts peq nodes) t); [discriminate|lia].
  Qed.
End Uses.
