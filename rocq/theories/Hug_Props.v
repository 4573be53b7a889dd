(** * Grouping of equivalent edges by HugenholtzVertex *)
From Coq Require Import List Arith Bool Sorted Lia.
From Verif Require Import Hug_Model Hug_Spec Hug_Proofs.
Import ListNotations.

Lemma cut_mid {A} (u w : list A) x : firstn (length u) (u ++ x :: w) ++ skipn (S (length u)) (u ++ x :: w) = u ++ w.
Proof. pose proof (vec_erase_mid (fun a : A => a) u w x) as H. rewrite !map_id in H. exact H. Qed.

Section Props.
  Context {Edge : Type} (equals : Edge -> Edge -> bool) (EQ : equivalence equals).

  Lemma call_ok chk c es es' v : inv equals es v -> effect equals c es = Some es' ->
    exists v', do_call equals chk c v = HOk v' /\ inv equals es' v'.
  Proof.
    intros H. destruct c as [i e|i e]; cbn [effect do_call].
    - destruct (Nat.leb_spec i (length es)) as [L|L]; [|discriminate]. intros E. injection E as <-.
      rewrite <- (firstn_skipn i es) in H.
      destruct (insert_ok equals EQ chk (firstn i es) (skipn i es) e v H) as [v' [A B]].
      rewrite firstn_length_le in A by exact L. exists v'. auto.
    - destruct (nth_error es i) as [x|] eqn:N; [|discriminate]. destruct (equals x e) eqn:X; [|discriminate].
      intros E. injection E as <-. destruct (nth_error_split _ _ N) as [u [w [-> L]]]. subst i.
      destruct (erase_ok equals EQ chk u x w e v H (fun _ => X)) as [v' [A B]]. exists v'. split; [exact A|].
      pose proof (cut_mid u w x) as K. cbn [skipn] in K |- *. rewrite K. exact B.
  Qed.

  Lemma calls_ok chk cs : forall es es' v, inv equals es v -> effects equals cs es = Some es' ->
    exists v', do_calls equals chk cs v = HOk v' /\ inv equals es' v'.
  Proof.
    induction cs as [|c cs IH]; intros es es' v H; cbn [effects do_calls].
    - intros E. injection E as <-. exists v. auto.
    - destruct (effect equals c es) as [es1|] eqn:E; [|discriminate]. intros F.
      destruct (call_ok chk c es es1 v H E) as [v1 [A B]]. rewrite A. apply (IH es1 es' v1 B F).
  Qed.
End Props.

(** C141: building a vertex from any edges and then any allowed history of insertions and erasures
    succeeds without a failed assertion, and the vertex shows exactly the resulting sequence: its length,
    the number of classes, and for each edge the sorted positions of the edges equivalent to it. *)
Theorem C141_history {Edge} (equals : Edge -> Edge -> bool) chk es0 cs es : equivalence equals ->
  effects equals cs es0 = Some es ->
  exists v0 v, make_vertex equals chk es0 = HOk v0 /\ do_calls equals chk cs v0 = HOk v /\ shows equals chk v es.
Proof.
  intros EQ H. destruct (add_edges_ok equals EQ chk es0 [] empty_vertex (empty_inv equals)) as [v0 [A B]].
  destruct (calls_ok equals EQ chk cs es0 es v0 B H) as [v [C D]].
  exists v0, v. split; [exact A|]. split; [exact C|]. apply inv_shows; assumption.
Qed.

(** The ordered sets behave as sets: inserting keeps the order, adds the element, and reports whether it
    is new; erasing removes it. *)
Theorem C141_sets : forall x s, StronglySorted lt s ->
  StronglySorted lt (fst (set_insert x s)) /\ (forall i, In i (fst (set_insert x s)) <-> i = x \/ In i s) /\
  (snd (set_insert x s) = true <-> ~ In x s) /\
  StronglySorted lt (set_erase x s) /\ (forall i, In i (set_erase x s) <-> i <> x /\ In i s).
Proof.
  intros x s H.
  assert (A : StronglySorted lt (fst (set_insert x s)) /\ (forall i, In i (fst (set_insert x s)) <-> i = x \/ In i s) /\
              (snd (set_insert x s) = true <-> ~ In x s)).
  { induction H as [|y s Hs (IH1 & IH2 & IH3) F]; cbn [set_insert].
    - cbn. split; [repeat constructor|]. split; [intros i; intuition|tauto].
    - pose proof F as F'. rewrite Forall_forall in F. destruct (Nat.ltb_spec y x) as [L|L]; cbn [fst snd].
      + split; [|split].
        * constructor; [exact IH1|]. apply Forall_forall. intros i Hi. apply IH2 in Hi. destruct Hi as [->|Hi]; [exact L|apply F; exact Hi].
        * intros i. cbn. rewrite IH2. intuition.
        * rewrite IH3. cbn. split; [intros N [E|E]; [lia|tauto]|tauto].
      + destruct (Nat.eqb_spec y x) as [->|NE]; cbn [fst snd].
        * split; [constructor; assumption|]. split; [intros i; cbn; intuition|]. split; [discriminate|]. intros N. exfalso. apply N. left. reflexivity.
        * split; [|split].
          -- constructor; [constructor; assumption|]. constructor; [lia|]. apply Forall_forall. intros i Hi. specialize (F i Hi). lia.
          -- intros i. cbn. intuition.
          -- split; [|reflexivity]. intros _ [E|E]; [lia|]. specialize (F x E). lia. }
  destruct A as (A1 & A2 & A3). split; [exact A1|]. split; [exact A2|]. split; [exact A3|]. unfold set_erase. split.
  - clear A1 A2 A3. induction H as [|y s Hs IH F]; cbn [filter]; [constructor|]. destruct (negb (y =? x)); [|exact IH].
    constructor; [exact IH|]. apply Forall_forall. intros i Hi. apply filter_In in Hi. rewrite Forall_forall in F. apply F. apply Hi.
  - intros i. rewrite filter_In. destruct (Nat.eqb_spec i x); cbn; intuition congruence.
Qed.

(** C142: after any allowed history, a call that is not allowed is refused when assertions are enabled:
    positions out of range throw, and erasing an edge that is not equivalent to the one at the position
    fails an assertion. *)
Theorem C142_refused {Edge} (equals : Edge -> Edge -> bool) chk es0 cs es v0 v : equivalence equals ->
  effects equals cs es0 = Some es -> make_vertex equals chk es0 = HOk v0 -> do_calls equals chk cs v0 = HOk v ->
  (forall i e, length es < i -> insert equals chk i e v = HThrow) /\
  (forall i e, length es <= i -> erase equals chk i e v = HThrow) /\
  (forall i x e, nth_error es i = Some x -> equals x e = false ->
     if chk then erase equals chk i e v = HAssert
     else exists v', erase equals chk i e v = HOk v' /\ shows equals chk v' (firstn i es ++ skipn (S i) es)).
Proof.
  intros EQ H E0 E1. destruct (add_edges_ok equals EQ chk es0 [] empty_vertex (empty_inv equals)) as [v0' [A B]].
  unfold make_vertex in E0. cbn [length] in A. rewrite A in E0. injection E0 as ->.
  destruct (calls_ok equals EQ chk cs es0 es v0 B H) as [v' [C D]]. rewrite C in E1. injection E1 as ->.
  pose proof D as (D1 & D2 & D3 & D4).
  assert (L : length (edge_to_group v) = length es) by (rewrite D1; apply map_length).
  split; [|split].
  - intros i e Hi. unfold insert. rewrite L. destruct (Nat.ltb_spec (length es) i); [reflexivity|lia].
  - intros i e Hi. unfold erase. assert (N : nth_error (edge_to_group v) i = None) by (apply nth_error_None; lia).
    rewrite N. reflexivity.
  - intros i x e N X. destruct chk.
    + destruct (proj1 (proj2 (proj2 (inv_shows equals EQ true es v D))) i x N) as (rep & s & G1 & G2 & G3 & _).
      unfold group in G1. unfold erase. destruct (nth_error (edge_to_group v) i) as [k|]; [|discriminate].
      destruct (nth_error (groups v) k) as [g|]; [|discriminate]. injection G1 as ->. cbn [fst snd andb].
      destruct (negb _); [reflexivity|]. destruct (negb _); [reflexivity|].
      rewrite (eq_left equals EQ rep x e G2), X. reflexivity.
    + destruct (nth_error_split _ _ N) as [u [w [-> Lu]]]. subst i.
      destruct (erase_ok equals EQ false u x w e v D) as [v' [P Q]]; [discriminate|]. exists v'. split; [exact P|].
      rewrite (cut_mid u w x). apply inv_shows; assumption.
Qed.

(** C143: what a vertex shows depends on the sequence only, not on the history that led to it: two
    histories ending in the same sequence give the same lengths, group sizes, members and number of
    nonempty groups. *)
Lemma sorted_same (a b : list nat) : StronglySorted lt a -> StronglySorted lt b -> (forall i, In i a <-> In i b) -> a = b.
Proof.
  intros Ha. revert b. induction Ha as [|x a Sa IH Fa]; intros b Hb H.
  - destruct b as [|y b]; [reflexivity|]. exfalso. apply (H y). left. reflexivity.
  - destruct Hb as [|y b Sb Fb]; [exfalso; apply (proj1 (H x)); left; reflexivity|].
    rewrite Forall_forall in Fa, Fb.
    assert (x = y).
    { destruct (proj1 (H x) (or_introl eq_refl)) as [E|E]; [auto|]. destruct (proj2 (H y) (or_introl eq_refl)) as [F|F]; [auto|].
      specialize (Fa _ F). specialize (Fb _ E). lia. }
    subst y. f_equal. apply IH; [exact Sb|]. intros i. split; intros Hi.
    + destruct (proj1 (H i) (or_intror Hi)) as [E|E]; [subst; specialize (Fa _ Hi); lia|exact E].
    + destruct (proj2 (H i) (or_intror Hi)) as [E|E]; [subst; specialize (Fb _ Hi); lia|exact E].
Qed.

Lemma classes_le {Edge} (equals : Edge -> Edge -> bool) (EQ : equivalence equals) (cs ds : list Edge) :
  ForallOrdPairs (fun a b => equals a b = false) cs ->
  (forall c, In c cs -> exists d, In d ds /\ equals c d = true) -> length cs <= length ds.
Proof.
  intros F. revert ds. induction F as [|c cs Hc F IH]; intros ds H; [cbn; lia|].
  destruct (H c (or_introl eq_refl)) as [d [Hd E]]. apply in_split in Hd. destruct Hd as [u [w ->]].
  rewrite app_length. cbn [length]. assert (L : length cs <= length (u ++ w)).
  { apply IH. intros c' Hc'. destruct (H c' (or_intror Hc')) as [d' [Hd' E']]. exists d'. split; [|exact E'].
    apply in_app_or in Hd'. apply in_or_app. destruct Hd' as [?|[?|?]]; auto. subst d'. exfalso.
    rewrite Forall_forall in Hc. specialize (Hc c' Hc'). destruct EQ as (_ & S & T).
    rewrite (T c d c' E (S _ _ E')) in Hc. discriminate. }
  rewrite app_length in L. lia.
Qed.

Theorem C143_history_independent {Edge} (equals : Edge -> Edge -> bool) chk es v w : equivalence equals ->
  shows equals chk v es -> shows equals chk w es ->
  num_edges v = num_edges w /\ num_nonempty_groups v = num_nonempty_groups w /\
  (forall i, group_size chk v i = group_size chk w i) /\
  (forall i r s, group v i = HOk (r, s) -> exists r', group w i = HOk (r', s) /\ equals r r' = true).
Proof.
  intros EQ (A1 & A2 & A3 & A4) (B1 & B2 & B3 & B4).
  assert (K : forall i e, nth_error es i = Some e -> exists r r' s, group v i = HOk (r, s) /\ group w i = HOk (r', s) /\
              equals r r' = true /\ group_size chk v i = HOk (length s) /\ group_size chk w i = HOk (length s)).
  { intros i e N. destruct (A3 i e N) as (r & s & P1 & P2 & (P3 & P4) & P5). destruct (B3 i e N) as (r' & s' & Q1 & Q2 & (Q3 & Q4) & Q5).
    assert (s = s') by (apply sorted_same; auto; intros j; rewrite P4, Q4; tauto). subst s'.
    exists r, r', s. split; [auto|]. split; [auto|]. split; [|auto]. destruct EQ as (_ & S & T). apply (T r e r'); auto. }
  split; [congruence|]. split; [|split].
  - destruct A2 as (cs & <- & C2 & C3 & C4). destruct B2 as (ds & <- & D2 & D3 & D4). destruct EQ as (R & S & T).
    assert (EQ' : equivalence equals) by (split; [exact R|split; assumption]).
    apply Nat.le_antisymm; eapply classes_le; eauto.
    + intros c Hc. destruct (C3 c Hc) as [e [He E]]. destruct (D4 e He) as [d [Hd E']]. exists d. split; [exact Hd|]. apply (T c e d); auto.
    + intros c Hc. destruct (D3 c Hc) as [e [He E]]. destruct (C4 e He) as [d [Hd E']]. exists d. split; [exact Hd|]. apply (T c e d); auto.
  - intros i. destruct (nth_error es i) as [e|] eqn:N.
    + destruct (K i e N) as (r & r' & s & _ & _ & _ & -> & ->). reflexivity.
    + apply nth_error_None in N. rewrite (proj2 (A4 i N)), (proj2 (B4 i N)). reflexivity.
  - intros i r s G. destruct (nth_error es i) as [e|] eqn:N.
    + destruct (K i e N) as (r1 & r' & s' & G1 & G2 & G3 & _). rewrite G in G1. injection G1 as -> ->. exists r'. auto.
    + apply nth_error_None in N. rewrite (proj1 (A4 i N)) in G. discriminate.
Qed.

(** C144: groups are never erased: the number of groups never decreases in any history, and is at least
    the number of nonempty ones. *)
Lemma update_len {A} k (f : A -> A) l : length (update_at k f l) = length l.
Proof. revert k. induction l as [|x l IH]; intros [|k]; cbn; auto. Qed.

Theorem C144_groups_kept {Edge} (equals : Edge -> Edge -> bool) chk cs : forall (v v' : @vertex Edge),
  do_calls equals chk cs v = HOk v' ->
  num_groups v <= num_groups v' <= num_groups v + length (filter (fun c => match c with CIns _ _ => true | CErs _ _ => false end) cs) /\
  num_nonempty_groups v' <= num_groups v'.
Proof.
  intros v v' H. split.
  - revert v H. induction cs as [|c cs IH]; intros v; cbn [do_calls filter].
    + intros E. injection E as <-. cbn. lia.
    + destruct (do_call equals chk c v) as [v1| |] eqn:E; try discriminate. intros H. specialize (IH v1 H).
      assert (G : num_groups v <= num_groups v1 <= num_groups v + match c with CIns _ _ => 1 | CErs _ _ => 0 end).
      { destruct c as [i e|i e]; cbn [do_call] in E; unfold num_groups.
        - unfold insert in E. destruct (_ <? i); [discriminate|]. cbv zeta in E.
          set (gs := if i <? length (edge_to_group v) then map _ (groups v) else groups v) in E.
          assert (L : length gs = length (groups v)) by (unfold gs; destruct (_ <? _); [apply map_length|reflexivity]).
          destruct (nth_error gs _).
          + destruct (chk && _); [discriminate|]. injection E as <-. cbn [groups]. rewrite update_len. lia.
          + injection E as <-. cbn [groups]. rewrite app_length. cbn. lia.
        - unfold erase in E. destruct (nth_error _ i); [|discriminate]. destruct (nth_error _ _); [|discriminate].
          destruct (chk && _); [discriminate|]. destruct (chk && _); [discriminate|]. destruct (chk && _); [discriminate|].
          cbv zeta in E. destruct (chk && _); [discriminate|]. injection E as <-. cbn [groups]. rewrite map_length, update_len. lia. }
      destruct c; cbn [length]; lia.
  - unfold num_nonempty_groups, num_groups. rewrite nonempty_fold.
    generalize (groups v'). intros gs. induction gs as [|g gs IH]; cbn; [lia|]. destruct (snd g); cbn in *; lia.
Qed.

Module HugExamples.
  (** Numbers, equivalent when they have the same parity. *)
  Definition par (a b : nat) : bool := Bool.eqb (Nat.even a) (Nat.even b).
  Theorem par_equivalence : equivalence par.
  Proof.
    unfold par. split; [intros a; apply Bool.eqb_reflx|]. split.
    - intros a b H. apply Bool.eqb_prop in H. rewrite H. apply Bool.eqb_reflx.
    - intros a b c H K. apply Bool.eqb_prop in H, K. rewrite H, K. apply Bool.eqb_reflx.
  Qed.
  Definition history := [CErs 1 4; CIns 0 7; CErs 2 5; CIns 2 8].
  Example an_effect : effects par history [1; 2; 3] = Some [7; 1; 8].
  Proof. reflexivity. Qed.
  Example a_run : match make_vertex par true [1; 2; 3] with
                  | HOk v0 => match do_calls par true history v0 with
                              | HOk v => (group v 0, group v 2, num_groups v, num_nonempty_groups v)
                                         = (HOk (1, [0; 1]), HOk (2, [2]), 2, 2)
                              | _ => False
                              end
                  | _ => False
                  end.
  Proof. reflexivity. Qed.

  (** If the equality is not an equivalence the groups need not be right: with one that is not
      transitive, an edge is reported in the group of an edge it does not equal. *)
  Definition near (a b : nat) : bool := (a <=? S b) && (b <=? S a).
  Theorem C141_not_transitive_refuted :
    (forall a, near a a = true) /\ (forall a b, near a b = near b a) /\
    exists v, make_vertex near true [1; 0; 2] = HOk v /\ group v 1 = HOk (1, [0; 1; 2]) /\ near 0 2 = false.
  Proof.
    split; [|split].
    - intros a. unfold near. apply andb_true_intro. split; apply Nat.leb_le; lia.
    - intros a b. unfold near. apply andb_comm.
    - eexists. split; [reflexivity|]. split; reflexivity.
  Qed.
End HugExamples.
