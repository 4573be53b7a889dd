(** Call logs, equality, sizes, numbering, extraction. *)
From Coq Require Import List Arith Bool Permutation Lia.
From Verif Require Import BT_Model BT_Spec BT_Proofs1 BT_Proofs2 BT_Proofs3.
Import ListNotations.

Definition logger (log : list (nat * context)) (a : nat) (c : context) : list (nat * context) * bool :=
  (log ++ [(a, c)], true).

Definition observe {T S} (f : S -> nat -> context -> S * bool) : S -> heap T -> nat -> context -> S * heap T * bool :=
  fun s h a c => let '(s', b) := f s a c in (s', h, b).

Lemma observe_step_heap : forall T S (f : S -> nat -> context -> S * bool) o k asserts s (h : heap T) cur prev s' h' nxt,
  visit_step (observe f) o k asserts s h cur prev = Some (s', h', nxt) -> h' = h.
Proof.
  intros *. unfold visit_step, observe.
  repeat (cbn beta iota zeta; match goal with
    | |- context [match ?x with _ => _ end] =>
        lazymatch x with context [match _ with _ => _ end] => fail | _ => destruct x end
    end); cbn; intros E; try discriminate; inversion E; subst; reflexivity.
Qed.

Lemma observe_loop_heap : forall T S (f : S -> nat -> context -> S * bool) o k asserts fuel s (h : heap T) cur prev s' h',
  visit_loop (observe f) o k asserts fuel s h cur prev = Some (s', h') -> h' = h.
Proof.
  induction fuel as [|n IH]; intros s h [a|] prev s' h' E; cbn [visit_loop] in E; try discriminate; try (inversion E; reflexivity).
  destruct (visit_step (observe f) o k asserts s h a prev) as [[[s1 h1] nxt]|] eqn:ES; [|discriminate].
  apply observe_step_heap in ES. subst h1. eauto.
Qed.

Theorem visit_observe : forall T S (f : S -> nat -> context -> S * bool) o k asserts s (t : atree T) h,
  o_pre o || o_post o || o_in o = true -> holds h None t ->
  exists n, forall fuel, n <= fuel ->
    visit (observe f) o k asserts fuel s h (aroot t) = Some (recursive_visit f o k s t, h).
Proof.
  intros T S f o k asserts s t h Ho H.
  destruct (visit_walk (observe f) (constVT f) o k asserts (const_implements f) s t _ t h Ho H (recursive_visit_walk f o k t s)) as (n & h' & L & G).
  exists n. intros fuel Hf. rewrite (L fuel Hf). specialize (L fuel Hf). unfold visit in L. rewrite Ho in L.
  apply observe_loop_heap in L. congruence.
Qed.

Lemma inner_for : forall k b, inner k b = b && for_internals k.
Proof. intros. unfold inner, for_internals. destruct k; reflexivity. Qed.

Lemma logger_events : forall T o k (t : atree T) log, recursive_visit logger o k log t = log ++ events o k t.
Proof.
  induction t as [a d|a d l IHl r IHr]; intros log.
  - cbn [recursive_visit events]. unfold tell, once, for_leaves, logger. destruct k; cbn; rewrite ?app_nil_r; reflexivity.
  - cbn [recursive_visit events]. rewrite !inner_for. unfold tell, once, logger.
    destruct (o_pre o && for_internals k), (o_in o && for_internals k), (o_post o && for_internals k); cbn;
      rewrite IHl, IHr; cbn; rewrite <- ?app_assoc; cbn; rewrite ?app_nil_r; reflexivity.
Qed.

Lemma events_pre : forall T (t : atree T), map fst (events only_pre VisitAll t) = preorder t.
Proof. induction t as [a d|a d l IHl r IHr]; cbn; auto. rewrite !map_app, IHl, IHr. rewrite app_nil_r. reflexivity. Qed.
Lemma events_in : forall T (t : atree T), map fst (events only_in VisitAll t) = inorder t.
Proof. induction t as [a d|a d l IHl r IHr]; cbn; auto. rewrite !map_app. cbn. rewrite !map_app, IHl, IHr. cbn. rewrite app_nil_r. reflexivity. Qed.
Lemma events_post : forall T (t : atree T), map fst (events only_post VisitAll t) = postorder t.
Proof. induction t as [a d|a d l IHl r IHr]; cbn; auto. rewrite !map_app, IHl, IHr. reflexivity. Qed.
Lemma events_leaf : forall T o (t : atree T), map fst (events o VisitLeaf t) = leaves t.
Proof.
  induction t as [a d|a d l IHl r IHr]; cbn; auto. unfold for_internals. rewrite !andb_false_r. cbn.
  rewrite !map_app, IHl, IHr. rewrite app_nil_r. reflexivity.
Qed.
Lemma events_internal : forall T (t : atree T), map fst (events only_pre VisitInternal t) = internals t.
Proof. induction t as [a d|a d l IHl r IHr]; cbn; auto. rewrite !map_app, IHl, IHr. rewrite app_nil_r. reflexivity. Qed.

Lemma preorder_addrs : forall T (t : atree T), preorder t = addrs t.
Proof. induction t as [a d|a d l IHl r IHr]; cbn; auto. rewrite IHl, IHr. reflexivity. Qed.
Lemma inorder_perm : forall T (t : atree T), Permutation (inorder t) (addrs t).
Proof.
  induction t as [a d|a d l IHl r IHr]; cbn; auto. rewrite <- Permutation_middle. constructor. apply Permutation_app; auto.
Qed.
Lemma postorder_perm : forall T (t : atree T), Permutation (postorder t) (addrs t).
Proof.
  induction t as [a d|a d l IHl r IHr]; cbn; auto. rewrite app_assoc. rewrite <- Permutation_cons_append. constructor. apply Permutation_app; auto.
Qed.
Lemma leaf_internal_perm : forall T (t : atree T), Permutation (leaves t ++ internals t) (addrs t).
Proof.
  induction t as [a d|a d l IHl r IHr]; cbn; auto. rewrite <- Permutation_middle. constructor.
  rewrite <- IHl, <- IHr. rewrite <- !app_assoc. apply Permutation_app_head. rewrite !app_assoc. apply Permutation_app_tail.
  apply Permutation_app_comm.
Qed.

Lemma pruned_log : forall T (p : nat -> bool) (t : atree T) log,
  recursive_visit (fun lg a (_ : context) => (lg ++ [a], p a)) only_pre VisitAll log t = log ++ pruned_preorder p t.
Proof.
  induction t as [a d|a d l IHl r IHr]; intros log; cbn; auto.
  destruct (p a); cbn; auto. unfold tell. cbn. rewrite IHl, IHr. rewrite <- !app_assoc. cbn. reflexivity.
Qed.

(** ** Starting below the root *)

(** The step-by-step form keeps the heap. *)
Lemma steps_heap : forall T S (f : S -> nat -> context -> S * bool) o k asserts (t : atree T) s h par prev,
  holds h par t -> prev_ok par t prev ->
  exists n, forall fuel, visit_loop (observe f) o k asserts (n + fuel) s h (Some (aroot t)) prev =
    visit_loop (observe f) o k asserts fuel (recursive_visit f o k s t) h par (aroot t).
Proof.
  intros T S f o k asserts t. induction t as [a d|a d l IHl r IHr]; intros s h par prev H P.
  - exists 1. intros fuel. cbn [Nat.add visit_loop aroot]. unfold visit_step. rewrite (holds_leaf _ _ _ _ H).
    cbn [c_leaf c_left c_right recursive_visit]. unfold tell, wants_leaf, observe. destruct k; cbn;
    try (destruct (f s a CtxAny); cbn); rewrite (holds_leaf _ _ _ _ H); reflexivity.
  - pose proof (holds_left _ _ _ _ _ _ H) as Hl. pose proof (holds_right _ _ _ _ _ _ H) as Hr.
    pose proof (holds_node _ _ _ _ _ _ H) as Ca.
    assert (Pl : prev_ok (Some a) l a). { cbn. split; auto. destruct H as (_ & _ & N). rewrite nodup_node in N. tauto. }
    assert (Pr : prev_ok (Some a) r a). { cbn. split; auto. destruct H as (_ & _ & N). rewrite nodup_node in N. tauto. }
    destruct (step_pre (observe f) (constVT f) o k asserts (const_implements f) s h par a d l r prev
      (fst (tell f (inner k (o_pre o)) CtxPre s a)) (ANode a d l r) (snd (tell f (inner k (o_pre o)) CtxPre s a)) H P) as (h1 & _ & ST1).
    { rewrite call_const. reflexivity. }
    pose proof (observe_step_heap _ _ _ _ _ _ _ _ _ _ _ _ _ ST1). subst h1.
    cbn [recursive_visit]. destruct (tell f (inner k (o_pre o)) CtxPre s a) as [s1 b1]. cbn [fst snd] in ST1.
    destruct b1.
    2:{ exists 1. intros fuel. cbn [aroot Nat.add]. exact (loop_step (observe f) o k asserts fuel s h a prev s1 h par ST1). }
    destruct (IHl s1 h (Some a) a Hl Pl) as (n1 & L1).
    set (s2 := recursive_visit f o k s1 l) in *.
    destruct (step_in (observe f) (constVT f) o k asserts (const_implements f) s2 h par a d l r
      (fst (tell f (inner k (o_in o)) CtxIn s2 a)) (ANode a d l r) (snd (tell f (inner k (o_in o)) CtxIn s2 a)) H) as (h1 & _ & ST2).
    { rewrite call_const. reflexivity. }
    pose proof (observe_step_heap _ _ _ _ _ _ _ _ _ _ _ _ _ ST2). subst h1.
    destruct (tell f (inner k (o_in o)) CtxIn s2 a) as [s3 b3]. cbn [fst snd] in ST2.
    destruct b3.
    2:{ exists (1 + (n1 + 1)). intros fuel. cbn [aroot].
        replace (1 + (n1 + 1) + fuel) with (Datatypes.S (n1 + Datatypes.S fuel)) by lia.
        etransitivity; [exact (loop_step (observe f) o k asserts _ s h a prev s1 h _ ST1)|].
        etransitivity; [exact (L1 _)|]. exact (loop_step (observe f) o k asserts fuel _ h a _ s3 h par ST2). }
    destruct (IHr s3 h (Some a) a Hr Pr) as (n2 & L2).
    set (s4 := recursive_visit f o k s3 r) in *.
    destruct (step_post (observe f) (constVT f) o k asserts (const_implements f) s4 h par a d l r
      (fst (tell f (inner k (o_post o)) CtxPost s4 a)) (ANode a d l r) (snd (tell f (inner k (o_post o)) CtxPost s4 a)) H) as (h1 & _ & ST3).
    { rewrite call_const. reflexivity. }
    pose proof (observe_step_heap _ _ _ _ _ _ _ _ _ _ _ _ _ ST3). subst h1.
    exists (1 + (n1 + (1 + (n2 + 1)))). intros fuel. cbn [aroot].
    replace (1 + (n1 + (1 + (n2 + 1))) + fuel) with (Datatypes.S (n1 + Datatypes.S (n2 + Datatypes.S fuel))) by lia.
    etransitivity; [exact (loop_step (observe f) o k asserts _ s h a prev s1 h _ ST1)|].
    etransitivity; [exact (L1 _)|].
    etransitivity; [exact (loop_step (observe f) o k asserts _ _ h a _ s3 h _ ST2)|].
    etransitivity; [exact (L2 _)|].
    exact (loop_step (observe f) o k asserts fuel _ h a _ _ h par ST3).
Qed.

Lemma nonroot_leaf : forall T asserts (h : heap T) a d b e r,
  holds h None (ANode a d (ALeaf b e) r) ->
  exists n, forall fuel, n <= fuel ->
    visit (observe logger) only_pre VisitAll asserts fuel [] h b = Some ((b, CtxAny) :: events only_pre VisitAll r, h).
Proof.
  intros T asserts h a d b e r H.
  pose proof (holds_left _ _ _ _ _ _ H) as Hb. pose proof (holds_right _ _ _ _ _ _ H) as Hr.
  pose proof (holds_node _ _ _ _ _ _ H) as Ca. pose proof (holds_leaf _ _ _ _ Hb) as Cb. cbn [aroot] in Ca.
  assert (Pr : prev_ok (Some a) r a). { cbn. split; auto. destruct H as (_ & _ & N). rewrite nodup_node in N. tauto. }
  destruct (steps_heap T _ logger only_pre VisitAll asserts r [(b, CtxAny)] h (Some a) a Hr Pr) as (n & L).
  assert (RD : b <> aroot r) by (apply (roots_differ _ _ _ _ _ _ H)).
  exists (2 + (n + 1)). intros fuel Hf.
  replace fuel with (S (S (n + (S (fuel - n - 3))))) by lia.
  unfold visit. cbn [only_pre o_pre o_post o_in orb]. cbn [visit_loop].
  unfold visit_step at 1. rewrite Cb. cbn. rewrite Cb. cbn [c_parent c_leaf c_left c_right visit_loop].
  unfold visit_step at 1. rewrite Ca. cbn. rewrite Nat.eqb_refl. rewrite Ca. cbn.
  rewrite L. rewrite logger_events. cbn [visit_loop]. unfold visit_step. rewrite Ca. cbn.
  replace (aroot r =? b) with false by (symmetry; apply Nat.eqb_neq; auto). rewrite Nat.eqb_refl.
  rewrite Ca. cbn. destruct (fuel - n - 3); reflexivity.
Qed.

Lemma nonroot_internal_asserts : forall T S (f : S -> nat -> context -> S * bool) o k fuel s (h : heap T) p t,
  o_pre o || o_post o || o_in o = true ->
  holds h (Some p) t -> ~ In p (addrs t) -> children t <> [] ->
  visit (observe f) o k true fuel s h (aroot t) = None.
Proof.
  intros T S f o k fuel s h p t Ho H Hp Hc. destruct t as [a d|a d l r]; [destruct Hc; reflexivity|].
  unfold visit. rewrite Ho. destruct fuel as [|n]; [reflexivity|]. cbn [visit_loop aroot]. unfold visit_step.
  rewrite (holds_node _ _ _ _ _ _ H). cbn.
  destruct (roots_differ _ _ _ _ _ _ H) as (R1 & R2 & R3).
  replace (a =? aroot l) with false by (symmetry; apply Nat.eqb_neq; auto).
  replace (a =? aroot r) with false by (symmetry; apply Nat.eqb_neq; auto).
  replace (a =? p) with false; [reflexivity|]. symmetry. apply Nat.eqb_neq. intros ->. apply Hp. left. reflexivity.
Qed.

(** ** Plain trees *)
Lemma size_data : forall T (t : tree T), size t = length (tdata t).
Proof. induction t; cbn; auto. rewrite !app_length. cbn. lia. Qed.
Lemma size_leaves : forall T (t : tree T), S (size t) = 2 * length (tleaves t).
Proof. induction t; cbn; auto. rewrite app_length. lia. Qed.
Lemma size_addrs : forall T (t : atree T), size (strip t) = length (addrs t).
Proof. induction t; cbn; auto. rewrite app_length. lia. Qed.

Lemma left_comb_leaves : forall T (op : T -> T -> T) rs t, tleaves (left_comb op t rs) = tleaves t ++ flat_map tleaves rs.
Proof.
  induction rs as [|r rs IH]; intros t; cbn; [rewrite app_nil_r; auto|].
  unfold left_comb in *. rewrite IH. cbn. rewrite app_assoc. reflexivity.
Qed.

Lemma left_comb_data : forall T (op : T -> T -> T) rs t, data (left_comb op t rs) = fold_left op (map data rs) (data t).
Proof. induction rs as [|r rs IH]; intros t; cbn; auto. unfold left_comb in *. rewrite IH. reflexivity. Qed.

Section Eq.
  Context {T U : Type}.
  Variable eqb : T -> U -> bool.

  Lemma eqb_true : forall a b, tree_eqb eqb a b = Some true <-> same_tree (fun x y => eqb x y = true) a b.
  Proof.
    induction a as [x|x la IHl ra IHr]; intros [y|y lb rb]; cbn; destruct (eqb x y) eqn:E; cbn; split; intros H; try discriminate; try (inversion H; subst; congruence).
    - constructor; auto.
    - destruct (tree_eqb eqb la lb) as [[]|] eqn:E1; try discriminate. constructor; [auto|apply IHl; auto|apply IHr; auto].
    - inversion H; subst. match goal with A : same_tree _ la _, B : same_tree _ ra _ |- _ => apply IHl in A; apply IHr in B; rewrite A; auto end.
  Qed.

  Lemma eqb_shape : forall a b, same_shape a b -> tree_eqb eqb a b <> None.
  Proof.
    induction a as [x|x la IHl ra IHr]; intros b H; inversion H; subst; cbn; destruct (eqb x b0) eqn:E; cbn; try discriminate.
    match goal with A : same_tree _ la _, B : same_tree _ ra _ |- _ => specialize (IHl _ A); specialize (IHr _ B) end. destruct (tree_eqb eqb la l2) as [[]|]; try congruence; auto.
  Qed.

  Definition kinds_differ (a : tree T) (b : tree U) : Prop :=
    (forall x y, In x (tleaves a) -> In y (tinternals b) -> eqb x y = false) /\
    (forall x y, In x (tinternals a) -> In y (tleaves b) -> eqb x y = false).

  Lemma eqb_total : forall a b, kinds_differ a b -> tree_eqb eqb a b <> None.
  Proof.
    induction a as [x|x la IHl ra IHr]; intros [y|y lb rb] (K1 & K2); cbn.
    - destruct (eqb x y); cbn; discriminate.
    - rewrite K1; cbn; auto; discriminate.
    - rewrite K2; cbn; auto; discriminate.
    - destruct (eqb x y); cbn; [|discriminate].
      assert (tree_eqb eqb la lb <> None).
      { apply IHl. split; intros p q Hp Hq; [apply K1|apply K2]; cbn; rewrite ?in_app_iff; auto. }
      assert (tree_eqb eqb ra rb <> None).
      { apply IHr. split; intros p q Hp Hq; [apply K1|apply K2]; cbn; rewrite ?in_app_iff; auto. }
      destruct (tree_eqb eqb la lb) as [[]|]; auto.
  Qed.
End Eq.

(** ** digraph *)
Lemma subtrees_len : forall T (t : tree T), length (subtrees_pre t) = size t.
Proof. induction t; cbn; auto. rewrite app_length. lia. Qed.

Lemma size_pos : forall T (t : tree T), 1 <= size t.
Proof. destruct t; cbn; lia. Qed.

Lemma digraph_last : forall T (t : tree T) c, fst (digraph t c) + 1 = c + size t.
Proof.
  induction t as [d|d l IHl r IHr]; intros c; cbn; auto.
  specialize (IHl (c + 1)). destruct (digraph l (c + 1)) as [lc ol]. cbn in IHl.
  specialize (IHr (lc + 1)). destruct (digraph r (lc + 1)) as [rc orr]. cbn in *. lia.
Qed.

Lemma digraph_nodes : forall T (t : tree T) c, dot_nodes (snd (digraph t c)) = combine (seq c (size t)) (subtrees_pre t).
Proof.
  induction t as [d|d l IHl r IHr]; intros c; cbn; auto.
  pose proof (digraph_last _ l (c + 1)) as EL. specialize (IHl (c + 1)). destruct (digraph l (c + 1)) as [lc ol]. cbn in IHl, EL.
  pose proof (digraph_last _ r (lc + 1)) as ER. specialize (IHr (lc + 1)). destruct (digraph r (lc + 1)) as [rc orr]. cbn in IHr, ER |- *.
  unfold dot_nodes in *. cbn. rewrite !flat_map_app, IHl, IHr. cbn. rewrite app_nil_r.
  replace (size l + size r + 1) with (S (size l + size r)) by lia. cbn. f_equal.
  rewrite seq_app. replace (S c) with (c + 1) by lia. replace (c + 1 + size l) with (lc + 1) by lia.
  assert (X : forall (a1 a2 : list nat) (b1 b2 : list (tree T)), length a1 = length b1 -> combine (a1 ++ a2) (b1 ++ b2) = combine a1 b1 ++ combine a2 b2).
  { induction a1; destruct b1; cbn; intros; try discriminate; auto. f_equal. auto. }
  rewrite X; auto. rewrite seq_length, subtrees_len. auto.
Qed.

Lemma digraph_edges : forall T (t : tree T) c i j,
  In (i, j) (dot_edges (snd (digraph t c))) <->
  exists n d l r, i = c + n /\ nth_error (subtrees_pre t) n = Some (Node d l r) /\ (j = i + 1 \/ j = i + 1 + size l).
Proof.
  induction t as [d|d l IHl r IHr]; intros c i j.
  - cbn. split; [tauto|]. intros (n & d' & l & r & _ & H & _). destruct n as [|[|n]]; cbn in H; discriminate.
  - cbn [digraph]. pose proof (digraph_last _ l (c + 1)) as EL. specialize (IHl (c + 1) i j). destruct (digraph l (c + 1)) as [lc ol]. cbn in IHl, EL.
    pose proof (digraph_last _ r (lc + 1)) as ER. specialize (IHr (lc + 1) i j). destruct (digraph r (lc + 1)) as [rc orr]. cbn in IHr, ER |- *.
    unfold dot_edges in *. cbn. rewrite !flat_map_app. cbn. rewrite !in_app_iff, IHl, IHr. cbn [In]. split.
    + intros [H|[H|[H|[H|[]]]]].
      * destruct H as (n & d' & l' & r' & -> & Hn & Hj). exists (S n), d', l', r'. cbn. repeat split; [lia| |].
        -- rewrite nth_error_app1; auto. apply nth_error_Some. congruence.
        -- lia.
      * destruct H as (n & d' & l' & r' & -> & Hn & Hj). exists (S (size l + n)), d', l', r'. cbn. repeat split; [lia| |].
        -- rewrite nth_error_app2; rewrite subtrees_len; [|lia]. replace (size l + n - size l) with n by lia. auto.
        -- lia.
      * inversion H; subst. exists 0, d, l, r. cbn. repeat split; auto; lia.
      * inversion H; subst. exists 0, d, l, r. cbn. repeat split; auto; lia.
    + intros ([|n] & d' & l' & r' & -> & Hn & Hj); cbn in Hn.
      * inversion Hn; subst. right. right. destruct Hj as [->| ->]; [left|right; left]; f_equal; lia.
      * destruct (Nat.lt_ge_cases n (size l)) as [Lt|Ge].
        -- left. exists n, d', l', r'. rewrite nth_error_app1 in Hn by (rewrite subtrees_len; auto). repeat split; auto; lia.
        -- right. left. exists (n - size l), d', l', r'. rewrite nth_error_app2 in Hn by (rewrite subtrees_len; auto). rewrite subtrees_len in Hn.
           repeat split; auto; lia.
Qed.

(** The subtree numbers the edges lead to are the children. *)
Lemma subtrees_children : forall T (t : tree T) n d l r, nth_error (subtrees_pre t) n = Some (Node d l r) ->
  nth_error (subtrees_pre t) (n + 1) = Some l /\ nth_error (subtrees_pre t) (n + 1 + size l) = Some r.
Proof.
  induction t as [d0|d0 l0 IHl r0 IHr]; intros n d l r H.
  - destruct n as [|[|n]]; cbn in H; discriminate.
  - assert (Z : forall t : tree T, nth_error (subtrees_pre t) 0 = Some t) by (destruct t; reflexivity).
    destruct n as [|n]; cbn in H.
    + inversion H; subst. split; [change (nth_error (subtrees_pre l ++ subtrees_pre r) 0 = Some l)|change (nth_error (subtrees_pre l ++ subtrees_pre r) (size l) = Some r)].
      * rewrite nth_error_app1 by (rewrite subtrees_len; pose proof (size_pos _ l); lia). apply Z.
      * rewrite nth_error_app2 by (rewrite subtrees_len; auto). rewrite subtrees_len, Nat.sub_diag. apply Z.
    + cbn [Nat.add subtrees_pre nth_error]. destruct (Nat.lt_ge_cases n (size l0)) as [Lt|Ge].
      * rewrite nth_error_app1 in H by (rewrite subtrees_len; auto). apply IHl in H. destruct H as (H1 & H2).
        assert (A1 : n + 1 < length (subtrees_pre l0)) by (apply nth_error_Some; congruence).
        assert (A2 : n + 1 + size l < length (subtrees_pre l0)) by (apply nth_error_Some; congruence).
        rewrite !nth_error_app1 by auto. auto.
      * rewrite nth_error_app2 in H by (rewrite subtrees_len; auto). rewrite subtrees_len in H. apply IHr in H. destruct H as (H1 & H2).
        rewrite !nth_error_app2 by (rewrite subtrees_len; lia). rewrite subtrees_len.
        replace (n + 1 - size l0) with (n - size l0 + 1) by lia. replace (n + 1 + size l - size l0) with (n - size l0 + 1 + size l) by lia. auto.
Qed.

(** ** extract_subtrees *)
Section Ex.
  Context {T : Type}.
  Variable pred : tree T -> bool -> bool -> bool.
  Variable collapse : T -> T.
  Hypothesis SH : shallow pred.

  (** The node itself before its parent decides: only nodes strictly below are replaced. *)
  Definition below (t : tree T) : tree T :=
    match t with Leaf _ => t | Node d l r => Node d (cut pred collapse (matches pred t) l) (cut pred collapse (matches pred t) r) end.

  Lemma cut_below : forall above t, cut pred collapse above t =
    if matches pred t && negb above then Leaf (collapse (data t)) else below t.
  Proof. intros above t. destruct t; cbn [cut below]; reflexivity. Qed.

  Definition taken_below (t : tree T) : list (tree T) :=
    match t with Leaf _ => [] | Node d l r => taken pred collapse (matches pred t) l ++ taken pred collapse (matches pred t) r end.

  Lemma taken_split : forall above t, taken pred collapse above t =
    taken_below t ++ if matches pred t && negb above then [below t] else [].
  Proof. intros above t. destruct t; cbn [taken taken_below below app]; [reflexivity|]. rewrite app_assoc. reflexivity. Qed.

  Lemma below_data : forall t, data (below t) = data t.
  Proof. destruct t; reflexivity. Qed.
  Lemma below_leaf : forall t, is_leaf (below t) = is_leaf t.
  Proof. destruct t; reflexivity. Qed.

  Lemma extract_visit_ok : forall t, exists res, extract_visit pred collapse t = (matches pred t, below t, res) /\
    Permutation res (taken_below t).
  Proof.
    induction t as [d|d l (rl & El & Pl) r (rr & Er & Pr)].
    - exists []. cbn. auto.
    - cbn [extract_visit]. rewrite El, Er.
      assert (EP : pred (Node d (below l) (below r)) (matches pred l) (matches pred r) = matches pred (Node d l r)).
      { cbn [matches]. apply SH; auto using below_data, below_leaf. }
      rewrite EP. cbn [below taken_below]. rewrite !taken_split, !cut_below.
      destruct (matches pred (Node d l r)) eqn:EM.
      + rewrite !andb_false_r, !app_nil_r. eexists. split; [reflexivity|]. apply Permutation_app; auto.
      + rewrite !andb_true_r. unfold capture. rewrite !below_data.
        destruct (matches pred l), (matches pred r); eexists; (split; [reflexivity|]); cbn; rewrite ?app_nil_r.
        * rewrite Pl, Pr. rewrite <- app_assoc. apply Permutation_app_head. cbn.
          rewrite (Permutation_app_comm (taken_below r) [below l; below r]). cbn. constructor. apply Permutation_cons_append.
        * rewrite Pl, Pr. rewrite <- app_assoc. apply Permutation_app_head. cbn. symmetry. apply Permutation_cons_append.
        * rewrite Pl, Pr. reflexivity.
        * apply Permutation_app; auto.
  Qed.

  Lemma extract_tree_ok : forall t, exists res, extract_tree pred collapse t = (cut pred collapse false t, res) /\
    Permutation res (taken pred collapse false t).
  Proof.
    intros t. unfold extract_tree. destruct (extract_visit_ok t) as (res & E & P). rewrite E.
    rewrite cut_below, taken_split. rewrite andb_true_r. destruct (matches pred t).
    - unfold capture. rewrite below_data. eexists. split; [reflexivity|]. apply Permutation_app; auto.
    - eexists. split; [reflexivity|]. rewrite app_nil_r. auto.
  Qed.

  Lemma extract_forest_ok : forall ts, exists res, extract_subtrees pred collapse ts = (map (cut pred collapse false) ts, res) /\
    Permutation res (flat_map (taken pred collapse false) ts).
  Proof.
    assert (X : forall ts a b, exists res, fold_left (fun (acc : list (tree T) * list (tree T)) n =>
                 let '(t, res) := extract_tree pred collapse n in (fst acc ++ [t], snd acc ++ res)) ts (a, b) =
                 (a ++ map (cut pred collapse false) ts, b ++ res) /\ Permutation res (flat_map (taken pred collapse false) ts)).
    { induction ts as [|t ts IH]; intros a b; cbn [fold_left map flat_map].
      - exists []. rewrite !app_nil_r. auto.
      - destruct (extract_tree_ok t) as (r1 & E1 & P1). rewrite E1. cbn [fst snd].
        destruct (IH (a ++ [cut pred collapse false t]) (b ++ r1)) as (r2 & E2 & P2). rewrite E2.
        exists (r1 ++ r2). rewrite <- !app_assoc. split; [reflexivity|]. apply Permutation_app; auto. }
    intros ts. destruct (X ts [] []) as (res & E & P). exists res. unfold extract_subtrees. rewrite E. auto.
  Qed.
End Ex.
