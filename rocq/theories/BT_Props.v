(** Final theorems about binary trees. *)
From Coq Require Import List Arith Bool Permutation Lia.
From Verif Require Import BT_Model BT_Spec BT_Proofs1 BT_Proofs2 BT_Proofs3 BT_Proofs4.
Import ListNotations.

(** ** C16 *)

(** On the root of a tree held in the heap, for every requested combination of orders, kind of
    nodes and visitor (also one that rewrites the subtree it is called on), the loop does what
    the recursive traversal does whenever the latter is finite. No pointer is null or dangling
    and the assertion never fails. *)
Theorem C16_visit : forall (T S : Type) V VT o k asserts, implements (T := T) (S := S) V VT ->
  o_pre o || o_post o || o_in o = true ->
  forall s t s' t' h, holds h None t -> walk VT o k s t s' t' ->
  exists n h', (forall fuel, n <= fuel -> visit V o k asserts fuel s h (aroot t) = Some (s', h')) /\
    holds h' None t' /\ only_touches (addrs t) h h'.
Proof.
  intros T S V VT o k asserts IMP Ho s t s' t' h H W.
  destruct (visit_walk V VT o k asserts IMP s t s' t' h Ho H W) as (n & h' & L & G).
  exists n, h'. split; [exact L|]. destruct G as (G1 & _ & G2 & _). auto.
Qed.

(** A visitor that leaves the tree alone: the loop terminates and computes the recursive
    traversal. *)
Theorem C16_visit_const : forall (T S : Type) (f : S -> nat -> context -> S * bool) o k asserts s (t : atree T) h,
  o_pre o || o_post o || o_in o = true -> holds h None t ->
  exists n, forall fuel, n <= fuel ->
    visit (fun s h a c => let '(s', b) := f s a c in (s', h, b)) o k asserts fuel s h (aroot t)
      = Some (recursive_visit f o k s t, h).
Proof. exact visit_observe. Qed.

(** Every call made, in order. *)
Theorem C16_calls : forall (T : Type) o k asserts (t : atree T) h,
  o_pre o || o_post o || o_in o = true -> holds h None t ->
  exists n, forall fuel, n <= fuel ->
    visit (fun log h a c => (log ++ [(a, c)], h, true)) o k asserts fuel [] h (aroot t) = Some (events o k t, h).
Proof.
  intros T o k asserts t h Ho H. destruct (visit_observe T _ logger o k asserts [] t h Ho H) as (n & L).
  exists n. intros fuel Hf. specialize (L fuel Hf). rewrite logger_events in L. exact L.
Qed.

(** The requested order, and every node (leaf, internal node) exactly once. *)
Theorem C16_orders : forall (T : Type) (t : atree T),
  map fst (events only_pre VisitAll t) = preorder t /\
  map fst (events only_in VisitAll t) = inorder t /\
  map fst (events only_post VisitAll t) = postorder t /\
  (forall o, map fst (events o VisitLeaf t) = leaves t) /\
  map fst (events only_pre VisitInternal t) = internals t /\
  Permutation (preorder t) (addrs t) /\ Permutation (inorder t) (addrs t) /\
  Permutation (postorder t) (addrs t) /\ Permutation (leaves t ++ internals t) (addrs t).
Proof.
  intros T t. repeat split.
  - apply events_pre. - apply events_in. - apply events_post. - intros o; apply events_leaf.
  - apply events_internal. - rewrite preorder_addrs; auto. - apply inorder_perm. - apply postorder_perm.
  - apply leaf_internal_perm.
Qed.

(** Pruning: subtrees of rejected nodes are not entered. *)
Theorem C16_pruning : forall (T : Type) (p : nat -> bool) asserts (t : atree T) h, holds h None t ->
  exists n, forall fuel, n <= fuel ->
    visit (fun log h a c => (log ++ [a], h, p a)) only_pre VisitAll asserts fuel [] h (aroot t)
      = Some (pruned_preorder p t, h).
Proof.
  intros T p asserts t h H.
  destruct (visit_observe T _ (fun lg a (_ : context) => (lg ++ [a], p a)) only_pre VisitAll asserts [] t h eq_refl H) as (n & L).
  exists n. intros fuel Hf. specialize (L fuel Hf). rewrite pruned_log in L. exact L.
Qed.

(** TreeTraversal::None visits nothing, not even leaves. *)
Theorem C16_none : forall (T S : Type) V k asserts fuel (s : S) (h : heap T) a,
  visit V (mkorder false false false) k asserts fuel s h a = Some (s, h).
Proof. reflexivity. Qed.

(** The property does not extend to nodes below a root. Started on a leaf that is a left child,
    the loop climbs to the parent and goes on with the right sibling; started on an internal
    node, it stops at the assertion. *)
Theorem C16_nonroot_leaf_refuted : forall (T : Type) asserts (h : heap T) a d b e r,
  holds h None (ANode a d (ALeaf b e) r) ->
  exists n, forall fuel, n <= fuel ->
    visit (fun log h a c => (log ++ [(a, c)], h, true)) only_pre VisitAll asserts fuel [] h b
      = Some ((b, CtxAny) :: events only_pre VisitAll r, h).
Proof. exact nonroot_leaf. Qed.

Theorem C16_nonroot_internal_refuted : forall (T S : Type) (f : S -> nat -> context -> S * bool) o k fuel s (h : heap T) p t,
  o_pre o || o_post o || o_in o = true ->
  holds h (Some p) t -> ~ In p (addrs t) -> children t <> [] ->
  visit (fun s h a c => let '(s', b) := f s a c in (s', h, b)) o k true fuel s h (aroot t) = None.
Proof. exact nonroot_internal_asserts. Qed.

(** ** C17 *)

Theorem C17_deep_copy : forall (T : Type) fuel (h : heap T) pu u, holds h pu u -> 3 * length (addrs u) <= fuel ->
  exists t' h', deep_copy fuel h (aroot u) = Some (aroot t', h') /\
    holds h' None t' /\ strip t' = strip u /\ only_touches [] h h' /\ (forall a, In a (addrs t') -> next h <= a).
Proof. exact (@deep_copy_ok). Qed.

Theorem C17_copy_constructor : forall (T : Type) fuel (h : heap T) pu u, holds h pu u -> 3 * length (addrs u) <= fuel ->
  exists t' h', copy_ctor fuel h (aroot u) = Some (aroot t', h') /\
    holds h' None t' /\ strip t' = strip u /\ only_touches [] h h' /\ (forall a, In a (addrs t') -> next h <= a).
Proof. exact (@copy_ctor_ok). Qed.

(** Same shape, [f] applied at each node, and each application made exactly once (the list of
    applications is the post-order of the data). *)
Theorem C17_transform : forall T R (f : T -> R) fuel (hs : heap T) (h : heap R) pu u,
  holds hs pu u -> heap_ok h -> 3 * length (addrs u) <= fuel ->
  exists t' h', transform_node f fuel hs h (aroot u) = Some (aroot t', h', tdata (strip u)) /\
    holds h' None t' /\ strip t' = tmap f (strip u) /\ only_touches [] h h'.
Proof. exact transform_ok. Qed.

Theorem C17_fold_constructor : forall T V (bin1 : V -> T) (bin2 : T -> T -> T) fuel (h : heap T) v vs,
  heap_ok h -> 1 <= fuel ->
  exists t h', fold_ctor bin1 bin2 fuel h (v :: vs) = Some (aroot t, h') /\ holds h' None t /\
    strip t = left_comb bin2 (Leaf (bin1 v)) (map (fun v => Leaf (bin1 v)) vs) /\
    tleaves (strip t) = map bin1 (v :: vs) /\
    data (strip t) = fold_left bin2 (map bin1 vs) (bin1 v) /\ only_touches [] h h'.
Proof.
  intros T V bin1 bin2 fuel h v vs Hok Hf. destruct (fold_ctor_ok bin1 bin2 fuel h v vs Hok Hf) as (t & h' & E & A & S & TT).
  exists t, h'. split; [auto|]. split; [auto|]. split; [auto|]. rewrite S. split; [|split; [|auto]].
  - rewrite left_comb_leaves. cbn. f_equal. clear. induction vs as [|x vs IH]; cbn; auto. rewrite IH. reflexivity.
  - rewrite left_comb_data. cbn. rewrite map_map. reflexivity.
Qed.

Theorem C17_fold_left_to_node : forall T (op : T -> T -> T) fuel (h : heap T) t ts,
  holds h None t -> 1 <= fuel -> (forall x, In x ts -> exists p, holds h p x) -> NoDup (flat_map addrs (t :: ts)) ->
  exists t' h', fold_left_to_node op fuel h (map aroot (t :: ts)) = Some (aroot t', h') /\ holds h' None t' /\
    strip t' = left_comb op (strip t) (map strip ts) /\
    tleaves (strip t') = flat_map (fun x => tleaves (strip x)) (t :: ts) /\
    data (strip t') = fold_left op (map (fun x => data (strip x)) ts) (data (strip t)).
Proof.
  intros T op fuel h t ts H Hf HT ND. destruct (fold_left_to_node_ok op fuel h t ts H Hf HT ND) as (t' & h' & E & A & S & _).
  exists t', h'. split; [auto|]. split; [auto|]. split; [auto|]. rewrite S. split.
  - rewrite left_comb_leaves. cbn. f_equal. clear. induction ts as [|x ts IH]; cbn; auto. rewrite IH. reflexivity.
  - rewrite left_comb_data. rewrite map_map. reflexivity.
Qed.

Theorem C17_size : forall T (t : tree T), size t = length (tdata t) /\ S (size t) = 2 * length (tleaves t).
Proof. intros T t. split; [apply size_data|apply size_leaves]. Qed.

(** ** C18 *)

Theorem C18_equal_iff : forall T U (eqb : T -> U -> bool) a b,
  tree_eqb eqb a b = Some true <-> same_tree (fun x y => eqb x y = true) a b.
Proof. exact (@eqb_true). Qed.

(** No exception for trees of the same shape, nor when the payloads of leaves and of internal
    nodes never compare equal. *)
Theorem C18_no_throw_partial : forall T U (eqb : T -> U -> bool) a b,
  (same_shape a b \/
   ((forall x y, In x (tleaves a) -> In y (tinternals b) -> eqb x y = false) /\
    (forall x y, In x (tinternals a) -> In y (tleaves b) -> eqb x y = false))) ->
  tree_eqb eqb a b <> None.
Proof. intros T U eqb a b [H|H]; [apply eqb_shape|apply eqb_total]; auto. Qed.

(** In general it does throw: a leaf compared with an internal node carrying equal data. *)
Theorem C18_throws_refuted : forall T U (eqb : T -> U -> bool) x y l r, eqb x y = true ->
  tree_eqb eqb (Leaf x) (Node y l r) = None.
Proof. intros T U eqb x y l r H. cbn. rewrite H. reflexivity. Qed.

(** ** C44: ownership and parent links *)

(** Destroying a tree frees each of its nodes exactly once and nothing else. *)
Theorem C44_destroy : forall T fuel (h : heap T) par t, holds h par t -> length (addrs t) <= fuel ->
  exists h' freed, destroy_loop fuel h [aroot t] = Some (h', freed) /\ Permutation freed (addrs t) /\
    (forall a, cells h' a = if in_dec Nat.eq_dec a (addrs t) then None else cells h a).
Proof.
  intros T fuel h par t (_ & HL & ND) Hf. destruct (destroy_forest fuel [t] h) as (h' & fr & E & P & _ & C).
  - cbn. rewrite app_nil_r. auto.
  - intros x [<-|[]]. eauto.
  - cbn. rewrite app_nil_r. auto.
  - exists h', fr. cbn in E, P, C. rewrite app_nil_r in *. auto.
Qed.

(** Move assignment from a node elsewhere or from any node strictly below the target: the target
    becomes the source's tree with correct parent links, nothing leaks, nothing is freed twice. *)
Theorem C44_move_assign : forall T fuel (h : heap T) par t pu u,
  holds h par t -> holds h pu u ->
  ((forall a, In a (addrs u) -> ~ In a (addrs t)) \/ (exists c, In c (children t) /\ subtree u c)) ->
  length (addrs t) <= fuel ->
  exists h', move_assign fuel h (aroot t) (aroot u) = Some h' /\
    holds h' par (at_addr (aroot t) u) /\
    (forall a, In a (addrs t) -> a <> aroot t -> ~ In a (flat_map addrs (children u)) -> cells h' a = None) /\
    ((forall a, In a (addrs u) -> ~ In a (addrs t)) -> linked h' pu (ALeaf (aroot u) (adata u))) /\
    only_touches (addrs t ++ addrs u) h h'.
Proof.
  intros T fuel h par t pu u HT HU AB Hf. destruct (move_assign_ok fuel h par t pu u HT HU AB Hf) as (h' & E & A & B & C & D & _).
  exists h'. auto.
Qed.

Theorem C44_move_constructor : forall T fuel (h : heap T) pu u, holds h pu u -> 1 <= fuel ->
  exists h', move_ctor fuel h (aroot u) = Some (next h, h') /\
    holds h' None (at_addr (next h) u) /\ linked h' pu (ALeaf (aroot u) (adata u)) /\ only_touches (addrs u) h h'.
Proof.
  intros T fuel h pu u H Hf. destruct (move_ctor_ok fuel h pu u H Hf) as (h' & E & A & B & C & _). exists h'. auto.
Qed.

(** Copy assignment, however source and target overlap. *)
Theorem C44_copy_assign : forall T fuel (h : heap T) par t pu u, holds h par t -> holds h pu u ->
  3 * length (addrs u) + length (addrs t) <= fuel ->
  exists t' h', copy_assign fuel h (aroot t) (aroot u) = Some h' /\
    holds h' par t' /\ strip t' = strip u /\ aroot t' = aroot t /\ only_touches (addrs t) h h' /\
    (forall a, In a (addrs t) -> a <> aroot t -> cells h' a = None) /\
    (forall a, In a (addrs t') -> a = aroot t \/ next h <= a).
Proof. exact (@copy_assign_ok). Qed.

(** ** C45: digraph() *)

(** Nodes are numbered consecutively in pre-order; the edges lead from each internal node to its
    two children and nowhere else. *)
Theorem C45_digraph : forall T (t : tree T) c,
  dot_nodes (snd (digraph t c)) = combine (seq c (size t)) (subtrees_pre t) /\
  length (subtrees_pre t) = size t /\
  (forall i j, In (i, j) (dot_edges (snd (digraph t c))) <->
     exists n d l r, i = c + n /\ nth_error (subtrees_pre t) n = Some (Node d l r) /\
       (j = i + 1 \/ j = i + 1 + size l)) /\
  (forall n d l r, nth_error (subtrees_pre t) n = Some (Node d l r) ->
     nth_error (subtrees_pre t) (n + 1) = Some l /\ nth_error (subtrees_pre t) (n + 1 + size l) = Some r).
Proof.
  intros T t c. split; [apply digraph_nodes|]. split; [apply subtrees_len|]. split; [apply digraph_edges|apply subtrees_children].
Qed.

(** ** C46: extract_subtrees *)

Theorem C46_extract : forall T (pred : tree T -> bool -> bool -> bool) collapse, shallow pred ->
  forall ts, exists res, extract_subtrees pred collapse ts = (map (cut pred collapse false) ts, res) /\
    Permutation res (flat_map (taken pred collapse false) ts).
Proof. exact (@extract_forest_ok). Qed.

(** ** Concrete cases *)

Definition heap0 : heap nat := mkheap (fun _ => None) 0.

(** The tree over [10; 20; 30] built by the fold constructor. *)
Example fold_example : exists t h, fold_ctor (fun x : nat => x) Nat.add 5 heap0 [10; 20; 30] = Some (aroot t, h) /\
  holds h None t /\ strip t = Node 60 (Node 30 (Leaf 10) (Leaf 20)) (Leaf 30).
Proof.
  destruct (C17_fold_constructor nat nat (fun x => x) Nat.add 5 heap0 10 [20; 30]) as (t & h & E & A & S & _).
  - intros a _. reflexivity.
  - lia.
  - exists t, h. split; [exact E|]. split; [exact A|]. rewrite S. reflexivity.
Qed.

(** A five-node tree in the heap, with a mutating visitor whose recursive traversal is finite:
    it turns every internal node that it meets in post-order into a leaf. *)
Definition ex_tree : atree nat := ANode 0 60 (ANode 1 30 (ALeaf 2 10) (ALeaf 3 20)) (ALeaf 4 30).
Definition ex_heap : heap nat := mkheap (fun a => match a with
  | 0 => Some (mkcell 60 (Some 1) (Some 4) None)
  | 1 => Some (mkcell 30 (Some 2) (Some 3) (Some 0))
  | 2 => Some (mkcell 10 None None (Some 1))
  | 3 => Some (mkcell 20 None None (Some 1))
  | 4 => Some (mkcell 30 None None (Some 0))
  | _ => None end) 5.
Example ex_holds : holds ex_heap None ex_tree.
Proof.
  split; [|split].
  - intros a Ha. cbn in *. do 5 (destruct a as [|a]; [lia|]). reflexivity.
  - cbn. repeat split.
  - cbn. repeat constructor; cbn; intuition discriminate.
Qed.
Example ex_calls : visit (fun log h a c => (log ++ [(a, c)], h, true)) only_post VisitAll true 20 [] ex_heap 0
  = Some ([(2, CtxAny); (3, CtxAny); (1, CtxPost); (4, CtxAny); (0, CtxPost)], ex_heap).
Proof. reflexivity. Qed.

Definition prune_visitor : unit -> heap nat -> nat -> context -> unit * heap nat * bool :=
  fun s h a c => match cells h a with
    | Some cl => (s, set_cell h a (Some (mkcell (c_data cl) None None (c_parent cl))), true)
    | None => (s, h, true) end.
Example prune_visitor_implements :
  implements prune_visitor (fun s t c => (s, ALeaf (aroot t) (adata t), true)).
Proof.
  intros s h par t c (Hok & HL & ND). unfold prune_visitor.
  destruct (linked_cell _ _ _ HL) as (cl & C0 & Cd & Cp & _). rewrite C0.
  exists (ALeaf (aroot t) (adata t)). split; [reflexivity|]. split; [|split; [reflexivity|split]].
  - split; [|split].
    + intros a Ha. cbn in *. rewrite upd_other; [apply Hok; auto|]. intros ->.
      pose proof (linked_lt _ _ _ _ Hok HL (aroot_in t)). lia.
    + cbn. rewrite upd_same. congruence.
    + cbn. repeat constructor; intros [].
  - split; [cbn; lia|]. intros a La Na. cbn. apply upd_other. intros ->. apply Na, aroot_in.
  - cbn. intros a [<-|[]]. left. apply aroot_in.
Qed.
Example prune_visitor_walk :
  walk (fun (s : unit) (t : atree nat) (c : context) => (s, ALeaf (aroot t) (adata t), true)) only_post VisitInternal
    tt ex_tree tt (ALeaf 0 60).
Proof.
  eapply walk_full; [reflexivity| |reflexivity| |reflexivity].
  - eapply walk_full; [reflexivity|eapply walk_leaf; reflexivity|reflexivity|eapply walk_leaf; reflexivity|reflexivity].
  - eapply walk_leaf; reflexivity.
Qed.

(** Extraction: subtrees all of whose leaves are even, never a bare leaf. *)
Definition even_pred (n : tree nat) (pl pr : bool) : bool :=
  match n with
  | Leaf _ => false
  | Node _ l r => (if is_leaf l then Nat.even (data l) else pl) && (if is_leaf r then Nat.even (data r) else pr)
  end.
Example even_shallow : shallow even_pred.
Proof. intros d l r l' r' pl pr H1 H2 H3 H4. cbn. rewrite H1, H2, H3, H4. reflexivity. Qed.
Example even_extract : extract_subtrees even_pred (fun d => d + 100)
    [Node 1 (Node 2 (Node 3 (Leaf 4) (Leaf 6)) (Leaf 8)) (Leaf 5); Node 7 (Leaf 1) (Node 9 (Leaf 2) (Leaf 2))]
  = ([Node 1 (Leaf 102) (Leaf 5); Node 7 (Leaf 1) (Leaf 109)],
     [Node 2 (Node 3 (Leaf 4) (Leaf 6)) (Leaf 8); Node 9 (Leaf 2) (Leaf 2)]).
Proof. reflexivity. Qed.

Print Assumptions C16_visit.
Print Assumptions C16_visit_const.
Print Assumptions C16_calls.
Print Assumptions C16_orders.
Print Assumptions C16_pruning.
Print Assumptions C16_nonroot_leaf_refuted.
Print Assumptions C16_nonroot_internal_refuted.
Print Assumptions C17_deep_copy.
Print Assumptions C17_copy_constructor.
Print Assumptions C17_transform.
Print Assumptions C17_fold_constructor.
Print Assumptions C17_fold_left_to_node.
Print Assumptions C17_size.
Print Assumptions C18_equal_iff.
Print Assumptions C18_no_throw_partial.
Print Assumptions C18_throws_refuted.
Print Assumptions C44_destroy.
Print Assumptions C44_move_assign.
Print Assumptions C44_move_constructor.
Print Assumptions C44_copy_assign.
Print Assumptions C45_digraph.
Print Assumptions C46_extract.
