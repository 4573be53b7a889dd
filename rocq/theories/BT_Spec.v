(** What the binary-tree properties mean: trees labelled with the addresses of their nodes, when a
    heap holds such a tree, and the recursive traversals. Only the data types (cells, heaps, plain
    trees, traversal orders) are shared with the model. *)
From Coq Require Import List Arith Bool.
From Verif Require Import BT_Model.
Import ListNotations.

(** Trees whose nodes carry the address of the node object. *)
Inductive atree (T : Type) := ALeaf (a : nat) (d : T) | ANode (a : nat) (d : T) (l r : atree T).
Arguments ALeaf {T}. Arguments ANode {T}.

Section Trees.
  Context {T : Type}.

  Definition aroot (t : atree T) : nat := match t with ALeaf a _ => a | ANode a _ _ _ => a end.
  Definition adata (t : atree T) : T := match t with ALeaf _ d => d | ANode _ d _ _ => d end.

  Fixpoint addrs (t : atree T) : list nat :=
    match t with ALeaf a _ => [a] | ANode a _ l r => a :: addrs l ++ addrs r end.

  (** Forgetting the addresses. *)
  Fixpoint strip (t : atree T) : tree T :=
    match t with ALeaf _ d => Leaf d | ANode _ d l r => Node d (strip l) (strip r) end.

  Definition children (t : atree T) : list (atree T) :=
    match t with ALeaf _ _ => [] | ANode _ _ l r => [l; r] end.

  (** The same tree with its root object at another address. *)
  Definition at_addr (b : nat) (t : atree T) : atree T :=
    match t with ALeaf _ d => ALeaf b d | ANode _ d l r => ANode b d l r end.

  (** [u] is a subtree of [t] (possibly [t]). *)
  Inductive subtree : atree T -> atree T -> Prop :=
  | sub_here : forall t, subtree t t
  | sub_left : forall u a d l r, subtree u l -> subtree u (ANode a d l r)
  | sub_right : forall u a d l r, subtree u r -> subtree u (ANode a d l r).

  (** Every node object of [t] is in the heap, both children of each internal node are owned by
      it and point back to it with their parent pointer; the root's parent pointer is [par]. *)
  Fixpoint linked (h : heap T) (par : option nat) (t : atree T) : Prop :=
    match t with
    | ALeaf a d => cells h a = Some (mkcell d None None par)
    | ANode a d l r =>
        cells h a = Some (mkcell d (Some (aroot l)) (Some (aroot r)) par) /\
        linked h (Some a) l /\ linked h (Some a) r
    end.

  (** Nothing is stored at addresses that have not been allocated yet. *)
  Definition heap_ok (h : heap T) : Prop := forall a, next h <= a -> cells h a = None.

  (** The heap holds the tree [t] with distinct node objects. *)
  Definition holds (h : heap T) (par : option nat) (t : atree T) : Prop :=
    heap_ok h /\ linked h par t /\ NoDup (addrs t).

  (** What happens outside the objects in [l] and outside newly allocated memory: nothing. *)
  Definition only_touches (l : list nat) (h h' : heap T) : Prop :=
    next h <= next h' /\ forall a, a < next h -> ~ In a l -> cells h' a = cells h a.
End Trees.

(** ** Traversal *)

(** The addresses of the nodes in the three orders. *)
Fixpoint preorder {T} (t : atree T) : list nat :=
  match t with ALeaf a _ => [a] | ANode a _ l r => a :: preorder l ++ preorder r end.
Fixpoint inorder {T} (t : atree T) : list nat :=
  match t with ALeaf a _ => [a] | ANode a _ l r => inorder l ++ a :: inorder r end.
Fixpoint postorder {T} (t : atree T) : list nat :=
  match t with ALeaf a _ => [a] | ANode a _ l r => postorder l ++ postorder r ++ [a] end.

Fixpoint leaves {T} (t : atree T) : list nat :=
  match t with ALeaf a _ => [a] | ANode a _ l r => leaves l ++ leaves r end.
(** Internal nodes in pre-order. *)
Fixpoint internals {T} (t : atree T) : list nat :=
  match t with ALeaf a _ => [] | ANode a _ l r => a :: internals l ++ internals r end.

(** Pre-order that does not enter the subtrees of nodes rejected by [p]. *)
Fixpoint pruned_preorder {T} (p : nat -> bool) (t : atree T) : list nat :=
  match t with
  | ALeaf a _ => [a]
  | ANode a _ l r => a :: if p a then pruned_preorder p l ++ pruned_preorder p r else []
  end.

(** The recursive traversal, for visitors that may also rewrite the subtree they are called on.
    [VT s t c] is the visitor: new state, new subtree, and whether to go on with the subtree. *)
Section Walk.
  Context {T S : Type}.
  Variable VT : S -> atree T -> context -> S * atree T * bool.
  Variable o : order.
  Variable k : kind.

  Definition call (wanted : bool) (c : context) (s : S) (t : atree T) : S * atree T * bool :=
    if wanted then VT s t c else (s, t, true).

  Definition inner (b : bool) : bool := b && match k with VisitLeaf => false | _ => true end.

  Inductive walk : S -> atree T -> S -> atree T -> Prop :=
  | walk_leaf : forall s a d s' t' b,
      call (match k with VisitInternal => false | _ => true end) CtxAny s (ALeaf a d) = (s', t', b) ->
      walk s (ALeaf a d) s' t'
  | walk_pre_stop : forall s a d l r s1 t1 b,
      call (inner (o_pre o)) CtxPre s (ANode a d l r) = (s1, t1, b) ->
      (b = false \/ children t1 = []) ->
      walk s (ANode a d l r) s1 t1
  | walk_in_stop : forall s a d l r s1 a1 d1 l1 r1 s2 l2 s3 t3 b,
      call (inner (o_pre o)) CtxPre s (ANode a d l r) = (s1, ANode a1 d1 l1 r1, true) ->
      walk s1 l1 s2 l2 ->
      call (inner (o_in o)) CtxIn s2 (ANode a1 d1 l2 r1) = (s3, t3, b) ->
      (b = false \/ children t3 = []) ->
      walk s (ANode a d l r) s3 t3
  | walk_full : forall s a d l r s1 a1 d1 l1 r1 s2 l2 s3 a3 d3 l3 r3 s4 r4 s5 t5 b,
      call (inner (o_pre o)) CtxPre s (ANode a d l r) = (s1, ANode a1 d1 l1 r1, true) ->
      walk s1 l1 s2 l2 ->
      call (inner (o_in o)) CtxIn s2 (ANode a1 d1 l2 r1) = (s3, ANode a3 d3 l3 r3, true) ->
      walk s3 r3 s4 r4 ->
      call (inner (o_post o)) CtxPost s4 (ANode a3 d3 l3 r4) = (s5, t5, b) ->
      walk s (ANode a d l r) s5 t5.
End Walk.

(** The recursive traversal for visitors that leave the tree alone: [f s a c] is called for the
    node at address [a] in context [c]; it returns the new state and whether to go on. *)
Section RecursiveVisit.
  Context {T S : Type}.
  Variable f : S -> nat -> context -> S * bool.
  Variable o : order.
  Variable k : kind.

  Definition tell (wanted : bool) (c : context) (s : S) (a : nat) : S * bool :=
    if wanted then f s a c else (s, true).

  Fixpoint recursive_visit (s : S) (t : atree T) : S :=
    match t with
    | ALeaf a _ => fst (tell (match k with VisitInternal => false | _ => true end) CtxAny s a)
    | ANode a _ l r =>
        let '(s1, go) := tell (inner k (o_pre o)) CtxPre s a in
        if go then
          let '(s3, go') := tell (inner k (o_in o)) CtxIn (recursive_visit s1 l) a in
          if go' then fst (tell (inner k (o_post o)) CtxPost (recursive_visit s3 r) a)
          else s3
        else s1
    end.
End RecursiveVisit.

(** A visitor on the heap implements the visitor [VT] on trees: it may rewrite the subtree it is
    called on (keeping the node object itself and its parent pointer), allocate, and nothing
    else. *)
Definition implements {T S} (V : S -> heap T -> nat -> context -> S * heap T * bool)
    (VT : S -> atree T -> context -> S * atree T * bool) : Prop :=
  forall s h par t c, holds h par t ->
    let '(s', h', b) := V s h (aroot t) c in
    exists t', VT s t c = (s', t', b) /\ holds h' par t' /\ aroot t' = aroot t /\
      only_touches (addrs t) h h' /\
      (forall a, In a (addrs t') -> In a (addrs t) \/ next h <= a).

(** ** Trees without addresses *)
Fixpoint tmap {T R} (f : T -> R) (t : tree T) : tree R :=
  match t with Leaf d => Leaf (f d) | Node d l r => Node (f d) (tmap f l) (tmap f r) end.

(** The data in post-order. *)
Fixpoint tdata {T} (t : tree T) : list T :=
  match t with Leaf d => [d] | Node d l r => tdata l ++ tdata r ++ [d] end.

Fixpoint tleaves {T} (t : tree T) : list T :=
  match t with Leaf d => [d] | Node _ l r => tleaves l ++ tleaves r end.

(** The left-leaning tree over a starting tree and a list of right operands. *)
Definition left_comb {T} (op : T -> T -> T) (t : tree T) (rs : list (tree T)) : tree T :=
  fold_left (fun acc r => Node (op (data acc) (data r)) acc r) rs t.

(** Same shape and related data at corresponding nodes. *)
Inductive same_tree {T U} (R : T -> U -> Prop) : tree T -> tree U -> Prop :=
| same_leaf : forall a b, R a b -> same_tree R (Leaf a) (Leaf b)
| same_node : forall a b l1 l2 r1 r2, R a b -> same_tree R l1 l2 -> same_tree R r1 r2 ->
    same_tree R (Node a l1 r1) (Node b l2 r2).

(** ** The sequence of visitor calls: (address of the node, context). *)
Section Events.
  Variable o : order.
  Variable k : kind.
  Definition once (b : bool) (a : nat) (c : context) : list (nat * context) := if b then [(a, c)] else [].
  Definition for_leaves : bool := match k with VisitInternal => false | _ => true end.
  Definition for_internals : bool := match k with VisitLeaf => false | _ => true end.

  Fixpoint events {T} (t : atree T) : list (nat * context) :=
    match t with
    | ALeaf a _ => once for_leaves a CtxAny
    | ANode a _ l r =>
        once (o_pre o && for_internals) a CtxPre ++ events l ++
        once (o_in o && for_internals) a CtxIn ++ events r ++
        once (o_post o && for_internals) a CtxPost
    end.
End Events.

Definition only_pre := mkorder true false false.
Definition only_post := mkorder false true false.
Definition only_in := mkorder false false true.

(** Data of the internal nodes. *)
Fixpoint tinternals {T} (t : tree T) : list T :=
  match t with Leaf _ => [] | Node d l r => d :: tinternals l ++ tinternals r end.

(** Same shape, whatever the data. *)
Definition same_shape {T U} (a : tree T) (b : tree U) : Prop := same_tree (fun _ _ => True) a b.

(** ** Numbering of nodes in pre-order *)
Fixpoint subtrees_pre {T} (t : tree T) : list (tree T) :=
  match t with Leaf _ => [t] | Node _ l r => t :: subtrees_pre l ++ subtrees_pre r end.

Definition dot_nodes {T} (out : list (dot T)) : list (nat * tree T) :=
  flat_map (fun x => match x with DNode i s => [(i, s)] | DEdge _ _ => [] end) out.
Definition dot_edges {T} (out : list (dot T)) : list (nat * nat) :=
  flat_map (fun x => match x with DNode _ _ => [] | DEdge i j => [(i, j)] end) out.

(** ** Extraction of maximal subtrees *)
Section ExtractSpec.
  Context {T : Type}.
  Variable pred : tree T -> bool -> bool -> bool.
  Variable collapse : T -> T.

  (** The value of the predicate at each node of the original tree. *)
  Fixpoint matches (t : tree T) : bool :=
    match t with
    | Leaf _ => pred t false false
    | Node _ l r => pred t (matches l) (matches r)
    end.

  (** The tree with every matching node whose parent does not match ([above] is the parent's
      value) replaced by a leaf. *)
  Fixpoint cut (above : bool) (t : tree T) : tree T :=
    if matches t && negb above then Leaf (collapse (data t))
    else match t with
         | Leaf _ => t
         | Node d l r => Node d (cut (matches t) l) (cut (matches t) r)
         end.

  (** What is taken out: one subtree per matching node whose parent does not match (with what is
      taken out below it already replaced). *)
  Fixpoint taken (above : bool) (t : tree T) : list (tree T) :=
    match t with
    | Leaf _ => if matches t && negb above then [t] else []
    | Node d l r =>
        taken (matches t) l ++ taken (matches t) r ++
        (if matches t && negb above then [Node d (cut (matches t) l) (cut (matches t) r)] else [])
    end.

  (** The predicate looks at the node, at its children's payloads and whether they are leaves,
      but not deeper. *)
  Definition shallow : Prop := forall d l r l' r' pl pr,
    data l' = data l -> is_leaf l' = is_leaf l -> data r' = data r -> is_leaf r' = is_leaf r ->
    pred (Node d l' r') pl pr = pred (Node d l r) pl pr.
End ExtractSpec.
