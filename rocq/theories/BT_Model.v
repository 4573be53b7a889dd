(** Model of SeQuant/core/binary_node.hpp: FullBinaryNode with its owning child pointers and its
    raw parent pointer, on an explicit heap.

    Addresses are natural numbers. Allocation returns an address that was never used before
    (simplification: freed addresses are not reused, so a comparison with a stale pointer can
    never succeed by accident). Following a null or dangling pointer is the outcome [None]. *)
From Coq Require Import List Arith Bool.
Import ListNotations.

(** The data members of FullBinaryNode, binary_node.hpp:233-240. *)
Record cell (T : Type) := mkcell {
  c_data : T; c_left : option nat; c_right : option nat; c_parent : option nat }.
Arguments mkcell {T}. Arguments c_data {T}. Arguments c_left {T}.
Arguments c_right {T}. Arguments c_parent {T}.

Record heap (T : Type) := mkheap { cells : nat -> option (cell T); next : nat }.
Arguments mkheap {T}. Arguments cells {T}. Arguments next {T}.

Definition upd {X} (f : nat -> X) (a : nat) (v : X) : nat -> X :=
  fun x => if Nat.eqb x a then v else f x.

Section Ops.
  Context {T : Type}.
  Notation hp := (heap T).

  Definition set_cell (h : hp) (a : nat) (v : option (cell T)) : hp :=
    mkheap (upd (cells h) a v) (next h).

  (** leaf(), binary_node.hpp:439. *)
  Definition c_leaf (c : cell T) : bool :=
    match c_left c, c_right c with None, None => true | _, _ => false end.

  Definition alloc (h : hp) (c : cell T) : nat * hp :=
    (next h, mkheap (upd (cells h) (next h) (Some c)) (S (next h))).

  (** [p->parent_ = v] guarded by [if (p)], e.g. binary_node.hpp:331-336. *)
  Definition set_parent (h : hp) (p : option nat) (v : nat) : option hp :=
    match p with
    | None => Some h
    | Some a => match cells h a with
                | None => None
                | Some c => Some (set_cell h a (Some (mkcell (c_data c) (c_left c) (c_right c) (Some v))))
                end
    end.

  (** FullBinaryNode(T d), binary_node.hpp:299, through make_unique. *)
  Definition new_leaf (h : hp) (d : T) : nat * hp := alloc h (mkcell d None None None).

  (** FullBinaryNode(T d, node_ptr&& l, node_ptr&& r), binary_node.hpp:327-336. *)
  Definition new_node (h : hp) (d : T) (l r : option nat) : option (nat * hp) :=
    let '(a, h1) := alloc h (mkcell d l r None) in
    match set_parent h1 l a with
    | None => None
    | Some h2 => match set_parent h2 r a with None => None | Some h3 => Some (a, h3) end
    end.

  (** The loop of ~FullBinaryNode, binary_node.hpp:406-418. [pending] has its back first.
      Returns the heap and the addresses freed, in order; freeing a dead address is [None]. *)
  Fixpoint destroy_loop (fuel : nat) (h : hp) (pending : list nat) : option (hp * list nat) :=
    match pending with
    | [] => Some (h, [])
    | a :: rest =>
        match fuel with
        | O => None
        | S f =>
            match cells h a with
            | None => None
            | Some c =>
                let pend1 := match c_left c with Some l => l :: rest | None => rest end in
                let pend2 := match c_right c with Some r => r :: pend1 | None => pend1 end in
                match destroy_loop f (set_cell h a None) pend2 with
                | None => None
                | Some (h', fr) => Some (h', a :: fr)
                end
            end
        end
    end.

  (** Destruction of the node owned by a unique_ptr (nothing to do for a null pointer). *)
  Definition destroy (fuel : nat) (h : hp) (p : option nat) : option hp :=
    match p with
    | None => Some h
    | Some a => option_map fst (destroy_loop fuel h [a])
    end.

  (** operator=(FullBinaryNode&& node), binary_node.hpp:375-398. [self] is [this], [src] is the
      address of [node]. *)
  Definition move_assign (fuel : nat) (h : hp) (self src : nat) : option hp :=
    match cells h self, cells h src with
    | Some ct, Some cn =>
        (* data_ = std::move(node.data_) *)
        let h1 := set_cell h self (Some (mkcell (c_data cn) (c_left ct) (c_right ct) (c_parent ct))) in
        (* auto left_tmp = std::move(left_) *)
        let left_tmp := c_left ct in
        let h2 := set_cell h1 self (Some (mkcell (c_data cn) None (c_right ct) (c_parent ct))) in
        (* left_ = std::move(node.left_) *)
        match cells h2 src with
        | None => None
        | Some cn2 =>
            let nl := c_left cn2 in
            let h3 := set_cell h2 src (Some (mkcell (c_data cn2) None (c_right cn2) (c_parent cn2))) in
            match cells h3 self with
            | None => None
            | Some ct3 =>
                let h4 := set_cell h3 self (Some (mkcell (c_data ct3) nl (c_right ct3) (c_parent ct3))) in
                (* right_ = std::move(node.right_): release, store, then delete the old one *)
                match cells h4 src with
                | None => None
                | Some cn4 =>
                    let nr := c_right cn4 in
                    let h5 := set_cell h4 src (Some (mkcell (c_data cn4) (c_left cn4) None (c_parent cn4))) in
                    match cells h5 self with
                    | None => None
                    | Some ct5 =>
                        let old := c_right ct5 in
                        let h6 := set_cell h5 self (Some (mkcell (c_data ct5) (c_left ct5) nr (c_parent ct5))) in
                        match destroy fuel h6 old with
                        | None => None
                        | Some h7 =>
                            match set_parent h7 nl self with
                            | None => None
                            | Some h8 =>
                                match set_parent h8 nr self with
                                | None => None
                                | Some h9 => destroy fuel h9 left_tmp
                                end
                            end
                        end
                    end
                end
            end
        end
    | _, _ => None
    end.

  (** FullBinaryNode(FullBinaryNode&& other), binary_node.hpp:367-373. *)
  Definition move_ctor (fuel : nat) (h : hp) (src : nat) : option (nat * hp) :=
    match cells h src with
    | None => None
    | Some c =>
        let '(a, h1) := alloc h (mkcell (c_data c) None None None) in
        match move_assign fuel h1 a src with None => None | Some h2 => Some (a, h2) end
    end.

  (** FullBinaryNode(T d, FullBinaryNode l, FullBinaryNode r), binary_node.hpp:316-319. The
      by-value parameters are already the objects at [l] and [r]; their destruction after the
      move (they are childless by then) is left out. *)
  Definition node_of_nodes (fuel : nat) (h : hp) (d : T) (l r : nat) : option (nat * hp) :=
    match move_ctor fuel h l with
    | None => None
    | Some (l', h1) =>
        match move_ctor fuel h1 r with
        | None => None
        | Some (r', h2) => new_node h2 d (Some l') (Some r')
        end
    end.
End Ops.

(** ** deep_copy, binary_node.hpp:244-283, and transform_node, binary_node.hpp:702-746.

    The two functions have the same loop. [rd] reads the source node: for transform_node the
    source lives in its own heap, for deep_copy it lives in the heap being extended. [f] is the
    function applied to the data (the identity for deep_copy); the third component of the result
    logs its applications in order. *)
Section Clone.
  Context {T R : Type}.
  Variable f : T -> R.
  Variable rd : heap R -> nat -> option (cell T).

  Record frame := mkframe { fr_src : nat; fr_stage : nat; fr_left : option nat; fr_right : option nat }.

  Fixpoint clone_loop (fuel : nat) (h : heap R) (stk : list frame) (ret : option nat)
    : option (option nat * heap R * list T) :=
    match stk with
    | [] => Some (ret, h, [])
    | fr :: rest =>
        match fuel with
        | O => None
        | S fu =>
            match rd h (fr_src fr) with
            | None => None
            | Some c =>
                if c_leaf c then
                  let '(a, h1) := new_leaf h (f (c_data c)) in
                  option_map (fun x : option nat * heap R * list T => (fst x, c_data c :: snd x))
                    (clone_loop fu h1 rest (Some a))
                else
                  match fr_stage fr with
                  | 0 =>
                      match c_left c with
                      | None => None
                      | Some l => clone_loop fu h (mkframe l 0 None None ::
                                    mkframe (fr_src fr) 1 (fr_left fr) (fr_right fr) :: rest) ret
                      end
                  | 1 =>
                      match c_right c with
                      | None => None
                      | Some r => clone_loop fu h (mkframe r 0 None None ::
                                    mkframe (fr_src fr) 2 ret (fr_right fr) :: rest) None
                      end
                  | _ =>
                      match new_node h (f (c_data c)) (fr_left fr) ret with
                      | None => None
                      | Some (a, h1) =>
                          option_map (fun x : option nat * heap R * list T => (fst x, c_data c :: snd x))
                            (clone_loop fu h1 rest (Some a))
                      end
                  end
            end
        end
    end.

  Definition clone (fuel : nat) (h : heap R) (src : nat) : option (nat * heap R * list T) :=
    match clone_loop fuel h [mkframe src 0 None None] None with
    | Some (Some a, h', lg) => Some (a, h', lg)
    | _ => None
    end.
End Clone.

(** deep_copy, binary_node.hpp:244-283. *)
Definition deep_copy {T} (fuel : nat) (h : heap T) (src : nat) : option (nat * heap T) :=
  option_map fst (clone (fun d : T => d) (fun h a => cells h a) fuel h src).

(** transform_node, binary_node.hpp:702-746; the final [RNode{std::move( *ret)}] included. *)
Definition transform_node {T R} (f : T -> R) (fuel : nat) (hs : heap T) (h : heap R) (src : nat)
  : option (nat * heap R * list T) :=
  match clone f (fun _ a => cells hs a) fuel h src with
  | None => None
  | Some (a, h1, lg) =>
      match move_ctor fuel h1 a with
      | None => None
      | Some (b, h2) => Some (b, h2, lg)
      end
  end.

(** FullBinaryNode(FullBinaryNode const&), binary_node.hpp:338-349. *)
Definition copy_child {T} (fuel : nat) (h : heap T) (p : option nat) : option (option nat * heap T) :=
  match p with
  | None => Some (None, h)
  | Some a => match deep_copy fuel h a with None => None | Some (b, h') => Some (Some b, h') end
  end.

Definition copy_ctor {T} (fuel : nat) (h : heap T) (src : nat) : option (nat * heap T) :=
  match cells h src with
  | None => None
  | Some c =>
      match copy_child fuel h (c_left c) with
      | None => None
      | Some (l, h1) =>
          match copy_child fuel h1 (c_right c) with
          | None => None
          | Some (r, h2) => new_node h2 (c_data c) l r
          end
      end
  end.

(** operator=(FullBinaryNode const& other), binary_node.hpp:351-364. The old children are
    destroyed when the new ones are moved in (unique_ptr assignment), [temp] (childless by then)
    at the end. *)
Definition copy_assign {T} (fuel : nat) (h : heap T) (self src : nat) : option (heap T) :=
  match deep_copy fuel h src with
  | None => None
  | Some (tmp, h1) =>
      match cells h1 self, cells h1 tmp with
      | Some ct, Some cn =>
          let nl := c_left cn in let nr := c_right cn in
          let h2 := set_cell h1 self (Some (mkcell (c_data cn) nl (c_right ct) (c_parent ct))) in
          match destroy fuel h2 (c_left ct) with
          | None => None
          | Some h3 =>
              match cells h3 self with
              | None => None
              | Some ct3 =>
                  let h4 := set_cell h3 self (Some (mkcell (c_data ct3) (c_left ct3) nr (c_parent ct3))) in
                  match destroy fuel h4 (c_right ct3) with
                  | None => None
                  | Some h5 =>
                      match set_parent h5 nl self with
                      | None => None
                      | Some h6 =>
                          match set_parent h6 nr self with
                          | None => None
                          | Some h7 => Some (set_cell h7 tmp None)
                          end
                      end
                  end
              end
          end
      | _, _ => None
      end
  end.

(** ** Left folds *)

(** FullBinaryNode(Cont const&, F&&), binary_node.hpp:500-531. Simplification: the fold's result
    is the object itself, without the final [*this = std::move(node)]. An empty container is
    [None]. *)
Section Fold.
  Context {T V : Type}.
  Variable bin1 : V -> T.
  Variable bin2 : T -> T -> T.

  Fixpoint fold_ctor_loop (fuel : nat) (h : heap T) (acc : nat) (rest : list V) : option (nat * heap T) :=
    match rest with
    | [] => Some (acc, h)
    | v :: vs =>
        let '(rn, h1) := new_leaf h (bin1 v) in
        match cells h1 acc, cells h1 rn with
        | Some ca, Some cr =>
            match node_of_nodes fuel h1 (bin2 (c_data ca) (c_data cr)) acc rn with
            | None => None
            | Some (a, h2) => fold_ctor_loop fuel h2 a vs
            end
        | _, _ => None
        end
    end.

  Definition fold_ctor (fuel : nat) (h : heap T) (cont : list V) : option (nat * heap T) :=
    match cont with
    | [] => None
    | v :: vs => let '(a, h1) := new_leaf h (bin1 v) in fold_ctor_loop fuel h1 a vs
    end.
End Fold.

(** fold_left_to_node with [op] on values, binary_node.hpp:763-791; [rng] holds the addresses of
    the (root) nodes. *)
Section FoldNodes.
  Context {T : Type}.
  Variable op : T -> T -> T.

  Fixpoint fold_nodes_loop (fuel : nat) (h : heap T) (acc : nat) (rest : list nat) : option (nat * heap T) :=
    match rest with
    | [] => Some (acc, h)
    | r :: rs =>
        match cells h acc, cells h r with
        | Some ca, Some cr =>
            match node_of_nodes fuel h (op (c_data ca) (c_data cr)) acc r with
            | None => None
            | Some (a, h2) => fold_nodes_loop fuel h2 a rs
            end
        | _, _ => None
        end
    end.

  Definition fold_left_to_node (fuel : nat) (h : heap T) (rng : list nat) : option (nat * heap T) :=
    match rng with
    | [] => None
    | a :: rs => fold_nodes_loop fuel h a rs
    end.
End FoldNodes.

(** ** detail::visit, binary_node.hpp:148-219 *)

(** TreeTraversal, binary_node.hpp:37-48: the three bits. *)
Record order := mkorder { o_pre : bool; o_post : bool; o_in : bool }.

(** VisitAll / VisitLeaf / VisitInternal, binary_node.hpp:92-100. *)
Inductive kind := VisitAll | VisitLeaf | VisitInternal.

(** The context argument given to the visitor. *)
Inductive context := CtxAny | CtxPre | CtxIn | CtxPost.

Definition wants_leaf (k : kind) : bool := match k with VisitInternal => false | _ => true end.
Definition wants_internal (k : kind) : bool := match k with VisitLeaf => false | _ => true end.

Section Visit.
  Context {T S : Type}.
  (** The visitor may change its own state [S] and the heap; the boolean is
      [continue_with_subtree] (constantly true for a visitor that returns void). *)
  Variable V : S -> heap T -> nat -> context -> S * heap T * bool.
  Variable o : order.
  Variable k : kind.
  (** Whether SEQUANT_ASSERT is active; a failing assertion is the outcome [None]. *)
  Variable asserts : bool.

  (** One iteration of the loop; the next [current_ptr] ([None] when null) is the last
      component. *)
  Definition visit_step (s : S) (h : heap T) (cur prev : nat) : option (S * heap T * option nat) :=
    match cells h cur with
    | None => None
    | Some c =>
        let finish (s' : S) (h' : heap T) (b : bool) (down : cell T -> option (option nat)) :=
          match cells h' cur with
          | None => None
          | Some c' =>
              match (if c_leaf c' then Some (c_parent c') else down c') with
              | None => None
              | Some nxt => Some (s', h', if b then nxt else c_parent c')
              end
          end in
        if c_leaf c then
          let '(s', h', b) := if wants_leaf k then V s h cur CtxAny else (s, h, true) in
          match cells h' cur with
          | None => None
          | Some c' => Some (s', h', c_parent c')
          end
        else
          match c_left c, c_right c with
          | Some l, Some r =>
              if Nat.eqb prev l then
                let '(s', h', b) :=
                  if o_in o && wants_internal k then V s h cur CtxIn else (s, h, true) in
                finish s' h' b (fun c' => match c_right c' with Some r' => Some (Some r') | None => None end)
              else if Nat.eqb prev r then
                let '(s', h', b) :=
                  if o_post o && wants_internal k then V s h cur CtxPost else (s, h, true) in
                finish s' h' b (fun c' => Some (c_parent c'))
              else
                if asserts && negb (match c_parent c with None => true | Some p => Nat.eqb prev p end)
                then None
                else
                  let '(s', h', b) :=
                    if o_pre o && wants_internal k then V s h cur CtxPre else (s, h, true) in
                  finish s' h' b (fun c' => match c_left c' with Some l' => Some (Some l') | None => None end)
          | _, _ => None
          end
    end.

  (** The [while (current_ptr)] loop. *)
  Fixpoint visit_loop (fuel : nat) (s : S) (h : heap T) (cur : option nat) (prev : nat)
    : option (S * heap T) :=
    match cur with
    | None => Some (s, h)
    | Some a =>
        match fuel with
        | O => None
        | Datatypes.S f =>
            match visit_step s h a prev with
            | None => None
            | Some (s', h', nxt) => visit_loop f s' h' nxt a
            end
        end
    end.

  (** visit / visit_leaf / visit_internal, binary_node.hpp:541-611, with the dispatch macro of
      binary_node.hpp:62-87: nothing at all is visited for TreeTraversal::None. *)
  Definition visit (fuel : nat) (s : S) (h : heap T) (a : nat) : option (S * heap T) :=
    if o_pre o || o_post o || o_in o then visit_loop fuel s h (Some a) a else Some (s, h).
End Visit.

(** ** Functions that only follow child pointers

    They recurse on the tree a node represents, so they are written on trees. *)
Inductive tree (T : Type) := Leaf (d : T) | Node (d : T) (l r : tree T).
Arguments Leaf {T}. Arguments Node {T}.

Definition data {T} (t : tree T) : T := match t with Leaf d => d | Node d _ _ => d end.
Definition is_leaf {T} (t : tree T) : bool := match t with Leaf _ => true | Node _ _ _ => false end.
(** left(), right(), binary_node.hpp:424-431: [None] is the exception of checked_ptr_access. *)
Definition left {T} (t : tree T) : option (tree T) := match t with Leaf _ => None | Node _ l _ => Some l end.
Definition right {T} (t : tree T) : option (tree T) := match t with Leaf _ => None | Node _ _ r => Some r end.

(** size(), binary_node.hpp:465-471. *)
Fixpoint size {T} (t : tree T) : nat :=
  match t with Leaf _ => 1 | Node _ l r => size l + size r + 1 end.

(** operator==, binary_node.hpp:690-694, with the short-circuit evaluation of && and ||. [None]
    is the exception thrown by left() or right() on a leaf. *)
Fixpoint tree_eqb {T U} (eqb : T -> U -> bool) (a : tree T) (b : tree U) : option bool :=
  if eqb (data a) (data b) then
    if is_leaf a && is_leaf b then Some true
    else
      match a, b with
      | Node _ la ra, Node _ lb rb =>
          match tree_eqb eqb la lb with
          | Some true => tree_eqb eqb ra rb
          | x => x
          end
      | _, _ => None
      end
  else Some false.

(** The private digraph(), binary_node.hpp:614-628: prints node labels and edges; the result is
    the last number used. Statements are recorded instead of printed. *)
Inductive dot (T : Type) := DNode (id : nat) (lab : tree T) | DEdge (src dst : nat).
Arguments DNode {T}. Arguments DEdge {T}.

Fixpoint digraph {T} (t : tree T) (count : nat) : nat * list (dot T) :=
  match t with
  | Leaf _ => (count, [DNode count t])
  | Node _ l r =>
      let '(lcount, ol) := digraph l (count + 1) in
      let '(rcount, orr) := digraph r (lcount + 1) in
      (rcount, DNode count t :: ol ++ orr ++ [DEdge count (count + 1); DEdge count (lcount + 1)])
  end.

(** ** extract_subtrees, SeQuant/core/optimize/extract_subtrees.hpp:17-92

    [pred] and [collapse] (copy of the payload with its operation reset) are parameters. The
    result set is a list in order of insertion (the code's unordered_set drops elements that
    compare equal to one already present). *)
Section Extract.
  Context {T : Type}.
  Variable pred : tree T -> bool -> bool -> bool.
  Variable collapse : T -> T.

  (** capture, extract_subtrees.hpp:17-25, on the node [n]: the captured copy and the leaf left. *)
  Definition capture (n : tree T) : tree T * tree T := (n, Leaf (collapse (data n))).

  (** extract_subtrees_visit, extract_subtrees.hpp:27-41. *)
  Fixpoint extract_visit (n : tree T) : bool * tree T * list (tree T) :=
    match n with
    | Leaf d => (pred n false false, n, [])
    | Node d l r =>
        let '(pl, l1, res_l) := extract_visit l in
        let '(pr, r1, res_r) := extract_visit r in
        let pn := pred (Node d l1 r1) pl pr in
        if pn then (pn, Node d l1 r1, res_l ++ res_r)
        else
          let '(cl, l2) := if pl then (let '(x, y) := capture l1 in ([x], y)) else ([], l1) in
          let '(cr, r2) := if pr then (let '(x, y) := capture r1 in ([x], y)) else ([], r1) in
          (pn, Node d l2 r2, res_l ++ res_r ++ cl ++ cr)
    end.

  (** extract_subtrees, extract_subtrees.hpp:75-88, on one tree. *)
  Definition extract_tree (n : tree T) : tree T * list (tree T) :=
    let '(p, n1, res) := extract_visit n in
    if p then let '(x, y) := capture n1 in (y, res ++ [x]) else (n1, res).

  Definition extract_subtrees (ns : list (tree T)) : list (tree T) * list (tree T) :=
    fold_left (fun (acc : list (tree T) * list (tree T)) n =>
                 let '(t, res) := extract_tree n in (fst acc ++ [t], snd acc ++ res)) ns ([], []).
End Extract.
