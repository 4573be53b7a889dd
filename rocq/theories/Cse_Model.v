(** Model of the elimination of common subexpressions
    (SeQuant/core/optimize/common_subexpression_elimination.hpp:24-291), of the comparison of nodes of
    evaluation trees (core/eval/eval_node_compare.hpp:16-123, core/utility/tensor.hpp:13-160) and of
    the data that binarize puts into the nodes (core/eval/eval_expr.cpp:137-176, 386-460, 480-604).

    Labels are numbers, an index is a number with a space. Not modelled: adjoint nodes, powers,
    protoindices, the split of the slots of a tensor into bra, ket and aux (the comparison does not
    look at it), the memory management of trees. *)
From Coq Require Import List Arith Bool.
From Verif Require Import Idx_Model.
Import ListNotations.

Section Cse.
  (** The scalars. *)
  Variable K : Type.
  Variable keqb : K -> K -> bool.
  (** The space of an index. *)
  Variable space : idx -> nat.

  Definition label := nat.

  (** The expression of a node (EvalExpr::expr): a constant, a variable, or a tensor with its
      indices in the order of its slots. *)
  Inductive xpr :=
  | XCon (c : K)
  | XVar (l : label)
  | XTen (l : label) (ix : list idx).

  Definition xidx (x : xpr) : list idx := match x with XTen _ ix => ix | _ => [] end.
  Definition xlabel (x : xpr) : option label :=
    match x with XCon _ => None | XVar l => Some l | XTen l _ => Some l end.
  (** EvalExpr::is_tensor (eval_expr.cpp:226-228) *)
  Definition is_ten (x : xpr) : bool := match x with XTen _ _ => true | _ => false end.

  (** EvalExpr (eval_expr.hpp): the expression, the canonical indices, whether the canonical phase is
      -1, the hash value, and the connectivity graph (a number; equal graphs have equal numbers). *)
  Record info := mki { i_expr : xpr; i_canon : list idx; i_neg : bool; i_hash : nat; i_graph : option nat }.

  Inductive op := OSum | OProd.
  (** FullBinaryNode<EvalExpr> (core/binary_node.hpp) *)
  Inductive tree :=
  | Leaf (i : info)
  | Node (o : op) (i : info) (l r : tree).

  Definition tinfo (t : tree) : info := match t with Leaf i => i | Node _ i _ _ => i end.
  Definition texpr (t : tree) : xpr := i_expr (tinfo t).
  Definition tcanon (t : tree) : list idx := i_canon (tinfo t).
  Definition tneg (t : tree) : bool := i_neg (tinfo t).
  Definition thash (t : tree) : nat := i_hash (tinfo t).
  Definition tgraph (t : tree) : option nat := i_graph (tinfo t).

  (** FullBinaryNode::size (binary_node.hpp:465-471) *)
  Fixpoint size (t : tree) : nat := match t with Leaf _ => 1 | Node _ _ l r => size l + size r + 1 end.

  (** *** Comparison of nodes *)

  Fixpoint list_eqb (l m : list nat) : bool :=
    match l, m with
    | [], [] => true
    | x :: l', y :: m' => Nat.eqb x y && list_eqb l' m'
    | _, _ => false
    end.

  (** TensorBlockEqualComparator (utility/tensor.hpp:22-58): label, number of slots, spaces. *)
  Definition block_eqb (l : label) (ix : list idx) (m : label) (jx : list idx) : bool :=
    Nat.eqb l m && list_eqb (map space ix) (map space jx).

  (** The position of an index among the batch indices, or their number (110-113) *)
  Fixpoint position (x : idx) (l : list idx) : nat :=
    match l with [] => 0 | y :: l' => if Nat.eqb x y then 0 else Datatypes.S (position x l') end.
  (** IndexSpecificTensorBlockComparator (92-128) *)
  Fixpoint batch_eqb (batch ix jx : list idx) : bool :=
    match ix, jx with
    | i :: ix', j :: jx' =>
        (Nat.eqb i j || Nat.eqb (position i batch) (position j batch)) && batch_eqb batch ix' jx'
    | _, _ => true
    end.

  Definition same_type (x y : xpr) : bool :=
    match x, y with
    | XCon _, XCon _ | XVar _, XVar _ | XTen _ _, XTen _ _ => true
    | _, _ => false
    end.
  Definition graph_eqb (g h : option nat) : bool :=
    match g, h with
    | None, None => true
    | Some a, Some b => Nat.eqb a b
    | _, _ => false
    end.
  Definition has_graph (i : info) : bool := match i_graph i with Some _ => true | None => false end.

  (** TreeNodeEqualityComparator (eval_node_compare.hpp:50-119) without the children: hash values,
      types, the expressions, the graphs. *)
  Definition same_info (batch : list idx) (i j : info) : bool :=
    Nat.eqb (i_hash i) (i_hash j) && same_type (i_expr i) (i_expr j) &&
    match i_expr i, i_expr j with
    | XCon c, XCon d => keqb c d
    | XVar l, XVar m => Nat.eqb l m
    | XTen l ix, XTen m jx => has_graph i || (block_eqb l ix m jx && batch_eqb batch ix jx)
    | _, _ => false
    end && graph_eqb (i_graph i) (i_graph j).
  (** The same with the children (106-117); the operations are not compared. *)
  Fixpoint same_node (batch : list idx) (t u : tree) : bool :=
    match t, u with
    | Leaf i, Leaf j => same_info batch i j
    | Node _ i l r, Node _ j l' r' =>
        Nat.eqb (size t) (size u) && same_info batch i j && same_node batch l l' && same_node batch r r'
    | _, _ => false
    end.

  (** *** Identification *)

  (** The comparison that the elimination uses to identify subexpressions, with the batch indices,
      and the one that the table of names uses, without (common_subexpression_elimination.hpp:31-36,
      218). *)
  Variables eqb eqb0 : tree -> tree -> bool.

  (** std::unordered_map: a list of pairs; what is found is the first equal key. *)
  Definition counts := list (tree * nat).
  Fixpoint find {V} (e : tree -> tree -> bool) (t : tree) (m : list (tree * V)) : option V :=
    match m with
    | [] => None
    | (u, v) :: m' => if e u t then Some v else find e t m'
    end.
  Fixpoint increment (t : tree) (m : counts) : counts :=
    match m with
    | [] => []
    | (u, n) :: m' => if eqb u t then (u, Datatypes.S n) :: m' else (u, n) :: increment t m'
    end.

  (** SubexpressionIdentifier::operator() (38-55), called for the internal nodes in preorder; the
      subtrees of a node that has been seen before are not visited. *)
  Fixpoint identify (t : tree) (m : counts) : counts :=
    match t with
    | Leaf _ => m
    | Node _ _ l r =>
        match find eqb t m with
        | Some _ => increment t m
        | None => identify r (identify l (m ++ [(t, 1)]))
        end
    end.

  (** take_subexpression_map (57-77) and the filter (276-279) *)
  Definition usages (keep : tree -> nat -> bool) (ts : list tree) : counts :=
    filter (fun p => keep (fst p) (snd p))
      (filter (fun p => negb (snd p <? 2)) (fold_left (fun m t => identify t m) ts [])).

  (** *** Replacement *)

  (** std::ranges::stable_sort by space (129-130) *)
  Fixpoint insert_by (key : idx -> nat) (x : idx) (l : list idx) : list idx :=
    match l with
    | [] => [x]
    | y :: l' => if key x <=? key y then x :: y :: l' else y :: insert_by key x l'
    end.
  Fixpoint sort_by (key : idx -> nat) (l : list idx) : list idx :=
    match l with [] => [] | x :: l' => insert_by key x (sort_by key l') end.

  (** The functor that makes trees of expressions: of the definition of a result by the expression
      of a tree ([define], 156-164), of an intermediate with a sign ([use], 186), and of a result that
      is an intermediate with a sign ([use_root], 176-184). *)
  Variable define : xpr -> tree -> tree.
  Variable use : xpr -> bool -> tree.
  Variable use_root : xpr -> xpr -> bool -> tree.
  (** CSEOptions::label_gen *)
  Variable label_gen : tree -> nat -> label.

  (** The names, the counter of names, and the definitions inserted before the current tree. *)
  Record state := mks { s_names : list (tree * label); s_counter : nat; s_defs : list tree }.

  (** The expression that refers to the intermediate of a node (118-137). *)
  Definition reference (t : tree) (l : label) : xpr :=
    if is_ten (texpr t) then XTen l (sort_by space (tcanon t)) else XVar l.

  (** SubexpressionReplacer::operator() (105-202) for a node that is a common subexpression. *)
  Definition substitute (root : bool) (t : tree) (s : state) : tree * state :=
    let s' := match find eqb0 t (s_names s) with
              | Some l => (l, s)
              | None =>
                  let l := label_gen t (s_counter s) in
                  (l, mks (s_names s ++ [(t, l)]) (Datatypes.S (s_counter s))
                          (s_defs s ++ [define (reference t l) t]))
              end in
    let x := reference t (fst s') in
    (if root then use_root (texpr t) x (tneg t) else use x (tneg t), snd s').

  (** visit_internal (binary_node.hpp:151-215) with it: preorder, and no further where a node was
      replaced. *)
  Fixpoint replace (us : counts) (root : bool) (t : tree) (s : state) : tree * state :=
    match t with
    | Leaf _ => (t, s)
    | Node o i l r =>
        match find eqb t us with
        | Some _ => substitute root t s
        | None =>
            let (l', s1) := replace us false l s in
            let (r', s2) := replace us false r s1 in
            (Node o i l' r', s2)
        end
    end.

  (** perform_replacements (91-103): the definitions come right before the tree in which the
      intermediate is used first. [pos] is the position in the new list; the positions of the
      definitions are returned. *)
  Fixpoint replacements (us : counts) (ts : list tree) (names : list (tree * label)) (counter pos : nat)
    : list tree * list nat :=
    match ts with
    | [] => ([], [])
    | t :: ts' =>
        let (t', s) := replace us true t (mks names counter []) in
        let n := length (s_defs s) in
        let (out, ps) := replacements us ts' (s_names s) (s_counter s) (pos + n + 1) in
        (s_defs s ++ t' :: out, seq pos n ++ ps)
    end.

  (** The nodes that the intermediates are made of: the keys of cse_names in the end (147). *)
  Fixpoint definers (us : counts) (ts : list tree) (names : list (tree * label)) (counter : nat) : list tree :=
    match ts with
    | [] => map fst names
    | t :: ts' =>
        let s := snd (replace us true t (mks names counter [])) in
        definers us ts' (s_names s) (s_counter s)
    end.

  (** eliminate_common_subexpressions (254-291) *)
  Definition eliminate (keep : tree -> nat -> bool) (ts : list tree) : list tree * list nat :=
    replacements (usages keep ts) ts [] 1 0.
  Definition intermediates (keep : tree -> nat -> bool) (ts : list tree) : list tree :=
    definers (usages keep ts) ts [] 1.

  (** *** Nodes made by binarize *)

  (** A hash of a range without regard to its order (imed_hashes, eval_expr.cpp:331-336), a
      combination of two hash values, hashes of leaves. *)
  Variable hash_range : list nat -> nat.
  Variable hash_two : nat -> nat -> nat.
  Variable hash_con : K -> nat.
  Variable hash_var : label -> nat.
  Variable hash_block : label -> list nat -> nat.

  (** EvalExpr(Constant), EvalExpr(Variable) (eval_expr.cpp:163-173) *)
  Definition leaf_con (c : K) : tree := Leaf (mki (XCon c) [] false (hash_con c) None).
  Definition leaf_var (l : label) : tree := Leaf (mki (XVar l) [] false (hash_var l) None).
  (** EvalExpr(Tensor) (137-161) for a tensor that is in block order *)
  Definition leaf_ten (l : label) (ix : list idx) : tree :=
    Leaf (mki (XTen l ix) ix false (hash_block l (map space ix)) None).

  (** make_sum (452-477); the labels of intermediates are those of detail::label_tensor and
      label_scalar (48-49). [merge] is detail::make_tensor (51-90): the slots of the result. *)
  Variables imed_tensor imed_scalar : label.
  Variable merge : list idx -> list idx.
  Definition sum_node (h : nat) (l r : tree) : tree :=
    Node OSum (match texpr l with
               | XTen _ ix => mki (XTen imed_tensor (merge ix)) (tcanon l) false h None
               | _ => mki (XVar imed_scalar) [] false h None
               end) l r.
  Fixpoint build_sum (acc : tree) (hs : list nat) (rest : list tree) : tree :=
    match rest with
    | [] => acc
    | n :: rest' => build_sum (sum_node (hash_range (hs ++ [thash n])) acc n) (hs ++ [thash n]) rest'
    end.

  (** make_prod (510-544) if one of the factors is a scalar *)
  Definition scaled_node (h : nat) (l r : tree) : tree :=
    Node OProd (match texpr l, texpr r with
                | XTen _ ix, _ => mki (XTen imed_tensor (merge ix)) (tcanon l) (tneg l) h None
                | _, XTen _ ix => mki (XTen imed_tensor (merge ix)) (tcanon r) (tneg r) h None
                | _, _ => mki (XVar imed_scalar) [] false h None
                end) l r.
  Fixpoint build_scaled (acc : tree) (hs : list nat) (rest : list tree) : tree :=
    match rest with
    | [] => acc
    | n :: rest' => build_scaled (scaled_node (hash_range (hs ++ [thash n])) acc n) (hs ++ [thash n]) rest'
    end.
  (** The prefactor of a product (580-603) *)
  Definition with_prefactor (c : K) (t : tree) : tree :=
    Node OProd (match texpr t with
                | XTen _ ix => mki (XTen imed_tensor (merge ix)) (tcanon t) (tneg t) (hash_two (thash t) (hash_con c)) None
                | _ => mki (XVar imed_scalar) [] (tneg t) (hash_two (thash t) (hash_con c)) None
                end) t (leaf_con c).
  (** binarize(ResultExpr) (eval_expr.hpp:439-490): the root gets the result as its expression *)
  Definition with_result (x : xpr) (t : tree) : tree :=
    match t with
    | Leaf i => t
    | Node o i l r => Node o (mki x (i_canon i) (i_neg i) (i_hash i) (i_graph i)) l r
    end.
End Cse.

Arguments XCon {K}. Arguments XVar {K}. Arguments XTen {K}.
Arguments mki {K}. Arguments i_expr {K}. Arguments i_canon {K}. Arguments i_neg {K}. Arguments i_hash {K}. Arguments i_graph {K}.
Arguments Leaf {K}. Arguments Node {K}.
Arguments xidx {K}. Arguments xlabel {K}. Arguments is_ten {K}.
Arguments tinfo {K}. Arguments texpr {K}. Arguments tcanon {K}. Arguments tneg {K}. Arguments thash {K}. Arguments tgraph {K}.
Arguments size {K}. Arguments find {K V}.
Arguments mks {K}. Arguments s_names {K}. Arguments s_counter {K}. Arguments s_defs {K}.
