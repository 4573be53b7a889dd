(** Model of the export of one expression tree (SeQuant/core/export/export.hpp, export.cpp): the
    preprocessing of the tree and the visitor that makes the calls to the code generator.

    Objects are numbers, as in Gen_Model: two tensors are the same object when they are the same block
    under TensorBlockLessThanComparator, two variables when they have the same label. The tensor at a node
    is an object together with the number [ix] of the list of its indices.
    Not modelled: Power leaves, the adjoint operation, rewriting by the context (ReorderingContext), index
    batching, strategies given by the user, declarations, several expressions in one export. *)
From Coq Require Import List Arith Bool.
From Verif Require Import Gen_Model.
Import ListNotations.

(** a tensor or a variable at a node *)
Record occ : Type := mkOcc { ob : obj; ix : nat }.
(** the leaves: Constant; Tensor ([scalar] = false) or Variable ([scalar] = true) *)
Inductive leaf : Type :=
| Const (c : nat)
| Ref (scalar : bool) (x : occ).
(** EvalOp (SeQuant/core/eval/eval_expr.hpp); the number stands for the indices that are summed *)
Inductive kind : Type := KProduct (n : nat) | KSum.
(** ExportNode. [sel] is compute_selection (left, right) (compute_selection.hpp, export_expr.hpp:44-49);
    [fs] is the entry of the node in PreprocessResult::scalarFactors (export.hpp:34). *)
Inductive tree : Type :=
| Leaf (a : leaf)
| Node (k : kind) (sel : bool * bool) (fs : list leaf) (x : occ) (l r : tree).

(** FullBinaryNode::leaf, size (binary_node.hpp:465-471) *)
Definition is_leaf (t : tree) : bool := match t with Leaf _ => true | Node _ _ _ _ _ _ => false end.
Fixpoint size (t : tree) : nat :=
  match t with Leaf _ => 1 | Node _ _ _ _ l r => size l + size r + 1 end.

(** ZeroStrategy (context.hpp:25-31), StrategyPair (40-48) *)
Record zstrategy : Type := mkZ { on_load : bool; on_create : bool; on_reuse : bool }.
Definition NeverZero := mkZ false false false.
Definition ZeroOnCreate := mkZ false true false.
Definition AlwaysZero := mkZ true true true.
Inductive lstrategy : Type := SLoad | SCreate.

(** The state of the preprocessing: tensorReferences and variableReferences (export.hpp:39-40), and the
    strategies that the context has for this expression (context.hpp:215). *)
Record state : Type := mkState {
  refs : list (obj * nat);
  zs : obj -> zstrategy;
  ls : obj -> lstrategy
}.
Definition init : state := mkState [] (fun _ => ZeroOnCreate) (fun _ => SCreate).

Fixpoint lookup (o : obj) (m : list (obj * nat)) : option nat :=
  match m with
  | [] => None
  | (o', n) :: m' => if Nat.eqb o o' then Some n else lookup o m'
  end.
Fixpoint put (o : obj) (n : nat) (m : list (obj * nat)) : list (obj * nat) :=
  match m with
  | [] => [(o, n)]
  | (o', n') :: m' => if Nat.eqb o o' then (o, n) :: m' else (o', n') :: put o n m'
  end.
(** get_with_default (export.cpp:11-15), operator[] *)
Definition count_of (v : option nat) : nat := match v with Some n => n | None => 0 end.
Definition assign {A} (f : obj -> A) (o : obj) (a : A) : obj -> A := fun o' => if Nat.eqb o' o then a else f o'.

Section Preprocess.
(** the alternative names of an object: the label without the digits at its end, then this label followed
    by 2, 3, ... (export.cpp:20-37) *)
Variable name : obj -> nat -> obj.
(** the scalars that the generator wants to see as factors: PrunableScalars (generator.hpp:26-31) *)
Variables prune_constants prune_variables : bool.

(** the loop of rename (export.cpp:33-37) *)
Fixpoint rename_loop (fuel k : nat) (o : obj) (m : list (obj * nat)) : option obj :=
  match fuel with
  | 0 => None
  | S fuel' => if Nat.eqb (count_of (lookup (name o k) m)) 0 then Some (name o k) else rename_loop fuel' (S k) o m
  end.
(** rename (export.cpp:17-40): the new name and whether it has been used before *)
Definition rename (o : obj) (m : list (obj * nat)) : option (obj * bool) :=
  match rename_loop (S (length m)) 0 o m with
  | Some o' => Some (o', match lookup o' m with Some _ => true | None => false end)
  | None => None
  end.

(** the part of prune_scalar_factor (342-382) that decides whether a node is removed *)
Definition prunable (t : tree) : bool :=
  match t with
  | Leaf (Const _) => prune_constants
  | Leaf (Ref true _) => prune_variables
  | _ => false
  end.
Definition leaf_of (t : tree) : list leaf := match t with Leaf a => [a] | Node _ _ _ _ _ _ => [] end.
Definition is_product (k : kind) : bool := match k with KProduct _ => true | KSum => false end.
(** may_prune (552-582), for a tree that is not a leaf. [parent] is the operation of the parent. *)
Definition may_prune (parent : option kind) (k : kind) (l r : tree) : bool :=
  is_product k &&
  (negb (is_leaf l && is_leaf r) || match parent with Some k' => is_product k' | None => false end).
(** One of the two loops of prune_scalar_factors (641-678) with the rest of prune_scalar_factor (384-420).
    The result is the tree and, when it has become a leaf, the factors that move to the parent. *)
Fixpoint prune_loop (fuel : nat) (left : bool) (parent : option kind) (t : tree) : tree * list leaf :=
  match fuel with
  | 0 => (t, [])
  | S fuel' =>
    match t with
    | Leaf _ => (t, [])
    | Node k _ fs x l r =>
      let s := if left then l else r in
      let fill_in := if left then r else l in
      if may_prune parent k l r && prunable s then
        match fill_in with
        | Leaf _ => (fill_in, fs ++ leaf_of s)
        | Node k' sel' _ _ l' r' => prune_loop fuel' left parent (Node k' sel' (fs ++ leaf_of s) x l' r')
        end
      else (t, [])
    end
  end.
(** prune_scalar_factors (641-678) *)
Definition prune_scalar_factors (parent : option kind) (t : tree) : tree * list leaf :=
  let (t1, m1) := prune_loop (size t) true parent t in
  let (t2, m2) := prune_loop (size t1) false parent t1 in
  (t2, m1 ++ m2).

(** preprocess (431-502), called by preprocess_node_content (680-691), for a leaf and for another node.
    [reuse] is handleReuse (473-474). *)
Definition preprocess_leaf (a : leaf) (st : state) : state :=
  match a with
  | Const _ => st
  | Ref _ x => mkState (refs st) (assign (zs st) (ob x) NeverZero) (assign (ls st) (ob x) SLoad)
  end.
Definition preprocess_inner (reuse : bool) (x : occ) (st : state) : option (occ * state) :=
  let always o := mkState (refs st) (assign (zs st) o AlwaysZero) (ls st) in
  if reuse then
    match lookup (ob x) (refs st) with
    | None => Some (x, st)
    | Some 0 => Some (x, always (ob x))
    | Some (S _) =>
        match rename (ob x) (refs st) with
        | Some (o', true) => Some (mkOcc o' (ix x), always o')
        | Some (o', false) => Some (mkOcc o' (ix x), st)
        | None => None
        end
    end
  else Some (x, st).

(** rebalance_tree (693-697) *)
Definition rebalance (l r : tree) : tree * tree := if Nat.ltb (size l) (size r) then (r, l) else (l, r).
(** set_compute_selection (699-721) *)
Definition selection (k : kind) (sel : bool * bool) (l r : tree) : bool * bool :=
  match k with KSum => (is_leaf l, is_leaf r) | KProduct _ => sel end.

(** What a node sees of its parent: the operation, the compute selection, the expression, and whether it is
    the left child *)
Record parent_data : Type := mkParent { pk : kind; psel : bool * bool; px : occ; pleft : bool }.
(** prune_redundant_intermediate (723-746) *)
Definition prune_redundant (parent : option parent_data) (x : occ) : occ :=
  match parent with
  | None => x
  | Some p =>
      if fst (psel p) && snd (psel p) then x
      else if (pleft p && negb (fst (psel p))) || (negb (pleft p) && negb (snd (psel p))) then px p
      else x
  end.

(** the object of a node *)
Definition top_obj (t : tree) : option obj :=
  match t with
  | Leaf (Const _) => None
  | Leaf (Ref _ x) => Some (ob x)
  | Node _ _ _ x _ _ => Some (ob x)
  end.
(** track_usage (504-548), the reference counts *)
Definition track (o : option obj) (st : state) : state :=
  match o with
  | None => st
  | Some o => mkState (put o (S (count_of (lookup o (refs st)))) (refs st)) (zs st) (ls st)
  end.
(** one half of release_used_terms (748-786); None: the assertion fails *)
Definition release (o : option obj) (st : state) : option state :=
  match o with
  | None => Some st
  | Some o =>
      match lookup o (refs st) with
      | Some (S n) => Some (mkState (put o n (refs st)) (zs st) (ls st))
      | _ => None
      end
  end.

(** The preprocessing visit (PreprocessVisitor, 600-637; FullBinaryNode::visit, binary_node.hpp:150-220).
    The result is the tree, the scalar factors that move to the parent and the state; None: an assertion
    fails or the fuel is used up. *)
Fixpoint preprocess (fuel : nat) (parent : option parent_data) (t : tree) (st : state)
  : option (tree * list leaf * state) :=
  match fuel with
  | 0 => None
  | S fuel' =>
    let (t1, moved) := prune_scalar_factors (option_map pk parent) t in
    match t1 with
    | Leaf a => Some (t1, moved, track (top_obj t1) (preprocess_leaf a st))
    | Node k sel fs x l r =>
      let reuse := match parent with None => false | Some p => is_product (pk p) end in
      match preprocess_inner reuse x st with
      | None => None
      | Some (x1, st1) =>
        let (l1, r1) := rebalance l r in
        let sel1 := selection k sel l1 r1 in
        let x2 := prune_redundant parent x1 in
        match preprocess fuel' (Some (mkParent k sel1 x2 true)) l1 (track (Some (ob x2)) st1) with
        | None => None
        | Some (l2, ml, st2) =>
          match preprocess fuel' (Some (mkParent k sel1 x2 false)) r1 st2 with
          | None => None
          | Some (r2, mr, st3) =>
            match release (top_obj l2) st3 with
            | None => None
            | Some st4 =>
              match release (top_obj r2) st4 with
              | None => None
              | Some st5 => Some (Node k sel1 (fs ++ ml ++ mr) x2 l2 r2, moved, st5)
              end
            end
          end
        end
      end
    end
  end.
End Preprocess.

(** The expressions handed to compute (236-285): the scalar factors, then either the product of two
    operands or one operand, and the tensor that receives the value. The objects that are read are
    the list [args] of the call. *)
Inductive operand : Type := OConst (c : nat) | ORef (i : nat).
Record cexpr : Type := mkC { c_result : nat; c_product : option nat; c_factors : list operand; c_operands : list operand }.
(** Expressions are lists of numbers in Gen_Model. *)
Definition operand_code (a : operand) : list nat := match a with OConst c => [0; c] | ORef i => [1; i] end.
Fixpoint operands_of (l : list nat) : list operand :=
  match l with
  | 0 :: c :: l' => OConst c :: operands_of l'
  | S _ :: i :: l' => ORef i :: operands_of l'
  | _ => []
  end.
Definition code (e : cexpr) : list nat :=
  c_result e :: match c_product e with None => 0 | Some n => S n end :: length (c_factors e) ::
  concat (map operand_code (c_factors e ++ c_operands e)).
Definition expression_of (n : list nat) : cexpr :=
  match n with
  | r :: k :: f :: l =>
      mkC r (match k with 0 => None | S n => Some n end) (firstn f (operands_of l)) (skipn f (operands_of l))
  | _ => mkC 0 None [] []
  end.

Section Generate.
Variable fzs : obj -> zstrategy.
Variable fls : obj -> lstrategy.

(** m_tensorUses, m_variableUses (330-332) *)
Definition uses_t := obj -> option nat.
(** load_or_create (108-156) *)
Definition load_or_create (o : obj) (isleaf : bool) (u : uses_t) : list op * uses_t :=
  let used_before := match u o with Some _ => true | None => false end in
  let already_loaded := Nat.ltb 0 (count_of (u o)) in
  let u' := assign u o (Some (S (count_of (u o)))) in
  let create := negb isleaf && negb used_before && match fls o with SCreate => true | SLoad => false end in
  let load := negb create && negb already_loaded in
  ((if create then [Create o (on_create (fzs o))]
    else if load then [if on_load (fzs o) then LoadAndZero o else Load o]
    else if on_reuse (fzs o) then [Zero o]
    else []), u').
(** load_or_create (158-182) *)
Definition acquire (t : tree) (u : uses_t) : list op * uses_t :=
  match top_obj t with
  | None => ([], u)
  | Some o => load_or_create o (is_leaf t) u
  end.
(** drop (184-210); None: the assertion fails *)
Definition drop (o : option obj) (u : uses_t) : option (list op * uses_t) :=
  match o with
  | None => Some ([], u)
  | Some o =>
      match u o with
      | Some (S n) => Some ((if Nat.eqb n 0 then [Unload o] else []), assign u o (Some n))
      | _ => None
      end
  end.
(** handle_factor (254-275): the variable is loaded without being set to zero *)
Fixpoint load_factors (fs : list leaf) (u : uses_t) : list op * uses_t :=
  match fs with
  | [] => ([], u)
  | Const _ :: fs' => load_factors fs' u
  | Ref _ x :: fs' =>
      let now := if Nat.eqb (count_of (u (ob x))) 0 then [Load (ob x)] else [] in
      let (later, u') := load_factors fs' (assign u (ob x) (Some (S (count_of (u (ob x)))))) in
      (now ++ later, u')
  end.
(** 300-303 *)
Fixpoint drop_all (os : list (option obj)) (u : uses_t) : option (list op * uses_t) :=
  match os with
  | [] => Some ([], u)
  | o :: os' =>
      match drop o u with
      | None => None
      | Some (p, u1) => match drop_all os' u1 with None => None | Some (q, u2) => Some (p ++ q, u2) end
      end
  end.
Definition leaf_operand (a : leaf) : operand := match a with Const c => OConst c | Ref _ x => ORef (ix x) end.
Definition leaf_args (a : leaf) : list obj := match a with Const _ => [] | Ref _ x => [ob x] end.
(** the expression of a node, as an operand *)
Definition node_leaf (t : tree) : leaf := match t with Leaf a => a | Node _ _ _ x _ _ => Ref false x end.
Definition compute_call (x : occ) (k : option nat) (fs ops : list leaf) : op :=
  Compute (ob x) (code (mkC (ix x) k (map leaf_operand fs) (map leaf_operand ops)))
    (concat (map leaf_args fs) ++ concat (map leaf_args ops)).
(** the computations of process_computation (216-250, 282-298); None: nothing is computed and nothing is
    dropped (239-242) *)
Definition computations (k : kind) (sel : bool * bool) (fs : list leaf) (x : occ) (l r : tree) : option (list op) :=
  match k with
  | KProduct n => Some [compute_call x (Some n) fs [node_leaf l; node_leaf r]]
  | KSum =>
      match sel with
      | (false, false) => None
      | (true, false) => Some [compute_call x None fs [node_leaf l]]
      | (false, true) => Some [compute_call x None fs [node_leaf r]]
      | (true, true) => Some [compute_call x None fs [node_leaf l]; compute_call x None fs [node_leaf r]]
      end
  end.
(** process_computation (212-313) *)
Definition process_computation (k : kind) (sel : bool * bool) (fs : list leaf) (x : occ) (l r : tree) (u : uses_t)
  : option (list op * uses_t) :=
  match computations k sel fs x l r with
  | None => Some ([], u)
  | Some comp =>
      let (loads, u1) := load_factors fs u in
      match drop_all (rev (map (fun a => top_obj (Leaf a)) fs) ++ [top_obj r; top_obj l]) u1 with
      | None => None
      | Some (drops, u2) => Some (loads ++ comp ++ drops, u2)
      end
  end.
(** the visit of the tree without the call to persist (70-106) *)
Fixpoint generate (t : tree) (u : uses_t) : option (list op * uses_t) :=
  match t with
  | Leaf _ => Some (acquire t u)
  | Node k sel fs x l r =>
      let (p, u1) := acquire t u in
      match generate l u1 with
      | None => None
      | Some (pl, u2) =>
        match generate r u2 with
        | None => None
        | Some (pr, u3) =>
          match process_computation k sel fs x l r u3 with
          | None => None
          | Some (pc, u4) => Some (p ++ pl ++ pr ++ pc, u4)
          end
        end
      end
  end.
(** detail::export_expression (823-842): the result is made permanent when the root is visited for the
    second time (94-106); a root without children is visited only once. *)
Definition generate_all (t : tree) : option (list op) :=
  match generate t (fun _ => None) with
  | None => None
  | Some (p, _) => Some (p ++ match t with Leaf _ => [] | Node _ _ _ x _ _ => [Persist (ob x)] end)
  end.
End Generate.

(** export_expression, export_groups (967-1067) for one expression and a context without strategies *)
Definition export (name : obj -> nat -> obj) (pc pv : bool) (t : tree) : option (list op) :=
  match preprocess name pc pv (S (size t)) None t init with
  | None => None
  | Some (t', _, st) => generate_all (zs st) (ls st) t'
  end.
