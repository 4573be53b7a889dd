(** Specification of the elimination of common subexpressions: what a list of evaluation trees
    computes.

    Values are in a commutative ring. A store gives every label its values, as a function of the
    values of the indices. A tree is evaluated as the evaluation without a cache does it: a sum adds
    its operands, a product multiplies them and sums over the indices that its result does not have.
    The trees of a list are evaluated one after the other, and each stores its value under the label
    of its root. *)
From Coq Require Import List Arith Bool Permutation.
From Verif Require Import Idx_Model Bin_Model Bin_Spec Cse_Model.
Import ListNotations.

Section Spec.
  Variable K : Type.
  Variables (zero : K) (add mul : K -> K -> K) (opp : K -> K).
  (** The values of an index. *)
  Variable dom : idx -> list nat.
  Variable space : idx -> nat.
  Notation tree := (Cse_Model.tree K).

  Definition store := label -> list nat -> K.

  Definition xval (s : store) (x : xpr K) (r : env) : K :=
    match x with
    | XCon c => c
    | XVar l => s l []
    | XTen l ix => s l (map r ix)
    end.
  Definition tidx (t : tree) : list idx := xidx (texpr t).
  Fixpoint val (s : store) (t : tree) (r : env) : K :=
    match t with
    | Cse_Model.Leaf i => xval s (i_expr i) r
    | Cse_Model.Node Cse_Model.OSum _ a b => add (val s a r) (val s b r)
    | Cse_Model.Node Cse_Model.OProd i a b =>
        sum_over K zero add dom (contracted (tidx a) (tidx b) (xidx (i_expr i)))
          (fun r => mul (val s a r) (val s b r)) r
    end.
  Definition signed (neg : bool) (v : K) : K := if neg then opp v else v.

  (** The assignment that gives the indices [ix] the values [vs]. *)
  Fixpoint bind (ix : list idx) (vs : list nat) : env :=
    match ix, vs with
    | x :: ix', v :: vs' => set (bind ix' vs') x v
    | _, _ => fun _ => 0
    end.

  (** The labels that a tree reads, and the one that it stores to. *)
  Fixpoint reads (t : tree) : list label :=
    match t with
    | Cse_Model.Leaf i => match xlabel (i_expr i) with Some l => [l] | None => [] end
    | Cse_Model.Node _ _ a b => reads a ++ reads b
    end.
  Definition target (t : tree) : option label := xlabel (texpr t).

  Definition assign (s : store) (t : tree) : store :=
    match texpr t with
    | XCon _ => s
    | XVar l => fun m vs => if Nat.eqb m l then val s t (bind [] []) else s m vs
    | XTen l ix => fun m vs => if Nat.eqb m l then val s t (bind ix vs) else s m vs
    end.
  (** The values of the trees of a list, one after the other, and the store in the end. *)
  Fixpoint values (s : store) (ts : list tree) : list (env -> K) :=
    match ts with
    | [] => []
    | t :: ts' => val s t :: values (assign s t) ts'
    end.
  Definition final (s : store) (ts : list tree) : store := fold_left assign ts s.

  (** Well-formed trees: no index twice; the canonical indices are those of the result; the operands
      of a sum have the indices of the result, and those of a product have them together. *)
  Definition same_indices (a b : list idx) : Prop := forall x, In x a <-> In x b.
  Definition wf_info (i : info K) : Prop :=
    NoDup (xidx (i_expr i)) /\ Permutation (i_canon i) (xidx (i_expr i)).
  Fixpoint wf (t : tree) : Prop :=
    match t with
    | Cse_Model.Leaf i => wf_info i
    | Cse_Model.Node Cse_Model.OSum i a b =>
        wf_info i /\ same_indices (tidx a) (xidx (i_expr i)) /\ same_indices (tidx b) (xidx (i_expr i)) /\
        wf a /\ wf b
    | Cse_Model.Node Cse_Model.OProd i a b =>
        wf_info i /\ (forall x, In x (xidx (i_expr i)) -> In x (tidx a) \/ In x (tidx b)) /\ wf a /\ wf b
    end.

  (** The internal nodes of a tree, with everything below them. *)
  Fixpoint internal (t : tree) : list tree :=
    match t with
    | Cse_Model.Leaf _ => []
    | Cse_Model.Node _ _ a b => t :: internal a ++ internal b
    end.

  (** Two nodes with the same value in their canonical indices, up to their phases, if the tensors
      have the symmetries that were declared for them. *)
  Variable symmetric : store -> Prop.
  Definition same_value (t u : tree) : Prop :=
    is_ten (texpr t) = is_ten (texpr u) /\ map space (tcanon t) = map space (tcanon u) /\
    forall s vs, symmetric s -> length vs = length (tcanon t) ->
      signed (tneg t) (val s t (bind (tcanon t) vs)) = signed (tneg u) (val s u (bind (tcanon u) vs)).

  (** No tree reads what it or a later tree stores. *)
  Fixpoint in_order (ts : list tree) : Prop :=
    match ts with
    | [] => True
    | t :: ts' => (forall u l, In u ts -> target u = Some l -> ~ In l (reads t)) /\ in_order ts'
    end.

  (** A functor that makes trees of expressions as it should. *)
  Record good_functor (define : xpr K -> tree -> tree) (use : xpr K -> bool -> tree)
    (use_root : xpr K -> xpr K -> bool -> tree) : Prop := {
    g_define : forall x t, wf t -> is_ten x = is_ten (texpr t) -> Permutation (xidx x) (tidx t) ->
      (exists l, xlabel x = Some l) -> (exists o i a b, t = Cse_Model.Node o i a b) ->
      texpr (define x t) = x /\ (forall l, In l (reads (define x t)) -> In l (reads t)) /\
      forall s r, val s (define x t) r = val s t r;
    g_use : forall x neg, NoDup (xidx x) ->
      same_indices (tidx (use x neg)) (xidx x) /\
      (forall l, In l (reads (use x neg)) <-> xlabel x = Some l) /\
      forall s r, val s (use x neg) r = signed neg (xval s x r);
    g_use_root : forall y x neg, NoDup (xidx x) -> same_indices (xidx y) (xidx x) ->
      texpr (use_root y x neg) = y /\
      (forall l, In l (reads (use_root y x neg)) <-> xlabel x = Some l) /\
      forall s r, val s (use_root y x neg) r = signed neg (xval s x r) }.

  (** The elements of a list at the positions that are not in [ps]. *)
  Fixpoint without {X} (ps : list nat) (n : nat) (l : list X) : list X :=
    match l with
    | [] => []
    | x :: l' => if mem n ps then without ps (Datatypes.S n) l' else x :: without ps (Datatypes.S n) l'
    end.

  (** Labels for the intermediates that are all different and that nothing else uses. *)
  Definition fresh_labels (gen : tree -> nat -> label) (ts : list tree) : Prop :=
    (forall t u m n, gen t m = gen u n -> m = n) /\
    (forall t n u, In u ts -> ~ In (gen t n) (reads u) /\ target u <> Some (gen t n)).

  (** A concrete functor: that of binarize for results and for products of an intermediate and -1
      (core/eval/eval_expr.hpp:439-490, eval_expr.cpp:580-603). *)
  Variable one : K.
  Variable imed : label.
  Definition relabel (x : xpr K) : xpr K :=
    match x with XTen _ ix => XTen imed ix | XVar _ => XVar imed | _ => x end.
  Definition plain (x : xpr K) : info K := mki x (xidx x) false 0 None.
  Definition bin_define (x : xpr K) (t : tree) : tree := with_result K x t.
  Definition bin_use (x : xpr K) (neg : bool) : tree :=
    if neg then Cse_Model.Node Cse_Model.OProd (plain (relabel x)) (Cse_Model.Leaf (plain x)) (Cse_Model.Leaf (plain (XCon (opp one))))
    else Cse_Model.Leaf (plain x).
  Definition bin_use_root (y x : xpr K) (neg : bool) : tree :=
    Cse_Model.Node Cse_Model.OProd (plain y) (Cse_Model.Leaf (plain x))
      (Cse_Model.Leaf (plain (XCon (if neg then opp one else one)))).
End Spec.

(** *** When nodes that compare equal have the same value *)
Section Nodes.
  Variable K : Type.
  Notation tree := (Cse_Model.tree K).

  (** The data that binarize puts into nodes: those of a leaf are its own; a sum has the canonical
      indices of its left operand and no phase; a product with a scalar has those of the other
      factor. Nodes with a graph (products of tensors) can have any. *)
  Definition made_info (o : Cse_Model.op) (i : info K) (a b : tree) : Prop :=
    match o with
    | Cse_Model.OSum => i_canon i = tcanon a
    | Cse_Model.OProd =>
        match is_ten (texpr a), is_ten (texpr b) with
        | true, true => False
        | true, false => i_canon i = tcanon a
        | false, true => i_canon i = tcanon b
        | false, false => i_canon i = []
        end
    end.
  Fixpoint made (t : tree) : Prop :=
    match t with
    | Cse_Model.Leaf i => i_canon i = xidx (i_expr i)
    | Cse_Model.Node o i a b => (i_graph i = None -> made_info o i a b) /\ made a /\ made b
    end.

  (** What the comparison does not look at, but has to be the same in both nodes: the operations,
      the phases of the operands relative to the node, and how the indices of the second operand of a
      sum are related to those of the first. *)
  Fixpoint alike (t u : tree) : Prop :=
    match t, u with
    | Cse_Model.Leaf i, Cse_Model.Leaf j => i_neg i = i_neg j
    | Cse_Model.Node o i a b, Cse_Model.Node o' j a' b' =>
        i_graph i = None ->
        o = o' /\ alike a a' /\ alike b b' /\
        match o with
        | Cse_Model.OSum =>
            xorb (i_neg i) (tneg a) = xorb (i_neg j) (tneg a') /\ xorb (i_neg i) (tneg b) = xorb (i_neg j) (tneg b') /\
            map (fun x => position x (tcanon a)) (tcanon b) = map (fun x => position x (tcanon a')) (tcanon b')
        | Cse_Model.OProd =>
            xorb (i_neg i) (xorb (tneg a) (tneg b)) = xorb (i_neg j) (xorb (tneg a') (tneg b'))
        end
    | _, _ => True
    end.
End Nodes.
