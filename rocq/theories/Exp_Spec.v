(** What an expression tree means and what the generated program has to do, independently of the
    preprocessing and of the visitor. The machine that runs the program is the one of Gen_Spec. *)
From Coq Require Import List Arith Bool.
From Verif Require Import Gen_Model Gen_Spec Exp_Model.
Import ListNotations.

Section Meaning.
(** [V]: arrays as they are stored; [W]: arrays whose dimensions carry the names of indices *)
Context {V W : Type}.
Variables (rd : nat -> V -> W) (wr : nat -> W -> V).
Variable cst : nat -> W.                     (* constants *)
Variable con : nat -> W -> W -> W.           (* contraction *)
Variables (plus sc : W -> W -> W).           (* addition; multiplication by a scalar *)
Variable given : obj -> V.                   (* the inputs *)

Definition leaf_value (a : leaf) : W :=
  match a with Const c => cst c | Ref _ x => rd (ix x) (given (ob x)) end.
Definition scale (fs : list leaf) (w : W) : W := fold_right (fun a w => sc (leaf_value a) w) w fs.
(** the value of a tree; the trees given by the user have no separate scalar factors *)
Fixpoint value (t : tree) : W :=
  match t with
  | Leaf a => leaf_value a
  | Node k _ fs _ l r =>
      scale fs (match k with KProduct n => con n (value l) (value r) | KSum => plus (value l) (value r) end)
  end.

(** The value of a computed expression: [vs] are the values of the objects that it reads. *)
Fixpoint read (l : list operand) (vs : list V) : list W :=
  match l, vs with
  | [], _ => []
  | OConst c :: l', _ => cst c :: read l' vs
  | ORef i :: l', v :: vs' => rd i v :: read l' vs'
  | ORef _ :: l', [] => cst 0 :: read l' []
  end.
Definition evaluate (n : list nat) (vs : list V) : V :=
  let e := expression_of n in
  let ws := read (c_factors e ++ c_operands e) vs in
  let k := length (c_factors e) in
  let w := match c_product e, skipn k ws with
           | Some n, [a; b] => con n a b
           | _, a :: _ => a
           | _, [] => cst 0
           end in
  wr (c_result e) (fold_right sc w (firstn k ws)).

(** The laws of array arithmetic that are used: addition of stored arrays, sums and scalar multiples of
    values, contractions. [scalar] tells which leaves are scalars. *)
Record arithmetic (zero : V) (add : V -> V -> V) (scalar : leaf -> Prop) : Prop := mkArithmetic {
  add_zero : forall v, add zero v = v;
  add_assoc : forall u v w, add (add u v) w = add u (add v w);
  wr_plus : forall i a b, wr i (plus a b) = add (wr i a) (wr i b);
  plus_comm : forall a b, plus a b = plus b a;
  con_comm : forall n a b, con n a b = con n b a;
  sc_plus : forall s a b, scalar s ->
    sc (leaf_value s) (plus a b) = plus (sc (leaf_value s) a) (sc (leaf_value s) b);
  con_scalar : forall n s w, scalar s -> con n (leaf_value s) w = sc (leaf_value s) w;
  con_sc : forall n s a b, scalar s -> con n (sc (leaf_value s) a) b = sc (leaf_value s) (con n a b)
}.

(** the result tensor of every node has the indices of its value *)
Fixpoint fitting (t : tree) : Prop :=
  match t with
  | Leaf _ => True
  | Node _ _ _ x l r => rd (ix x) (wr (ix x) (value t)) = value t /\ fitting l /\ fitting r
  end.
End Meaning.

(** a tree as it is before preprocessing *)
Fixpoint plain (t : tree) : Prop :=
  match t with
  | Leaf _ => True
  | Node _ sel fs _ l r => sel = (true, true) /\ fs = [] /\ plain l /\ plain r
  end.
(** the leaves, and the results of the operations *)
Fixpoint leaves (t : tree) : list leaf :=
  match t with Leaf a => [a] | Node _ _ _ _ l r => leaves l ++ leaves r end.
(** the scalars that occur in a tree: constants and variables *)
Definition scalar_leaf (t : tree) (a : leaf) : Prop :=
  In a (leaves t) /\ match a with Const _ => True | Ref scalar _ => scalar = true end.
Definition inputs (t : tree) : list obj := concat (map leaf_args (leaves t)).
Fixpoint results (t : tree) : list obj :=
  match t with Leaf _ => [] | Node _ _ _ x l r => ob x :: results l ++ results r end.
(** no input has the name of a result, or a name that a result may be given instead *)
Definition names_apart (name : obj -> nat -> obj) (t : tree) : Prop :=
  forall i o, In i (inputs t) -> In o (results t) -> i <> o /\ forall k, i <> name o k.

(** below a product a sum adds leaves only *)
Fixpoint simple_below (t : tree) : bool :=
  match t with
  | Leaf _ => true
  | Node (KProduct _) _ _ _ l r => simple_below l && simple_below r
  | Node KSum _ _ _ l r => is_leaf l && is_leaf r
  end.
(** sums of arbitrary terms are at the top of the tree only *)
Fixpoint simple (t : tree) : bool :=
  match t with
  | Leaf _ => true
  | Node (KProduct _) _ _ _ l r => simple_below l && simple_below r
  | Node KSum _ _ _ l r => simple l && simple r
  end.
