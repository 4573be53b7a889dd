(** Specification vocabulary for the single-term optimiser. Nothing here refers to the model.

    A network is the list of the index lists of its tensors; tensors are named by position. *)
From Coq Require Import ZArith List Arith Permutation Relations Bool.
Import ListNotations.

(** ** Contraction trees and evaluation sequences *)

Inductive tree := Leaf (i : nat) | Node (l r : tree).

Fixpoint leaves (t : tree) : list nat :=
  match t with Leaf i => [i] | Node l r => leaves l ++ leaves r end.

(** The meaning of an evaluation sequence (algorithm.hpp:140-149): a number pushes an operand,
    -1 combines the last two. [None] on stack underflow or on any other number. *)
Fixpoint run_postfix (s : list Z) (stack : list tree) : option (list tree) :=
  match s with
  | [] => Some stack
  | c :: s' =>
      if Z.eqb c (-1) then
        match stack with
        | r :: l :: rest => run_postfix s' (Node l r :: rest)
        | _ => None
        end
      else if Z.leb 0 c then run_postfix s' (Leaf (Z.to_nat c) :: stack)
      else None
  end.

(** [denotes s t]: the sequence evaluates on an empty stack to exactly the tree [t]. *)
Definition denotes (s : list Z) (t : tree) : Prop := run_postfix s [] = Some [t].

(** [over n t]: [t] uses each of the tensors 0..n-1 exactly once. *)
Definition over (n : nat) (t : tree) : Prop := Permutation (leaves t) (seq 0 n).

(** In every contraction the operand that contains the earliest first tensor comes first. *)
Fixpoint first_leaf (t : tree) : nat :=
  match t with Leaf i => i | Node l _ => first_leaf l end.
Fixpoint in_order (t : tree) : Prop :=
  match t with
  | Leaf _ => True
  | Node l r => first_leaf l < first_leaf r /\ in_order l /\ in_order r
  end.

(** ** Open indices *)

(** Occurrences of index [k] in the tensors [A] of the network. *)
Definition occurrences (net : list (list nat)) (A : list nat) (k : nat) : nat :=
  list_sum (map (fun i => count_occ Nat.eq_dec (nth i net []) k) A).

(** The tensors not in [A]. *)
Definition others (net : list (list nat)) (A : list nat) : list nat :=
  filter (fun i => negb (existsb (Nat.eqb i) A)) (seq 0 (length net)).

(** An index of the intermediate formed from the tensors [A] is open if it occurs in [A] and
    either [A] is a single tensor, or it occurs once only in [A], or it occurs outside [A]. *)
Definition is_open (net : list (list nat)) (A : list nat) (k : nat) : bool :=
  Nat.ltb 0 (occurrences net A k)
  && (Nat.eqb (length A) 1
      || Nat.eqb (occurrences net A k) 1
      || Nat.ltb 0 (occurrences net (others net A) k)).

(** The open indices in increasing order. *)
Definition open_list (net : list (list nat)) (A : list nat) : list nat :=
  filter (is_open net A) (seq 0 (S (list_max (concat net)))).

(** ** Cost of a contraction tree under an additive objective *)
Section TreeCost.
  Variable net : list (list nat).
  Variable cost : list nat -> list nat -> list nat -> Z.
  Variable foot : list nat -> Z.
  Variable is_volatile : nat -> bool.   (* of a tensor *)
  Variable vweight fweight : Z.

  Definition step_cost (L R : list nat) : Z :=
    ((if existsb is_volatile (L ++ R) then vweight else 1)
       * cost (open_list net L) (open_list net R) (open_list net (L ++ R))
     + fweight * foot (open_list net (L ++ R)))%Z.

  Fixpoint tree_cost (t : tree) : Z :=
    match t with
    | Leaf _ => 0%Z
    | Node l r => (step_cost (leaves l) (leaves r) + tree_cost l + tree_cost r)%Z
    end.
End TreeCost.

(** ** Connectivity *)

(** Two different tensors are contractible if they share a (non-null) index. *)
Definition contractible (net : list (list nat)) (i j : nat) : Prop :=
  i <> j /\ exists k, k <> 0 /\ In k (nth i net []) /\ In k (nth j net []).

(** A set [A] of vertices is connected by the edges [E] if any two members are joined by a path
    inside the set. *)
Definition connected_by (E : nat -> nat -> Prop) (A : list nat) : Prop :=
  forall i j, In i A -> In j A ->
    clos_refl_trans nat (fun x y => In x A /\ In y A /\ E x y) i j.

(** A set of tensors is connected if any two members are joined by a path of contractible
    tensors inside the set. *)
Definition connected_set (net : list (list nat)) (A : list nat) : Prop :=
  connected_by (contractible net) A.

(** Every intermediate of the tree is connected. *)
Fixpoint connected_tree (net : list (list nat)) (t : tree) : Prop :=
  match t with
  | Leaf _ => True
  | Node l r => connected_set net (leaves l ++ leaves r) /\ connected_tree net l /\ connected_tree net r
  end.

(** No contraction of the tree is an outer product: its two operands share a contractible index. *)
Fixpoint no_outer_product (net : list (list nat)) (t : tree) : Prop :=
  match t with
  | Leaf _ => True
  | Node l r =>
      (exists i j, In i (leaves l) /\ In j (leaves r) /\ contractible net i j)
      /\ no_outer_product net l /\ no_outer_product net r
  end.

(** ** Peak memory of an evaluation sequence

    All leaves that the sequence names are loaded at the start. Each -1 first creates the result
    while both operands are still alive, then frees the operands. [size A] is the size of the
    (intermediate) tensor formed from the tensors [A]. *)
Section Peak.
  Variable size : list nat -> Z.

  Fixpoint loaded (s : list Z) : Z :=
    match s with
    | [] => 0%Z
    | c :: s' => ((if Z.leb 0 c then size [Z.to_nat c] else 0) + loaded s')%Z
    end.

  (** [peak_from s stack live]: the largest amount of memory in use while executing [s], when
      [live] is in use now. *)
  Fixpoint peak_from (s : list Z) (stack : list tree) (live : Z) : Z :=
    match s with
    | [] => live
    | c :: s' =>
        if Z.leb 0 c then peak_from s' (Leaf (Z.to_nat c) :: stack) live
        else match stack with
             | r :: l :: rest =>
                 let res := size (leaves (Node l r)) in
                 Z.max (live + res)
                       (peak_from s' (Node l r :: rest)
                          (live + res - size (leaves l) - size (leaves r)))
             | _ => live
             end
    end.

  Definition peak (s : list Z) : Z := Z.max (loaded s) (peak_from s [] (loaded s)).
End Peak.

(** The evaluation sequence that evaluates [t] left operand first. *)
Fixpoint postfix (t : tree) : list Z :=
  match t with
  | Leaf i => [Z.of_nat i]
  | Node l r => postfix l ++ postfix r ++ [(-1)%Z]
  end.

(** Secondary (work) cost of a tree. *)
Fixpoint tree_work (work : list nat -> list nat -> Z) (t : tree) : Z :=
  match t with
  | Leaf _ => 0%Z
  | Node l r => (work (leaves l) (leaves r) + tree_work work l + tree_work work r)%Z
  end.

(** The size of the tensor formed from the tensors [A] of the network: the volume of its open
    indices; a scalar (volume 1) takes no space. *)
Definition tensor_size (net : list (list nat)) (vol : list nat -> Z) (A : list nat) : Z :=
  let v := vol (open_list net A) in if Z.eqb v 1 then 0%Z else v.

(** The distinct indices of a list, in increasing order. *)
Definition distinct (l : list nat) : list nat :=
  filter (fun k => existsb (Nat.eqb k) l) (seq 0 (S (list_max l))).

(** Dense cost of one contraction of operands with indices [l], [r] to a result with indices
    [res]: the volume of all indices involved; 0 if that volume is 1. *)
Definition dense_flops (vol : list nat -> Z) (l r res : list nat) : Z :=
  let v := vol (distinct (l ++ r ++ res)) in if Z.eqb v 1 then 0%Z else v.

(** Dense size of a tensor with the given indices; a scalar takes no space. *)
Definition dense_elems (vol : list nat -> Z) (ixs : list nat) : Z :=
  if Z.eqb (vol ixs) 1 then 0%Z else vol ixs.

(** Total storage of operands and result. *)
Definition dense_size (vol : list nat -> Z) (l r res : list nat) : Z :=
  (dense_elems vol l + dense_elems vol r + dense_elems vol res)%Z.

(** The number of multiply-adds of one contraction: the volume of all indices involved. *)
Definition contraction_flops (net : list (list nat)) (vol : list nat -> Z) (L R : list nat) : Z :=
  let v := vol (distinct (open_list net L ++ open_list net R ++ open_list net (L ++ R))) in
  if Z.eqb v 1 then 0%Z else v.

(** The secondary cost of one contraction in the peak objective: an arbitrary machine model
    [roof] of the flops and of the memory traffic, times the replay weight. *)
Definition contraction_work (net : list (list nat)) (vol : list nat -> Z) (roof : Z -> Z -> Z)
  (is_volatile : nat -> bool) (vweight : Z) (L R : list nat) : Z :=
  ((if existsb is_volatile (L ++ R) then vweight else 1)
   * roof (contraction_flops net vol L R)
          (tensor_size net vol L + tensor_size net vol R + tensor_size net vol (L ++ R)))%Z.
