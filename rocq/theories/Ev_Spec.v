(** What the caching and evaluation properties mean. Shared with the model: trees, the key
    comparison, the names of the operations of a cache, and the kinds of operations. *)
From Coq Require Import List ZArith Bool Arith.
From Verif Require Import BT_Model Ev_Model.
Import ListNotations.
Local Open Scope Z_scope.

(** The payload comparison is an equivalence. *)
Record equivb {D} (peq : D -> D -> bool) : Prop := {
  eqv_refl : forall x, peq x x = true;
  eqv_sym : forall x y, peq x y = true -> peq y x = true;
  eqv_trans : forall x y z, peq x y = true -> peq y z = true -> peq x z = true }.

(** ** Histories of a cache *)
Inductive cop (D P : Type) :=
| OAccess (k : tree D) | OStore (k : tree D) (d : option P) | OReset | OSize (k : tree D).
Arguments OAccess {D P}. Arguments OStore {D P}. Arguments OReset {D P}. Arguments OSize {D P}.

Inductive cout (P : Type) := RPtr (p : option P) | RSize (n : Z) | RNone.
Arguments RPtr {P}. Arguments RSize {P}. Arguments RNone {P}.

Section History.
  Context {D P : Type}.
  Variable same : tree D -> tree D -> bool.   (* equality of keys *)
  Variable sizeof : P -> Z.
  Variable k : tree D.
  Variable m : Z.                             (* the registered use count *)
  Variable pers : bool.

  (** Histories are newest-first. [uses]: how many times the entry has been read since the last
      reset (storing counts as a read, null pointers do not). [stored]: what was stored last; a
      reset forgets it unless the entry is persistent. [readable]: what a read would return. *)
  Definition readable_of (u : Z) (d : option P) : option P :=
    match d with
    | Some p => if pers then Some p else if u <? m then Some p else None
    | None => None
    end.

  Fixpoint uses_stored (h : list (cop D P)) : Z * option P :=
    match h with
    | [] => (0, None)
    | OReset :: h' => (0, if pers then snd (uses_stored h') else None)
    | OStore k' d :: h' =>
        let '(u, d0) := uses_stored h' in
        if same k k' then ((match d with Some _ => u + 1 | None => u end), d) else (u, d0)
    | OAccess k' :: h' =>
        let '(u, d0) := uses_stored h' in
        if same k k' then ((match readable_of u d0 with Some _ => u + 1 | None => u end), d0) else (u, d0)
    | OSize _ :: h' => uses_stored h'
    end.

  Definition readable (h : list (cop D P)) : option P :=
    let '(u, d) := uses_stored h in readable_of u d.
End History.

(** ** Subtrees, and the value of a tree without any cache *)
Fixpoint subtrees {D} (t : tree D) : list (tree D) :=
  t :: match t with Leaf _ => [] | Node _ l r => subtrees l ++ subtrees r end.

Definition within {D} (roots : list (tree D)) (n : tree D) : Prop := exists r, In r roots /\ In n (subtrees r).

Section Value.
  Context {D V : Type}.
  Variable op_type : D -> eop.
  Variable canon_phase : D -> Z.
  Variable vsum vprod : D -> D -> D -> V -> V -> V.
  Variable vadj : D -> D -> V -> V.
  Variable vphase : Z -> V -> V.
  Variable leafv : D -> V.

  Fixpoint value (t : tree D) : V :=
    match t with
    | Leaf d => leafv d
    | Node d l r =>
        match op_type d with
        | OpSum => vsum (data l) (data r) d (value l) (value r)
        | OpProduct => vprod (data l) (data r) d (value l) (value r)
        | OpAdjoint => vadj (data l) d (value l)
        end
    end.

  (** The value of the canonical form: the value times the recorded phase. *)
  Definition canon_value (t : tree D) : V :=
    if canon_phase (data t) =? 1 then value t else vphase (canon_phase (data t)) (value t).

  (** The heap holds value [v] at the address [p]. *)
  Definition holds_at (h : list V) (p : option nat) (v : V) : Prop :=
    exists a, p = Some a /\ nth_error h a = Some v.

  (** Objects that exist keep their value. *)
  Definition grows (h h' : list V) : Prop :=
    forall a v, nth_error h a = Some v -> nth_error h' a = Some v.

  (** Every cached pointer points to the canonical value of its key. *)
  Definition consistent (h : list V) (c : list (tree D * entry nat)) : Prop :=
    forall k e, In (k, e) c -> forall a, data_p e = Some a -> nth_error h a = Some (canon_value k).

  (** Equal keys denote equal values up to the phases, for the keys of the cache. *)
  Definition keys_sound (peq : D -> D -> bool) (roots keys : list (tree D)) : Prop :=
    forall n k, within roots n -> In k keys -> node_eq peq k n = true -> canon_value k = canon_value n.

  (** [own]: the objects that the leaf evaluator keeps and may return again. *)
  Definition intact (own : list (nat * V)) (h : list V) : Prop :=
    forall a v, In (a, v) own -> nth_error h a = Some v.

  (** A state between evaluations: cached objects hold what they should, and so do the objects of
      the leaf evaluator. *)
  Definition sound_state (own : list (nat * V)) (keys : list (tree D)) (s : @est D V) : Prop :=
    consistent (e_heap s) (e_cache s) /\ map fst (e_cache s) = keys /\ intact own (e_heap s).

  (** An object that neither the cache nor the leaf evaluator refers to. *)
  Definition private (own : list (nat * V)) (p : nat) (s : @est D V) : Prop :=
    (p < length (e_heap s))%nat /\ ~ In p (map fst own) /\
    forall k e, In (k, e) (e_cache s) -> data_p e <> Some p.

  (** The leaf evaluator returns an object with the value of the leaf: one it keeps, or a new one. *)
  Definition leaf_evaluator_ok (roots : list (tree D)) (own : list (nat * V)) (le : tree D -> list V -> nat * list V) : Prop :=
    forall n h, within roots n -> is_leaf n = true -> intact own h ->
      grows h (snd (le n h)) /\ nth_error (snd (le n h)) (fst (le n h)) = Some (leafv (data n)) /\
      (In (fst (le n h)) (map fst own) \/ length h <= fst (le n h))%nat.

  (** The product hook, when it answers, answers with the product. *)
  Definition hook_ok (roots : list (tree D)) (hook : tree D -> V -> V -> option V) : Prop :=
    forall d l r w, within roots (Node d l r) -> op_type d = OpProduct ->
      hook (Node d l r) (value l) (value r) = Some w -> w = vprod (data l) (data r) d (value l) (value r).

  (** A custom evaluator, when it answers, answers with the value of the node, changes no existing
      object, and leaves private objects private. *)
  Definition custom_ok (roots keys : list (tree D)) (own : list (nat * V)) (ce : tree D -> @est D V -> option nat * @est D V) : Prop :=
    forall n s x s', within roots n -> is_leaf n = false -> sound_state own keys s -> ce n s = (x, s') ->
      grows (e_heap s) (e_heap s') /\ sound_state own keys s' /\
      (forall p, private own p s -> private own p s' /\ x <> Some p) /\
      (forall a, x = Some a -> nth_error (e_heap s') a = Some (value n)).
End Value.

(** Keys are pairwise different. *)
Fixpoint distinct_keys {D X} (peq : D -> D -> bool) (m : list (tree D * X)) : Prop :=
  match m with
  | [] => True
  | (k, _) :: m' => (forall k', In k' (map fst m') -> node_eq peq k k' = false) /\ distinct_keys peq m'
  end.

(** How many nodes of a list are the same intermediate as [t]. *)
Definition occurrences {D} (peq : D -> D -> bool) (t : tree D) (l : list (tree D)) : nat :=
  length (filter (fun n => node_eq peq n t) l).

(** A node is volatile when it, or a node below it, is intrinsically volatile. *)
Fixpoint volatile {D} (is_volatile : tree D -> bool) (t : tree D) : bool :=
  is_volatile t || match t with Leaf _ => false | Node _ l r => volatile is_volatile l || volatile is_volatile r end.

(** The nodes that consume [n] in a forest: parents of subtrees equal to [n]. *)
Definition consumed_by {D} (peq : D -> D -> bool) (nodes : list (tree D)) (n p : tree D) : Prop :=
  exists root d l r, In root nodes /\ In (Node d l r) (subtrees root) /\ p = Node d l r /\
    (node_eq peq l n = true \/ node_eq peq r n = true).

(** ** Partitions of a range into intervals *)

(** [l] is a chain of non-empty intervals from [lo] to [hi]. *)
Fixpoint chain (lo hi : Z) (l : list (Z * Z)) : Prop :=
  match l with
  | [] => lo = hi
  | (a, b) :: l' => a = lo /\ a < b /\ chain b hi l'
  end.

(** The batches [bs] cut the tiles into consecutive groups [gs] of whole tiles; no batch is longer
    than [limit] unless it is one tile, and none could have taken the next tile as well. *)
Fixpoint cut (limit : Z) (bs : list (Z * Z)) (gs : list (list (Z * Z))) : Prop :=
  match bs, gs with
  | [], [] => True
  | b :: bs', g :: gs' =>
      g <> [] /\ chain (fst b) (snd b) g /\ (snd b - fst b <= limit \/ length g = 1%nat) /\
      match gs' with (t :: _) :: _ => limit < (snd b - fst b) + (snd t - fst t) | _ => True end /\
      cut limit bs' gs'
  | _, _ => False
  end.

(** The right child of an adjoint node is a leaf (binarize puts a sentinel constant there). *)
Fixpoint adjoint_ok {D} (op_type : D -> eop) (n : tree D) : Prop :=
  match n with
  | Leaf _ => True
  | Node d l r => adjoint_ok op_type l /\ adjoint_ok op_type r /\ (op_type d = OpAdjoint -> is_leaf r = true)
  end.

(** ** How often an intermediate is used: once per root equal to it, and once per child position of
    a different intermediate (equal intermediates are computed once, so they use it once). *)
Definition one (b : bool) : Z := if b then 1 else 0.
Definition child_uses {D} (same : tree D -> tree D -> bool) (k p : tree D) : Z :=
  match p with Leaf _ => 0 | Node _ l r => one (same l k) + one (same r k) end.
Definition total {A} (f : A -> Z) (l : list A) : Z := fold_right Z.add 0 (map f l).
Definition use_count {D} (same : tree D -> tree D -> bool) (nodes distinct : list (tree D)) (k : tree D) : Z :=
  total (fun n => one (same n k)) nodes + total (child_uses same k) distinct.
