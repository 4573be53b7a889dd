(** Specification of rules that factorize tensors: the value of an expression with summation over
    repeated indices.

    An expression is expanded to a sum of products of leaves. A product of leaves is summed over all
    indices that are not external. The scalars are a commutative ring. *)
From Coq Require Import List Arith Bool.
From Verif Require Import Idx_Model Bin_Spec Expr_Model Df_Model.
Import ListNotations.

Section Expanded.
  Variable k : kops.
  Variable At : Type.

  (** The terms of an expression: coefficients and lists of leaves. *)
  Definition term := (K k * list At)%type.
  Definition cross (l m : list term) : list term :=
    flat_map (fun t => map (fun u => (kmul k (fst t) (fst u), snd t ++ snd u)) m) l.
  Fixpoint expanded (e : expr (K k) At) : list term :=
    match e with
    | EConst z => [(z, [])]
    | EAtom x => [(k1 k, [x])]
    | EProd _ s fs => cross [(s, [])] (fold_right (fun f acc => cross (expanded f) acc) [(k1 k, [])] fs)
    | ESum _ ss => flat_map expanded ss
    | EErr => []
    end.

  (** The leaves of an expression. *)
  Fixpoint leaves (e : expr (K k) At) : list At :=
    match e with
    | EAtom x => [x]
    | EProd _ _ l | ESum _ l => flat_map leaves l
    | _ => []
    end.
End Expanded.

Section Values.
  Variable k : kops.
  Variable protos : idx -> list idx.
  (** The values of an index. *)
  Variable dom : idx -> list nat.
  (** The values of tensors and of other leaves. A slot has the value of its index together with those
      of its protoindices. *)
  Variable tv : nat -> symm -> list (list nat) -> list (list nat) -> list (list nat) -> K k.
  Variable ov : nat -> list (list nat) -> K k.
  Notation E := (expr (K k) atom).

  Definition slot_value (r : env) (x : idx) : list nat := r x :: map r (protos x).
  Definition leaf_value (x : atom) (r : env) : K k :=
    match x with
    | Ten l s b q a => tv l s (map (slot_value r) b) (map (slot_value r) q) (map (slot_value r) a)
    | Other n ix => ov n (map (slot_value r) ix)
    end.
  (** All indices of a leaf, with the protoindices. *)
  Definition slots (x : atom) : list idx := match x with Ten _ _ b q a => b ++ q ++ a | Other _ ix => ix end.
  Definition indices (x : atom) : list idx := flat_map (fun i => i :: protos i) (slots x).

  Definition dummies (ext : list idx) (t : list atom) : list idx :=
    filter (fun x => negb (mem x ext)) (nodup Nat.eq_dec (flat_map indices t)).
  Definition term_value (ext : list idx) (t : list atom) (r : env) : K k :=
    sum_over (K k) (k0 k) (kadd k) dom (dummies ext t)
      (fun r => kprod (K k) (k1 k) (kmul k) (map (fun x => leaf_value x r) t)) r.
  (** The value of an expression for given values of the external indices. *)
  Definition meaning (ext : list idx) (e : E) (r : env) : K k :=
    ksum (K k) (k0 k) (kadd k) (map (fun t => kmul k (fst t) (term_value ext (snd t) r)) (expanded k atom e)).

  Definition uses (x : idx) (e : E) : Prop := exists y, In y (leaves k atom e) /\ In x (indices y).

  Definition total (D : list nat) (f : nat -> K k) : K k := ksum (K k) (k0 k) (kadd k) (map f D).

  (** The tensors [g] with four indices are sums of products of two tensors [b]; [D] are the values of
      the auxiliary index. *)
  Definition fitted (g b : nat) (D : list nat) : Prop := forall s p1 p2 q1 q2,
    tv g s [p1; p2] [q1; q2] [] =
    total D (fun x =>
      let direct := kmul k (tv b Nonsymm [p1] [q1] [[x]]) (tv b Nonsymm [p2] [q2] [[x]]) in
      let exchange := kmul k (tv b Nonsymm [p2] [q1] [[x]]) (tv b Nonsymm [p1] [q2] [[x]]) in
      match s with Antisymm => kadd k direct (kopp k exchange) | _ => direct end).

  (** ... sums of products of four tensors [b] and one tensor [z]. *)
  Definition hypercontracted (g b z : nat) (D : list nat) : Prop := forall s p1 p2 q1 q2,
    tv g s [p1; p2] [q1; q2] [] =
    total D (fun x => total D (fun y =>
      let f p q p' q' := kmul k (tv b Nonsymm [p] [] [[x]]) (kmul k (tv b Nonsymm [] [q] [[x]])
        (kmul k (tv z Nonsymm [] [] [[x]; [y]]) (kmul k (tv b Nonsymm [p'] [] [[y]]) (tv b Nonsymm [] [q'] [[y]])))) in
      match s with
      | Antisymm => kadd k (f p1 q1 p2 q2) (kopp k (f p2 q1 p1 q2))
      | _ => f p1 q1 p2 q2
      end)).

  (** A slot with protoindices of a tensor with one of the labels is a combination of slots of a basis:
      the coefficients are the tensors [c], and [D] are the values of an index of the basis. *)
  Definition expands (labels : list nat) (c : nat) (D : list nat) : Prop := forall l s, In l labels ->
    (forall b1 v vs b2 q x, vs <> [] ->
      tv l s (b1 ++ (v :: vs) :: b2) q x =
      total D (fun y => kmul k (tv c Nonsymm [v :: vs] [[y]] []) (tv l s (b1 ++ [y] :: b2) q x))) /\
    (forall b v vs q1 q2 x, vs <> [] ->
      tv l s b (q1 ++ (v :: vs) :: q2) x =
      total D (fun y => kmul k (tv c Nonsymm [[y]] [v :: vs] []) (tv l s b (q1 ++ [y] :: q2) x))).
  (** The overlaps of an orthonormal basis. *)
  Definition overlaps (o c : nat) (D : list nat) : Prop := forall s v vs w ws,
    (vs <> [] -> ws <> [] -> tv o s [v :: vs] [w :: ws] [] =
      total D (fun y => kmul k (tv c Nonsymm [v :: vs] [[y]] []) (tv c Nonsymm [[y]] [w :: ws] []))) /\
    (vs <> [] -> tv o s [v :: vs] [[w]] [] = tv c Nonsymm [v :: vs] [[w]] []) /\
    (ws <> [] -> tv o s [[v]] [w :: ws] [] = tv c Nonsymm [[v]] [w :: ws] []).
  (** Tensors for which the expansion is defined: no auxiliary slot has protoindices, and if
      [orthonormal] then overlaps have one bra and one ket slot, not both with protoindices. *)
  Definition expandable (orthonormal : bool) (o : nat) (labels : list nat) (x : atom) : Prop :=
    match x with
    | Ten l s bra ket ax => In l labels ->
        (forall i, In i ax -> protos i = []) /\
        (orthonormal = true -> l = o -> exists p q, bra = [p] /\ ket = [q] /\ ax = [] /\ (protos p = [] \/ protos q = []))
    | Other _ _ => True
    end.
End Values.

(** New indices: distinct, with the values [D] and without protoindices. *)
Definition fresh_indices (protos : idx -> list idx) (dom : idx -> list nat) (D : list nat) (aux : nat -> idx) : Prop :=
  (forall m n, aux m = aux n -> m = n) /\ (forall n, dom (aux n) = D) /\ (forall n, protos (aux n) = []).

(** Scalars: a commutative ring with a correct test for equality. *)
Definition scalars (k : kops) : Prop :=
  (exists ksub, Ring_theory.ring_theory (k0 k) (k1 k) (kadd k) (kmul k) ksub (kopp k) eq) /\
  (forall x y, keqb k x y = true <-> x = y).

(** Leaves, products of leaves and constants, and sums of such. *)
Definition simple {X Y} (e : expr X Y) : Prop := match e with EAtom _ | EConst _ => True | _ => False end.
Fixpoint sum_of_products {X Y} (e : expr X Y) : Prop :=
  match e with
  | EAtom _ | EConst _ => True
  | EProd _ _ fs => forall f, In f fs -> simple f
  | ESum _ ss => fold_right (fun x P => sum_of_products x /\ P) True ss
  | EErr => False
  end.

(** The tensors [g] with two bra slots, two ket slots and no auxiliary slot. *)
Definition to_fit (g : nat) (y : atom) : Prop :=
  match y with Ten l _ bra ket ax => l = g /\ length bra = 2 /\ length ket = 2 /\ ax = [] | _ => False end.

(** Tensors [g] that are factors of products have these ranks, and those that are not have no auxiliary
    slot if they have the other ranks. *)
Definition rank_four (g : nat) (y : atom) : Prop := match y with Ten l _ _ _ _ => l = g -> to_fit g y | _ => True end.
Definition no_aux (g : nat) (y : atom) : Prop := match y with Ten l _ bra ket ax => l = g -> length bra = 2 -> length ket = 2 -> ax = [] | _ => True end.
Fixpoint thc_ranks {X} (g : nat) (e : expr X atom) : Prop :=
  match e with
  | EAtom y => no_aux g y
  | EProd _ _ fs => forall y, In (EAtom y) fs -> rank_four g y
  | ESum _ ss => fold_right (fun x P => thc_ranks g x /\ P) True ss
  | _ => True
  end.
