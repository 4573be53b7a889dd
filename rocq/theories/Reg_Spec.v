(** Specification of index spaces: a space is a set of one-particle states. Nothing here refers to
    how the registry computes; only the data types of Reg_Model are used. *)
From Coq Require Import List NArith Bool Arith.
From Verif Require Import Reg_Model.
Import ListNotations.
Open Scope N_scope.

(** A one-particle state: a basis subspace (a bit of the type) and a quantum number (a bit of the
    quantum numbers, or none for spaces without quantum numbers). *)
Definition state := (N * option N)%type.

Definition in_space (x : state) (s : space) : Prop :=
  N.testbit (sty s) (fst x) = true /\
  match snd x with None => sqn s = 0 | Some k => N.testbit (sqn s) k = true end.

Definition registered (r : reg) (s : space) : Prop := In s (spaces r).

(** Two registered spaces with the same key, or with the same attributes, are the same. *)
Definition unambiguous (r : reg) : Prop :=
  forall a b, registered r a -> registered r b ->
    (skey a = skey b -> a = b) /\ (sty a = sty b -> sqn a = sqn b -> a = b).

(** What a user can do to a registry; an operation that throws leaves it as it was, except
    replace. *)
Inductive op := OAdd (s : space) | ORemove (s : space) | OReplace (s : space)
              | OUnion (k : key) (c : list space) | OIntersection (k : key) (c : list space).

Definition keep (r : reg) (m : res reg) : reg := match m with Ret r' => r' | _ => r end.

Definition step (r : reg) (o : op) : reg :=
  match o with
  | OAdd s => keep r (add r s)
  | ORemove s => remove r s
  | OReplace s => snd (replace r s)
  | OUnion k c => keep r (add_unIon r k c)
  | OIntersection k c => keep r (add_intersection r k c)
  end.

Definition history (l : list op) : reg := fold_left step l empty_reg.

(** ** The vacuum expectation value of two operators at two states *)

(** [occ]: the occupied basis subspaces. An annihilator followed (to the right) by a creator at
    the same unoccupied state gives 1, as does a creator followed by an annihilator at the same
    occupied state; everything else gives 0. *)
Definition state_eqb (x y : state) : bool :=
  (fst x =? fst y) &&
  match snd x, snd y with
  | None, None => true
  | Some a, Some b => a =? b
  | _, _ => false
  end.

Definition vev (occ : N) (left_creates right_creates : bool) (x y : state) : nat :=
  if state_eqb x y then
    match left_creates, right_creates with
    | false, true => if N.testbit occ (fst x) then 0 else 1
    | true, false => if N.testbit occ (fst x) then 1 else 0
    | _, _ => 0
    end
  else 0.

(** ** The value of a product of overlaps and deltas

    The basis is orthonormal, so that both are 1 for equal states and 0 otherwise. The new indices
    are summed over the states of their space. *)
Definition bits (n : N) : list N :=
  filter (N.testbit n) (map N.of_nat (seq 0 (N.to_nat (N.size n)))).
Definition states (s : space) : list state :=
  list_prod (bits (sty s)) (if sqn s =? 0 then [None] else map Some (bits (sqn s))).

Definition idx_val (x y l r : state) (i : idx) : state :=
  match i with ILeft => x | IRight => y | INewLeft _ => l | INewRight _ => r end.
Definition factor_val (x y l r : state) (f : factor) : nat :=
  match f with
  | Overlap a b | Kronecker a b => if state_eqb (idx_val x y l r a) (idx_val x y l r b) then 1 else 0
  end.

Definition factor_idx (f : factor) : list idx := match f with Overlap a b | Kronecker a b => [a; b] end.
(** the states summed over for the new index of the left (right) operator; one dummy if none *)
Definition left_range (fs : list factor) : list state :=
  match flat_map (fun i => match i with INewLeft s => [s] | _ => [] end) (flat_map factor_idx fs) with
  | [] => [(0, None)]
  | s :: _ => states s
  end.
Definition right_range (fs : list factor) : list state :=
  match flat_map (fun i => match i with INewRight s => [s] | _ => [] end) (flat_map factor_idx fs) with
  | [] => [(0, None)]
  | s :: _ => states s
  end.

Definition sum (l : list nat) : nat := fold_right Nat.add 0%nat l.
Definition prod (l : list nat) : nat := fold_right Nat.mul 1%nat l.

Definition value (fs : list factor) (x y : state) : nat :=
  sum (map (fun l => sum (map (fun r => prod (map (factor_val x y l r) fs)) (right_range fs))) (left_range fs)).
