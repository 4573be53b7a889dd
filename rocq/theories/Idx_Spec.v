(** Specification for the index functions: occurrences of indices in slots. *)
From Coq Require Import List Arith Bool.
From Verif Require Import Idx_Model.
Import ListNotations.

Definition slot_eqb (a b : slot) : bool :=
  match a, b with Bra, Bra | Ket, Ket | Aux, Aux | Proto, Proto => true | _, _ => false end.

(** The slots of a tensor in order, each with its index. *)
Definition tensor_occ (t : tensor) : list (slot * idx) :=
  map (pair Bra) (tbra t) ++ map (pair Ket) (tket t) ++ map (pair Aux) (taux t).
Definition groups_occ (g : groups) : list (slot * idx) :=
  map (pair Bra) (gbra g) ++ map (pair Ket) (gket g) ++ map (pair Aux) (gaux g).

(** All slots of the tensors of an expression; for a sum, those of the first summand. *)
Fixpoint occ (e : ex) : list (slot * idx) :=
  match e with
  | Scal | NOp _ _ => []
  | Tens t => tensor_occ t
  | Sum [] => []
  | Sum (x :: _) => occ x
  | Prod l => flat_map occ l
  end.
(** No normal operators (among the first summands). *)
Fixpoint no_operators (e : ex) : bool :=
  match e with
  | Scal | Tens _ => true
  | NOp _ _ => false
  | Sum [] => true
  | Sum (x :: _) => no_operators x
  | Prod l => forallb no_operators l
  end.

(** How often an index occurs. *)
Definition times (x : idx) (l : list (slot * idx)) : nat := length (filter (fun o => Nat.eqb (snd o) x) l).

(** The indices that occur exactly once, in a slot of type [s], in order. *)
Definition once (s : slot) (l : list (slot * idx)) : list idx :=
  map snd (filter (fun o => slot_eqb (fst o) s && Nat.eqb (times (snd o) l) 1) l).
Definition once_groups (l : list (slot * idx)) : groups := mkg (once Bra l) (once Ket l) (once Aux l).

(** All slots of all atoms of an expression (all summands, normal operators too). *)
Fixpoint all_occ (e : ex) : list (slot * idx) :=
  match e with
  | Scal => []
  | Tens t => tensor_occ t
  | NOp c a => map (pair Bra) c ++ map (pair Ket) a
  | Sum l | Prod l => flat_map all_occ l
  end.
(** How often an index occurs in slots of a given type; and as a protoindex of an index in a slot
    that is not empty. *)
Definition times_in (s : slot) (x : idx) (l : list (slot * idx)) : nat :=
  length (filter (fun o => slot_eqb (fst o) s && Nat.eqb (snd o) x) l).
Definition times_proto (proto : idx -> list idx) (x : idx) (l : list (slot * idx)) : nat :=
  length (filter (Nat.eqb x) (flat_map (fun o => if Nat.eqb (snd o) null then [] else proto (snd o)) l)).

(** Slots that are not empty. *)
Definition filled (l : list (slot * idx)) : list (slot * idx) := filter (fun o => negb (Nat.eqb (snd o) null)) l.

(** The indices of a tensor. *)
Definition tensor_indices (t : tensor) : list idx := tbra t ++ tket t ++ taux t.

(** Two tensors share indices only between a bra and a ket, or between two aux groups. *)
Definition contracted_properly (t1 t2 : tensor) : Prop :=
  (forall x, In x (tbra t1) -> In x (tensor_indices t2) -> In x (tket t2)) /\
  (forall x, In x (tket t1) -> In x (tensor_indices t2) -> In x (tbra t2)) /\
  (forall x, In x (taux t1) -> In x (tensor_indices t2) -> In x (taux t2)) /\
  (forall x, In x (tbra t2) -> In x (tensor_indices t1) -> In x (tket t1)) /\
  (forall x, In x (tket t2) -> In x (tensor_indices t1) -> In x (tbra t1)) /\
  (forall x, In x (taux t2) -> In x (tensor_indices t1) -> In x (taux t1)).
(** The indices of [l] that the tensor [t] does not have. *)
Definition absent_from (t : tensor) (l : list idx) : list idx := filter (fun x => negb (mem x (tensor_indices t))) l.

(** The indices of a given slot type in a list of groups. *)
Definition of_slot (s : slot) (l : list (list sidx)) : list idx :=
  map fst (filter (fun i => slot_eqb (snd i) s) (concat l)).

(** In how many factors an index occurs exactly once. *)
Definition factors_with (x : idx) (l : list ex) : nat :=
  length (filter (fun e => Nat.eqb (times x (occ e)) 1) l).
