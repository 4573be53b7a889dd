(** Model of the functions that determine which indices an expression has
    (SeQuant/core/utility/indices.hpp) and of is_valid (SeQuant/core/utility/expr.cpp:298-412).

    An index is a number; 0 is Index::null, an empty slot. Two Index objects are the same index if
    they are equal; the order used by std::set and container::map is assumed to be consistent with
    that (tags are not modelled). [proto] gives the protoindices of an index.
    Expressions: constants, variables and powers are [Scal]; NormalOperator is [NOp]. *)
From Coq Require Import List Arith Bool.
Import ListNotations.

Definition idx := nat.
Definition null : idx := 0.

(** What the label of a tensor matters for here: reserved::symm_label, reserved::antisymm_label. *)
Inductive kind := Ordinary (label : nat) | Symm | Antisymm.
Record tensor := mkt { tkind : kind; tbra : list idx; tket : list idx; taux : list idx }.

Inductive ex :=
| Scal
| Tens (t : tensor)
| NOp (creators annihilators : list idx)
| Sum (l : list ex)
| Prod (l : list ex).

(** A result, an exception, or a failed SEQUANT_ASSERT / undefined behaviour. *)
Inductive res (X : Type) := Ret (x : X) | Threw | Undefined.
Arguments Ret {X}. Arguments Threw {X}. Arguments Undefined {X}.
Definition bind {X Y} (m : res X) (f : X -> res Y) : res Y :=
  match m with Ret x => f x | Threw => Threw | Undefined => Undefined end.

Definition mem (x : idx) (l : list idx) : bool := existsb (Nat.eqb x) l.

(** detail::remove_one (indices.hpp:51-66) *)
Fixpoint remove_one (x : idx) (l : list idx) : list idx :=
  match l with
  | [] => []
  | y :: l' => if Nat.eqb x y then l' else y :: remove_one x l'
  end.

(** IndexGroups (70-83) *)
Record groups := mkg { gbra : list idx; gket : list idx; gaux : list idx }.
Definition no_groups : groups := mkg [] [] [].

(** ** get_uncontracted_indices (109-141) *)
Definition not_in (l : list idx) (x : idx) : bool := negb (mem x l).
Definition get_uncontracted_indices (t1 t2 : tensor) : groups :=
  mkg (filter (not_in (tket t2)) (tbra t1) ++ filter (not_in (tket t1)) (tbra t2))
      (filter (not_in (tbra t2)) (tket t1) ++ filter (not_in (tbra t1)) (tket t2))
      (filter (not_in (taux t2)) (taux t1) ++ filter (not_in (taux t1)) (taux t2)).

(** ** get_unique_indices *)
Definition acc := (groups * list idx)%type.

(** the three loops for a tensor (149-180) *)
Definition tensor_bra (a : acc) (x : idx) : acc :=
  let (g, seen) := a in
  if mem x seen then (mkg (remove_one x (gbra g)) (gket g) (gaux g), seen)
  else (mkg (gbra g ++ [x]) (gket g) (gaux g), x :: seen).
Definition tensor_ket (a : acc) (x : idx) : acc :=
  let (g, seen) := a in
  if mem x seen then (mkg (remove_one x (gbra g)) (remove_one x (gket g)) (gaux g), seen)
  else (mkg (gbra g) (gket g ++ [x]) (gaux g), x :: seen).
Definition tensor_aux (a : acc) (x : idx) : acc :=
  let (g, seen) := a in
  if mem x seen then (mkg (remove_one x (gbra g)) (remove_one x (gket g)) (remove_one x (gaux g)), seen)
  else (mkg (gbra g) (gket g) (gaux g ++ [x]), x :: seen).
Definition tensor_unique (t : tensor) : groups :=
  fst (fold_left tensor_aux (taux t) (fold_left tensor_ket (tket t) (fold_left tensor_bra (tbra t) (no_groups, [])))).

(** the three loops for the indices of a factor of a product (207-240) *)
Definition drop (x : idx) (g : groups) : groups :=
  mkg (remove_one x (gbra g)) (remove_one x (gket g)) (remove_one x (gaux g)).
Definition factor_bra (a : acc) (x : idx) : acc :=
  let (g, seen) := a in
  if mem x seen then (drop x g, seen) else (mkg (gbra g ++ [x]) (gket g) (gaux g), x :: seen).
Definition factor_ket (a : acc) (x : idx) : acc :=
  let (g, seen) := a in
  if mem x seen then (drop x g, seen) else (mkg (gbra g) (gket g ++ [x]) (gaux g), x :: seen).
Definition factor_aux (a : acc) (x : idx) : acc :=
  let (g, seen) := a in
  if mem x seen then (drop x g, seen) else (mkg (gbra g) (gket g) (gaux g ++ [x]), x :: seen).
Definition factor (a : acc) (g : groups) : acc :=
  fold_left factor_aux (gaux g) (fold_left factor_ket (gket g) (fold_left factor_bra (gbra g) a)).

(** 94-108 (scalars), 188-194 (Sum: the first summand), 197-243 (Product), 248-264 (dispatch; any
    other type is an exception) *)
Fixpoint get_unique_indices (e : ex) : res groups :=
  match e with
  | Scal => Ret no_groups
  | Tens t => Ret (tensor_unique t)
  | NOp _ _ => Threw
  | Sum [] => Ret no_groups
  | Sum (x :: _) => get_unique_indices x
  | Prod l =>
      bind ((fix go l a {struct l} := match l with
             | [] => Ret a
             | x :: l' => bind (get_unique_indices x) (fun g => go l' (factor a g))
             end) l (no_groups, [])) (fun a => Ret (fst a))
  end.

(** ** get_used_indices_with_counts (272-352) *)
Record counters := mkc { cbra : nat; cket : nat; caux : nat; cproto : nat }.
Inductive slot := Bra | Ket | Aux | Proto.
Definition increment (s : slot) (c : counters) : counters :=
  match s with
  | Bra => mkc (S (cbra c)) (cket c) (caux c) (cproto c)
  | Ket => mkc (cbra c) (S (cket c)) (caux c) (cproto c)
  | Aux => mkc (cbra c) (cket c) (S (caux c)) (cproto c)
  | Proto => mkc (cbra c) (cket c) (caux c) (S (cproto c))
  end.
Definition total (c : counters) : nat := cbra c + cket c + caux c + cproto c.

(** the map, as a list of entries with distinct indices; the order is not modelled *)
Definition counts := list (idx * counters).
Fixpoint count_one (x : idx) (s : slot) (m : counts) : counts :=
  match m with
  | [] => [(x, increment s (mkc 0 0 0 0))]
  | (y, c) :: m' => if Nat.eqb x y then (y, increment s c) :: m' else (y, c) :: count_one x s m'
  end.
Definition count_slot (proto : idx -> list idx) (s : slot) (m : counts) (x : idx) : counts :=
  if Nat.eqb x null then m
  else fold_left (fun m i => count_one i Proto m) (proto x) (count_one x s m).
Definition count_tensor (proto : idx -> list idx) (b k a : list idx) (m : counts) : counts :=
  fold_left (count_slot proto Aux) a (fold_left (count_slot proto Ket) k (fold_left (count_slot proto Bra) b m)).
(** visit of the atoms *)
Fixpoint count_all (proto : idx -> list idx) (e : ex) (m : counts) : counts :=
  match e with
  | Scal => m
  | Tens t => count_tensor proto (tbra t) (tket t) (taux t) m
  | NOp c a => count_tensor proto c a [] m
  | Sum l => (fix go l m := match l with [] => m | x :: l' => go l' (count_all proto x m) end) l m
  | Prod l => (fix go l m := match l with [] => m | x :: l' => go l' (count_all proto x m) end) l m
  end.
Definition get_used_indices_with_counts (proto : idx -> list idx) (e : ex) : counts := count_all proto e [].
Definition get_used_indices (proto : idx -> list idx) (e : ex) : list idx :=
  map fst (get_used_indices_with_counts proto e).

(** ** tot_indices (376-415), for a sequence container *)
Definition add_new (l : list idx) (x : idx) : list idx := if mem x l then l else l ++ [x].
Definition has_proto (proto : idx -> list idx) (x : idx) : bool := match proto x with [] => false | _ => true end.
Definition tot_indices (proto : idx -> list idx) (l : list idx) : list idx * list idx :=
  (fold_left add_new (filter (fun x => negb (has_proto proto x)) l)
     (fold_left add_new (flat_map proto l) []),
   filter (has_proto proto) l).

(** ** external_indices (459-560) *)
Definition sidx := (idx * slot)%type.
Fixpoint zip_groups (b k : list idx) : list (list sidx) :=
  match b with
  | [] => map (fun y => [(y, Ket)]) k
  | x :: b' =>
      match k with
      | [] => [(x, Bra)] :: zip_groups b' []
      | y :: k' => [(x, Bra); (y, Ket)] :: zip_groups b' k'
      end
  end.
Definition paired (g : groups) : list (list sidx) :=
  zip_groups (gbra g) (gket g) ++ map (fun x => [(x, Aux)]) (gaux g).

(** the exchange of bra and ket for symmetrizers (498-518) *)
Definition flip (s : slot) : slot := match s with Bra => Ket | _ => Bra end.
Definition conjugate_group (symm : bool) (g : list sidx) : res (list sidx) :=
  match g with
  | [(x, s); (y, s')] => Ret [(y, s); (x, s')]
  | [(x, s)] => if symm then Threw else Ret [(x, flip s)]
  | _ => if symm then Threw else Undefined
  end.
Fixpoint conjugate_groups (symm : bool) (l : list (list sidx)) : res (list (list sidx)) :=
  match l with
  | [] => Ret []
  | g :: l' => bind (conjugate_group symm g) (fun g' => bind (conjugate_groups symm l') (fun r => Ret (g' :: r)))
  end.
Definition tensor_external (t : tensor) : res (list (list sidx)) :=
  let z := zip_groups (tbra t) (tket t) in
  let x := map (fun x => [(x, Aux)]) (taux t) in
  match tkind t with
  | Ordinary _ => Ret (z ++ x)
  | Symm => bind (conjugate_groups true z) (fun z' => Ret (z' ++ x))
  | Antisymm => bind (conjugate_groups false z) (fun z' => Ret (z' ++ x))
  end.

(** the tensors that are atoms of the expression, in the order of the visit *)
Fixpoint tensors (e : ex) : list tensor :=
  match e with
  | Scal | NOp _ _ => []
  | Tens t => [t]
  | Sum l | Prod l => (fix go l := match l with [] => [] | x :: l' => tensors x ++ go l' end) l
  end.
Definition is_symmetrizer (t : tensor) : bool := match tkind t with Ordinary _ => false | _ => true end.
Definition kind_eqb (a b : kind) : bool :=
  match a, b with
  | Ordinary x, Ordinary y => Nat.eqb x y
  | Symm, Symm | Antisymm, Antisymm => true
  | _, _ => false
  end.
Definition list_eqb (a b : list idx) : bool := if list_eq_dec Nat.eq_dec a b then true else false.
Definition tensor_eqb (a b : tensor) : bool :=
  kind_eqb (tkind a) (tkind b) && list_eqb (tbra a) (tbra b) && list_eqb (tket a) (tket b) && list_eqb (taux a) (taux b).
(** 523-536: all symmetrizers must be the same one *)
Fixpoint the_symmetrizer (l : list tensor) (s : option tensor) : res (option tensor) :=
  match l with
  | [] => Ret s
  | t :: l' =>
      match s with
      | Some t0 => if tensor_eqb t0 t then the_symmetrizer l' (Some t) else Undefined
      | None => the_symmetrizer l' (Some t)
      end
  end.

Definition external_indices (e : ex) : res (list (list sidx)) :=
  match e with
  | Scal | NOp _ _ => Ret []
  | Tens t => tensor_external t
  | Sum _ | Prod _ =>
      bind (the_symmetrizer (filter is_symmetrizer (tensors e)) None) (fun s =>
      match s with
      | Some t => tensor_external t
      | None => bind (get_unique_indices e) (fun g => Ret (paired g))
      end)
  end.

(** get_bra_idx, get_ket_idx for containers (598-660) *)
Definition is_bra (s : sidx) : bool := match snd s with Bra => true | _ => false end.
Definition is_ket (s : sidx) : bool := match snd s with Ket => true | _ => false end.
Definition get_bra_idx (g : list sidx) : res idx :=
  match find is_bra g with Some s => Ret (fst s) | None => Undefined end.
Definition get_ket_idx (g : list sidx) : res idx :=
  match find is_ket (rev g) with Some s => Ret (fst s) | None => Undefined end.

(** ** left_to_right_binarization_indices (904-947)

    A set of indices is a list without repetition. counts[k] maps every index to the number of the
    first k+1 sets that contain it. On an empty range counts.back() is undefined. *)
Definition occurrences (x : idx) (l : list (list idx)) : nat := length (filter (mem x) l).
Definition union_of (l : list (list idx)) : list idx := nodup Nat.eq_dec (concat l).
Definition ltr (rng : list (list idx)) (uncontract : list idx) : res (list (list idx) * list (list idx)) :=
  match rng with
  | [] => Undefined
  | _ =>
      Ret (map (fun s => filter (fun x => (1 <? occurrences x rng) || mem x uncontract) s) rng,
           map (fun k => filter (fun x => (occurrences x (firstn k rng) <? occurrences x rng) || mem x uncontract)
                           (union_of (firstn k rng)))
             (seq 1 (length rng)))
  end.

(** ** is_valid (expr.cpp:298-376), with constants whose denominators are not zero

    is_permutation for lists of indices: the same length and the same counts. *)
Definition perm_eqb (a b : list idx) : bool :=
  Nat.eqb (length a) (length b) && forallb (fun x => Nat.eqb (count_occ Nat.eq_dec a x) (count_occ Nat.eq_dec b x)) a.
Definition groups_perm (a b : groups) : bool :=
  perm_eqb (gbra a) (gbra b) && perm_eqb (gket a) (gket b) && perm_eqb (gaux a) (gaux b).
Definition all_of_groups (g : groups) : list idx := gbra g ++ gket g ++ gaux g.
Fixpoint unique_all (l : list ex) : res (list groups) :=
  match l with
  | [] => Ret []
  | x :: l' => bind (get_unique_indices x) (fun g => bind (unique_all l') (fun r => Ret (g :: r)))
  end.
Fixpoint is_valid (e : ex) : res bool :=
  match e with
  | Scal | Tens _ => Ret true
  | NOp _ _ => Undefined
  | Sum l =>
      bind ((fix go l := match l with
             | [] => Ret true
             | x :: l' => bind (is_valid x) (fun b => if b then go l' else Ret false)
             end) l) (fun b =>
      if negb b then Ret false
      else
        match l with
        | [] => Undefined  (** summand(0) of an empty sum *)
        | x :: _ => bind (get_unique_indices x) (fun r => bind (unique_all l) (fun gs => Ret (forallb (groups_perm r) gs)))
        end)
  | Prod l =>
      bind ((fix go l := match l with
             | [] => Ret true
             | x :: l' => bind (is_valid x) (fun b => if b then go l' else Ret false)
             end) l) (fun b =>
      if negb b then Ret false
      else
        bind (unique_all l) (fun gs =>
          let all := flat_map all_of_groups gs in
          Ret (forallb (fun x => count_occ Nat.eq_dec all x <=? 2) all)))
  end.
