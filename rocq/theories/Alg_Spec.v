(** Specification vocabulary for sorting, permutations and loop counting. *)
From Coq Require Import ZArith List Arith Bool Permutation Sorted Relations.
Import ListNotations.

(** ** Orders *)

(** A strict weak order: irreflexive, transitive, and incomparability is transitive. *)
Definition strict_weak {A} (lt : A -> A -> bool) : Prop :=
  (forall x, lt x x = false) /\
  (forall x y z, lt x y = true -> lt y z = true -> lt x z = true) /\
  (forall x y z, lt x y = false -> lt y z = false -> lt x z = false).

(** [x] and [y] are equivalent (neither is less). *)
Definition equiv {A} (lt : A -> A -> bool) (x y : A) : bool := negb (lt x y) && negb (lt y x).

(** [l] contains no element followed (anywhere later) by a smaller one. *)
Definition in_sorted_order {A} (lt : A -> A -> bool) (l : list A) : Prop :=
  StronglySorted (fun x y => lt y x = false) l.

(** The number of pairs of positions that are out of order. Its parity is the parity of the
    permutation that (stably) sorts the list. *)
Fixpoint inversions {A} (lt : A -> A -> bool) (l : list A) : nat :=
  match l with
  | [] => 0
  | x :: l' => length (filter (fun y => lt y x) l') + inversions lt l'
  end.

(** Equivalent elements keep their relative order. *)
Definition same_order_of_equals {A} (lt : A -> A -> bool) (l l' : list A) : Prop :=
  forall x, filter (equiv lt x) l = filter (equiv lt x) l'.

(** On pairs: lexicographic. *)
Definition lex_pair {A} (lt : A -> A -> bool) (a b : A * A) : bool :=
  lt (fst a) (fst b) || (equiv lt (fst a) (fst b) && lt (snd a) (snd b)).

(** ** Lexicographic order of lists *)
Fixpoint lex {A} (lt : A -> A -> bool) (l m : list A) : Prop :=
  match l, m with
  | _, [] => False
  | [], _ :: _ => True
  | x :: l', y :: m' => lt x y = true \/ (x = y /\ lex lt l' m')
  end.

(** [lt] orders the members of [l] totally. *)
Definition total_on {A} (lt : A -> A -> bool) (l : list A) : Prop :=
  (forall x, lt x x = false) /\
  (forall x y z, lt x y = true -> lt y z = true -> lt x z = true) /\
  (forall x y, In x l -> In y l -> x = y \/ lt x y = true \/ lt y x = true).

(** [exchanges k l m]: [m] is obtained from [l] by [k] exchanges of the contents of two different
    positions. *)
Inductive exchanges {A} : nat -> list A -> list A -> Prop :=
| ex_none l : exchanges 0 l l
| ex_swap k a x b y c m : exchanges k (a ++ y :: b ++ x :: c) m -> exchanges (S k) (a ++ x :: b ++ y :: c) m.

(** [m] is the lexicographic successor of [l] among its rearrangements. *)
Definition lex_successor {A} (lt : A -> A -> bool) (l m : list A) : Prop :=
  Permutation l m /\ lex lt l m /\
  forall q, Permutation l q -> lex lt l q -> m = q \/ lex lt m q.

(** ** Counting classes

    [n_classes E X n]: the equivalence relation generated by the edges [E] on the finite set [X]
    has exactly [n] classes; witnessed by one representative per class. *)
Definition linked (E : nat -> nat -> Prop) (X : list nat) : nat -> nat -> Prop :=
  clos_refl_sym_trans nat (fun x y => In x X /\ In y X /\ E x y).

Definition n_classes (E : nat -> nat -> Prop) (X : list nat) (n : nat) : Prop :=
  exists reps, length reps = n /\ NoDup reps /\ incl reps X /\
    (forall x, In x X -> exists r, In r reps /\ linked E X x r) /\
    (forall r s, In r reps -> In s reps -> linked E X r s -> r = s).

(** The graph of index slots of two rows: slot [i] is [v0[i]], slot [length v0 + i] is [v1[i]]. *)
Definition slot_edge (v0 v1 : list nat) (s t : nat) : Prop :=
  t = length v0 + s (* the two rows of a column *)
  \/ nth_error (v0 ++ v1) s = nth_error (v0 ++ v1) t (* the same value *).

(** Two columns sharing a value. *)
Definition share_value (v0 v1 : list nat) (i j : nat) : Prop :=
  exists v, (nth_error v0 i = Some v \/ nth_error v1 i = Some v) /\
            (nth_error v0 j = Some v \/ nth_error v1 j = Some v).

(** The permutation that sends [v0[i]] to [v1[i]], as a relation on columns: the image of column
    [i] is the column [j] with [v0[j] = v1[i]]. Its classes are the cycles of the permutation. *)
Definition maps_to (v0 v1 : list nat) (i j : nat) : Prop :=
  exists v, nth_error v1 i = Some v /\ nth_error v0 j = Some v.

(** The sign of a permutation of 0..n-1 given as a list. *)
Definition sign (p : list Z) : Z := if Nat.even (inversions Z.ltb p) then 1%Z else (-1)%Z.
