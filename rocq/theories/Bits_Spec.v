(** Specification vocabulary for bit sets: a mask is the set of its set bits. *)
From Coq Require Import NArith List.
Local Open Scope N_scope.

(** [has m i]: position [i] belongs to the set denoted by the mask [m]. *)
Definition has (m : N) (i : nat) : Prop := N.testbit m (N.of_nat i) = true.

(** [subset_of a m]: every member of [a] is a member of [m]. *)
Definition subset_of (a m : N) : Prop := forall i, has a i -> has m i.

(** [splits m a b]: [a] and [b] are disjoint and together make up [m]. *)
Definition splits (m a b : N) : Prop :=
  forall i, (has m i <-> has a i \/ has b i) /\ ~ (has a i /\ has b i).

(** The two components swapped. *)
Definition flip {A B} (x : A * B) : B * A := (snd x, fst x).
