(** * Specification for antisymmetrization and loop counting

    Nothing here refers to the enumeration of permutations or to the loops of the model. *)
From Coq Require Import List Arith Lia Bool ZArith Permutation Sorted Ring_theory.
From Verif Require Import Wick_Spec Alg_Spec Ant_Model.
Import ListNotations.

(** [q] split into consecutive groups of the given sizes. *)
Fixpoint split_by {A} (ranks : list nat) (q : list A) : list (list A) :=
  match ranks with
  | [] => []
  | r :: rs => firstn r q :: split_by rs (skipn r q)
  end.

(** An arrangement of the positions [0 .. n-1] that is increasing inside every group. *)
Definition distinct_arrangement (ranks : list nat) (n : nat) (q : list nat) : Prop :=
  Permutation (seq 0 n) q /\ Forall (StronglySorted lt) (split_by ranks q).

(** Sign of an arrangement: -1 to the number of pairs out of order. *)
Definition parity_sign (q : list nat) : Z := if Nat.even (inversions Nat.ltb q) then 1%Z else (-1)%Z.

(** [l'] is [l] with the neighbours at positions [a] and [a+1] exchanged. *)
Definition exchanged {A} (a : nat) (l l' : list A) : Prop :=
  exists u x y v, length u = a /\ l = u ++ x :: y :: v /\ l' = u ++ y :: x :: v.

(** ** Products *)
Section Products.
  Context {I C : Type}.
  Notation factor := (factor I C).
  Notation product := (product I C).

  Definition has_indices (f : factor) : bool := match f with FConst _ => false | _ => true end.
  Definition is_op (f : factor) : bool := match f with FOp _ _ => true | _ => false end.
  Definition lower (fs : list factor) : list I :=
    concat (map (fun f => match f with FTensor _ b _ => b | FConst _ => [] | FOp _ a => a end) fs).
  Definition upper (fs : list factor) : list I :=
    concat (map (fun f => match f with FTensor _ _ k => k | FConst _ => [] | FOp c _ => c end) fs).

  (** As many lower as upper indices in every factor. *)
  Definition balanced (fs : list factor) : Prop :=
    Forall (fun f => match f with FTensor _ b k => length b = length k | FConst _ => True
                             | FOp c a => length c = length a end) fs.

  (** Numbers of lower indices of the factors that have indices. *)
  Definition ranks (fs : list factor) : list nat :=
    map (fun f => match f with FTensor _ b _ => length b | FConst _ => 0 | FOp _ a => length a end)
        (filter has_indices fs).

  (** The factors with indices, given the new lower and upper indices one after the other. *)
  Fixpoint refill (fs : list factor) (bs ks : list I) : list factor :=
    match fs with
    | [] => []
    | FConst _ :: fs' => refill fs' bs ks
    | FTensor lab b _ :: fs' =>
        FTensor lab (firstn (length b) bs) (firstn (length b) ks)
        :: refill fs' (skipn (length b) bs) (skipn (length b) ks)
    | FOp _ a :: fs' =>
        FOp (firstn (length a) ks) (firstn (length a) bs)
        :: refill fs' (skipn (length a) bs) (skipn (length a) ks)
    end.

  (** The same factors; operators, which do not commute, in the same order. *)
  Definition same_factors (fs gs : list factor) : Prop :=
    Permutation fs gs /\ filter is_op fs = filter is_op gs.

  (** The same factors up to the names of their indices. *)
  Definition same_shape (fs gs : list factor) : Prop :=
    Forall2 (fun f g => match f, g with
                        | FTensor l b k, FTensor l' b' k' => l = l' /\ length b = length b' /\ length k = length k'
                        | FConst c, FConst c' => c = c'
                        | FOp c a, FOp c' a' => length c = length c' /\ length a = length a'
                        | _, _ => False
                        end) fs gs.

  (** Values: factors are elements of a ring, constants act as elements of the ring. *)
  Context {R : ring} (vf : factor -> car R) (vc : C -> car R).
  Definition product_value (p : product) : car R :=
    rmul R (vc (p_scalar p)) (fold_right (rmul R) (r1 R) (map vf (p_factors p))).
  Definition sum_value (ts : list product) : car R :=
    fold_right (radd R) (r0 R) (map product_value ts).

  (** Every tensor of the product and every operator changes sign when two of its lower or two of
      its upper indices are exchanged. *)
  Definition antisymmetric_factors (fs : list factor) : Prop :=
    (forall lab b0 k0 u x y v w, In (FTensor lab b0 k0) fs ->
       vf (FTensor lab (u ++ y :: x :: v) w) = ropp R (vf (FTensor lab (u ++ x :: y :: v) w)) /\
       vf (FTensor lab w (u ++ y :: x :: v)) = ropp R (vf (FTensor lab w (u ++ x :: y :: v)))) /\
    (forall u x y v w,
       vf (FOp (u ++ y :: x :: v) w) = ropp R (vf (FOp (u ++ x :: y :: v) w)) /\
       vf (FOp w (u ++ y :: x :: v)) = ropp R (vf (FOp w (u ++ x :: y :: v)))).
End Products.

(** ** Loops *)

(** Pair [i] of the new pairing is followed by pair [j]: the lower index of [i] was originally
    paired with the upper index of [j]. *)
Definition follows (iu il nu nl : list nat) (i j : nat) : Prop :=
  exists p u l, nth_error iu p = Some u /\ nth_error il p = Some l /\
                nth_error nl i = Some l /\ nth_error nu j = Some u.

Fixpoint path (R : nat -> nat -> Prop) (x : nat) (l : list nat) : Prop :=
  match l with
  | [] => True
  | y :: l' => R x y /\ path R y l'
  end.

(** A closed loop: distinct pairs, each followed by the next, the last by the first. *)
Definition closed_loop (R : nat -> nat -> Prop) (c : list nat) : Prop :=
  match c with
  | [] => False
  | x :: l => NoDup c /\ path R x l /\ R (last l x) x
  end.

(** [k] is the number of closed loops: there are [k] of them without common pairs, and every pair
    on a closed loop is on one of them. *)
Definition number_of_loops (R : nat -> nat -> Prop) (k : nat) : Prop :=
  exists cs, length cs = k /\ Forall (closed_loop R) cs /\ NoDup (concat cs) /\
             forall c i, closed_loop R c -> In i c -> In i (concat cs).

(** A set of index pairs is contracted with respect to an original pairing. *)
Definition pairing (iu il nu nl : list nat) : Prop :=
  length iu = length il /\ NoDup iu /\ NoDup il /\
  length nu = length nl /\ NoDup nu /\ NoDup nl /\ incl nu iu /\ incl nl il.
