(** Model of namespace [sequant::bits] (SeQuant/core/algorithm.hpp).

    Masks are unsigned machine words of [w] bits, represented as [N]; arithmetic that can wrap
    around is taken modulo [2^w] explicitly. *)
From Coq Require Import NArith List Arith.
Import ListNotations.
Local Open Scope N_scope.

(** [std::popcount] (number of set bits). Used at algorithm.hpp:181,253. *)
Fixpoint pos_popcount (p : positive) : nat :=
  match p with
  | xH => 1%nat
  | xO q => pos_popcount q
  | xI q => S (pos_popcount q)
  end.

Definition popcount (n : N) : nat :=
  match n with N0 => 0%nat | Npos p => pos_popcount p end.

(** [std::countr_zero] for a non-zero word; on zero C++ returns the word width, which never
    happens in the code modelled here (the model returns 0). Used at algorithm.hpp:256,
    single_term_detail.hpp:393,433,459. *)
Fixpoint pos_ctz (p : positive) : nat :=
  match p with
  | xO q => S (pos_ctz q)
  | _ => 0%nat
  end.

Definition countr_zero (n : N) : nat :=
  match n with N0 => 0%nat | Npos p => pos_ctz p end.

(** Unsigned decrement [p - 1] on a [w]-bit word: wraps at zero. *)
Definition wdec (w p : N) : N :=
  if p =? 0 then 2 ^ w - 1 else p - 1.

(** The body of the stateful transform of [bipartitions_ordered], algorithm.hpp:183-187: emits
    [(p ^ mask, p)] and moves [p] to [(p - 1) & mask]; [k] is the number of elements of the
    underlying iota view that are still to be visited. The view is modelled by the list of the
    values it yields when traversed once from the beginning. *)
Fixpoint bip_iter (k : nat) (w mask p : N) : list (N * N) :=
  match k with
  | O => []
  | S k' => (N.lxor p mask, p) :: bip_iter k' w mask (N.land (wdec w p) mask)
  end.

(** [bits::bipartitions_ordered], algorithm.hpp:178-188. [size_t{1} << popcount(mask)] is
    undefined when all 64 bits are set: outcome [None]. *)
Definition bipartitions_ordered (w mask : N) : option (list (N * N)) :=
  if Nat.ltb (popcount mask) 64 then
    Some (bip_iter (Nat.pow 2 (popcount mask)) w mask mask)
  else None.

(** [bits::bipartitions_unordered], algorithm.hpp:201-205: the first half of the ordered list. *)
Definition bipartitions_unordered (w mask : N) : option (list (N * N)) :=
  match bipartitions_ordered w mask with
  | Some bps => Some (firstn (Nat.div (length bps) 2) bps)
  | None => None
  end.

(** [bits::bipartitions], algorithm.hpp:213-215. *)
Definition bipartitions (w mask : N) : option (list (N * N)) := bipartitions_unordered w mask.

(** [bits::subsets_ascending], algorithm.hpp:223-225. *)
Definition subsets_ascending (w mask : N) : option (list N) :=
  option_map (map fst) (bipartitions_ordered w mask).

(** [bits::subsets_descending], algorithm.hpp:233-235. *)
Definition subsets_descending (w mask : N) : option (list N) :=
  option_map (map snd) (bipartitions_ordered w mask).

(** [bits::subsets], algorithm.hpp:243-245. *)
Definition subsets (w mask : N) : option (list N) := subsets_ascending w mask.

(** Body of the stateful transform of [on_bits_index], algorithm.hpp:255-259. *)
Fixpoint on_bits_iter (k : nat) (w m : N) : list nat :=
  match k with
  | O => []
  | S k' => countr_zero m :: on_bits_iter k' w (N.land m (wdec w m))
  end.

(** [bits::on_bits_index], algorithm.hpp:252-260. *)
Definition on_bits_index (w mask : N) : list nat := on_bits_iter (popcount mask) w mask.

(** [bits::sieve], algorithm.hpp:270-275: selects elements by position. Dereferencing past the
    end is undefined: outcome [None]. *)
Definition sieve {A} (rng : list A) (ixs : list nat) : list (option A) :=
  map (nth_error rng) ixs.
