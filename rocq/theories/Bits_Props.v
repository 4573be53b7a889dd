(** Final theorems about [sequant::bits]. *)
From Coq Require Import NArith List Arith Sorted.
From Verif Require Import Bits_Model Bits_Spec Bits_Proofs.
Import ListNotations.
Local Open Scope N_scope.

(** C01. Every mask with fewer than 64 set bits has a well-defined enumeration. *)
Theorem C01_defined : forall w mask,
  (popcount mask < 64)%nat -> exists l, bipartitions_ordered w mask = Some l.
Proof. exact bipartitions_ordered_defined. Qed.

(** C01. The enumeration lists exactly the ways to split [mask] into an ordered pair of disjoint
    parts; the first parts strictly increase, the second parts strictly decrease (so nothing is
    repeated); there are [2^popcount] entries. *)
Theorem C01_bipartitions_ordered : forall w mask l,
  bipartitions_ordered w mask = Some l ->
  length l = Nat.pow 2 (popcount mask) /\
  (forall a b, In (a, b) l <-> splits mask a b) /\
  StronglySorted N.lt (map fst l) /\ StronglySorted N.gt (map snd l).
Proof. exact bipartitions_ordered_ok. Qed.

Theorem C01_subsets : forall w mask l,
  subsets w mask = Some l ->
  StronglySorted N.lt l /\ (forall a, In a l <-> subset_of a mask).
Proof. exact subsets_ok. Qed.

Theorem C01_subsets_descending : forall w mask l,
  subsets_descending w mask = Some l ->
  StronglySorted N.gt l /\ (forall a, In a l <-> subset_of a mask).
Proof. exact subsets_descending_ok. Qed.

(** The word width is irrelevant (the wrapped-around value is never emitted). *)
Example C01_ex : bipartitions_ordered 64 11 =
  Some [(0,11); (1,10); (2,9); (3,8); (8,3); (9,2); (10,1); (11,0)].
Proof. reflexivity. Qed.

(** C02. For a non-zero mask the unordered enumeration contains every unordered split exactly
    once. *)
Theorem C02_bipartitions : forall w mask l,
  mask <> 0 -> bipartitions w mask = Some l ->
  NoDup l /\
  (forall a b, In (a, b) l -> splits mask a b) /\
  (forall a b, splits mask a b ->
     (In (a, b) l \/ In (b, a) l) /\ ~ (In (a, b) l /\ In (b, a) l)).
Proof. exact bipartitions_ok. Qed.

Example C02_ex : bipartitions 64 11 = Some [(0,11); (1,10); (2,9); (3,8)].
Proof. reflexivity. Qed.

(** The empty mask is the exception: its only split ({},{}) is not listed. *)
Example C02_zero : bipartitions 64 0 = Some [].
Proof. reflexivity. Qed.

(** C03. *)
Theorem C03_on_bits_index : forall w mask,
  StronglySorted lt (on_bits_index w mask) /\
  (forall i, In i (on_bits_index w mask) <-> has mask i).
Proof. exact on_bits_index_ok. Qed.

(** C03, with [sieve]: selecting by the set bits never goes out of range when every set bit is a
    valid position, and yields the selected elements in order. *)
Theorem C03_sieve : forall (A : Type) (rng : list A) w mask,
  (forall i, has mask i -> (i < length rng)%nat) ->
  Forall (fun o => o <> None) (sieve rng (on_bits_index w mask)).
Proof. exact sieve_defined. Qed.

Example C03_ex : sieve [10;11;12;13]%nat (on_bits_index 64 11) = [Some 10; Some 11; Some 13]%nat.
Proof. reflexivity. Qed.

Print Assumptions C01_bipartitions_ordered.
Print Assumptions C02_bipartitions.
Print Assumptions C03_on_bits_index.
