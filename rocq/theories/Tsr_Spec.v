(** What comparisons of indices and canonicalization of tensors are measured against. *)
From Coq Require Import ZArith List Arith Bool Permutation.
From Verif Require Import Tsr_Model Alg_Spec.
Import ListNotations.

(** ** Indices *)

(** [part x i]: [x] is [i], or a proto-index of [i], or a proto-index of one, and so on. *)
Inductive part (x : index) : index -> Prop :=
| part_self : part x x
| part_proto i p : In p (ix_protos i) -> part x p -> part x i.

(** Everything in [i] is in a space of [S]. *)
Definition over (S : space -> Prop) (i : index) : Prop := forall x, part x i -> S (ix_space x).

(** The spaces of one registry: two different spaces differ in their attributes. *)
Definition one_registry (S : space -> Prop) : Prop :=
  forall s s', S s -> S s' -> sp_qns s = sp_qns s' -> sp_type s = sp_type s' -> s = s'.

(** Nothing in the index is tagged. *)
Definition untagged (i : index) : Prop := forall x, part x i -> ix_tag x = None.

(** The index is tagged, its proto-indices are not. *)
Definition tagged (i : index) : Prop :=
  (exists t, ix_tag i = Some t) /\ forall p, In p (ix_protos i) -> untagged p.

(** The index without its tags: what it is. *)
Fixpoint identity (i : index) : index :=
  match i with Idx s o _ ps => Idx s o None (map identity ps) end.

(** [c] orders the members of [U] totally. *)
Definition total_order {A} (U : A -> Prop) (c : A -> A -> comparison) : Prop :=
  (forall x y, U x -> U y -> (c x y = Eq <-> x = y)) /\
  (forall x y, U x -> U y -> c y x = CompOpp (c x y)) /\
  (forall x y z, U x -> U y -> U z -> c x y = Lt -> c y z = Lt -> c x z = Lt).

(** [lt] is a strict weak order on [U], and elements that are not ordered are those related by
    [same]. *)
Definition strict_weak_on {A} (U : A -> Prop) (lt : A -> A -> bool) (same : A -> A -> Prop) : Prop :=
  (forall x, U x -> lt x x = false) /\
  (forall x y z, U x -> U y -> U z -> lt x y = true -> lt y z = true -> lt x z = true) /\
  (forall x y z, U x -> U y -> U z -> lt x y = false -> lt y z = false -> lt x z = false) /\
  (forall x y, U x -> U y -> (lt x y = false /\ lt y x = false <-> same x y)).

(** The index with every ordinal and tag forgotten: its space, and the spaces of its
    proto-indices. *)
Fixpoint shape (i : index) : index :=
  match i with Idx s _ _ ps => Idx s None None (map shape ps) end.

(** ** Slots *)

(** The index in a slot, if there is one. *)
Definition slot (i : index) : option index := if ix_null i then None else Some i.

(** The columns of a tensor: the k-th bra slot with the k-th ket slot. A slot that does not exist
    is empty. *)
Fixpoint columns (bra ket : list index) : list (option index * option index) :=
  match bra with
  | [] => map (fun k => (None, slot k)) ket
  | b :: bra' =>
      match ket with
      | [] => (slot b, None) :: columns bra' []
      | k :: ket' => (slot b, slot k) :: columns bra' ket'
      end
  end.

Definition flip (c : option index * option index) := (snd c, fst c).
Definition paired (c : option index * option index) : bool :=
  match c with (Some _, Some _) => true | _ => false end.
Definition bra_only (c : option index * option index) : bool :=
  match c with (Some _, None) => true | _ => false end.
Definition ket_only (c : option index * option index) : bool :=
  match c with (None, Some _) => true | _ => false end.

(** First the paired columns, then those with a bra index only, then those with a ket index only. *)
Definition in_slot_order (cs : list (option index * option index)) : Prop :=
  cs = filter paired cs ++ filter bra_only cs ++ filter ket_only cs.

(** The tensors that can be made: those the constructor makes, and what the public operations that
    keep the slots consistent make of them. *)
Inductive made : tensor -> Prop :=
| made_ctor l b k a s bk c t : make_tensor l b k a s bk c = Some t -> made t
| made_adjoint t t' : made t -> adjoint t = Some t' -> made t'.

(** ** Values *)

(** [V] gives the value of a tensor with given bra and ket indices. It has the permutational symmetry
    the tensor declares. [opp] is the change of sign. *)
Definition respects {R} (opp : R -> R) (s : symmetry) (V : list index -> list index -> R) : Prop :=
  match s with
  | Nonsymm => forall b k b' k', Permutation (columns b k) (columns b' k') -> V b k = V b' k'
  | Symm => forall b k b' k', Permutation b b' -> Permutation k k' -> V b k = V b' k'
  | Antisymm => forall b k b' k' n m, exchanges n b b' -> exchanges m k k' ->
      V b k = if Nat.odd (n + m) then opp (V b' k') else V b' k'
  end.

(** Two tensors that are the same up to the declared symmetry; [sign] is true if they differ in
    sign. *)
Definition related (t u : tensor) (sign : bool) : Prop :=
  t_label t = t_label u /\ t_aux t = t_aux u /\ t_symm t = t_symm u /\ t_bk t = t_bk u /\ t_col t = t_col u /\
  t_bra_net t = t_bra_net u /\ t_ket_net t = t_ket_net u /\
  match t_col t, t_symm t with
  | ColNonsymm, _ => t_bra t = t_bra u /\ t_ket t = t_ket u /\ sign = false
  | ColSymm, Nonsymm => exists b b' r r' k k' q q',
      t_bra t = b ++ r /\ t_ket t = k ++ q /\ t_bra u = b' ++ r' /\ t_ket u = k' ++ q' /\
      length b = length k /\ length b' = length k' /\ (r = [] \/ q = []) /\ (r' = [] \/ q' = []) /\
      Permutation (combine b k) (combine b' k') /\ Permutation r r' /\ Permutation q q' /\ sign = false
  | ColSymm, Symm => Permutation (t_bra t) (t_bra u) /\ Permutation (t_ket t) (t_ket u) /\ sign = false
  | ColSymm, Antisymm => exists n m, exchanges n (t_bra t) (t_bra u) /\ exchanges m (t_ket t) (t_ket u) /\
      sign = Nat.odd (n + m)
  end.

(** [sort] sorts lists of members of [U] by [lt]. *)
Definition sorts {A} (U : A -> Prop) (lt : A -> A -> bool) (sort : list A -> list A) : Prop :=
  forall l, Forall U l -> Permutation l (sort l) /\ in_sorted_order lt (sort l).

(** The block of a tensor: the shapes of its slots. *)
Definition block (t : tensor) : list index * list index := (map shape (t_bra t), map shape (t_ket t)).

(** No slot is empty. *)
Definition full (t : tensor) : Prop := forall i, In i (t_bra t ++ t_ket t) -> slot i <> None.

(** The indices in [l] are in spaces of [S] and nothing in them is tagged. *)
Definition clean (S : space -> Prop) (l : list index) : Prop := forall i, In i l -> over S i /\ untagged i.
Definition slots (t : tensor) : list index := t_bra t ++ t_ket t ++ t_aux t.

(** An index in the null space is the null index. *)
Definition null_ok (l : list index) : Prop := forall i, In i l -> shape i = shape null_index -> ix_null i = true.

(** There are empty ket slots, and no column with only a ket index that would have to come after
    them. *)
Definition padded (t : tensor) : Prop :=
  t_symm t = Nonsymm /\ t_col t = ColSymm /\
  (exists x, In x (t_ket t) /\ ix_null x = true) /\ filter ket_only (columns (t_bra t) (t_ket t)) = [].

(** The mirror image of a tensor: bra and ket exchanged. *)
Definition mirror (t u : tensor) : Prop :=
  t_label u = t_label t /\ t_aux u = t_aux t /\ t_symm u = t_symm t /\ t_bk u = t_bk t /\ t_col u = t_col t /\
  t_bra u = t_ket t /\ t_ket u = t_bra t.
