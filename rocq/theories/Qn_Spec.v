(** What quantum number changes are measured against: the numbers of creators and annihilators in
    concrete products of elementary operators, and their contractions. Elementary operators,
    normal-ordered products, vacuum expectation values and contraction patterns are those of
    Wick_Spec; nothing here refers to interval arithmetic. *)
From Coq Require Import List NArith ZArith Bool Arith.
From Verif Require Import Wick_Model Wick_Spec Qn_Model.
Import ListNotations.

Section Contents.
  Variable ctx : context.
  Context {I : Type}.
  (** every one-particle state belongs to one base space: its position in the list of base spaces *)
  Variable base : I -> nat.

  (** the state [i] lies in the space of type [s] *)
  Definition in_space (s : N) (i : I) : Prop :=
    exists b, nth_error (base_spaces ctx) (base i) = Some b /\ N.land s (stype b) = stype b.
  (** the state lies in some base space *)
  Definition somewhere (i : I) : Prop := base i < length (base_spaces ctx).

  (** [w] has one creator in each of the spaces [cs] and one annihilator in each of the spaces [ns]. *)
  Definition made_of (cs ns : list N) (w : list (op I)) : Prop :=
    exists ci ni, Forall2 in_space cs ci /\ Forall2 in_space ns ni /\
      w = map (fun i => mkop i true) ci ++ map (fun i => mkop i false) ni.
  (** a general k-body operator: no restriction on the spaces *)
  Definition general_term (k : nat) (w : list (op I)) : Prop :=
    exists ci ni, length ci = k /\ length ni = k /\ Forall somewhere ci /\ Forall somewhere ni /\
      w = map (fun i => mkop i true) ci ++ map (fun i => mkop i false) ni.

  (** In the physical vacuum all states are counted together, otherwise per base space. *)
  Definition slot (i : I) : nat := if physical ctx then 0 else base i.
  Definition number (cre : bool) (k : nat) (w : list (op I)) : Z :=
    Z.of_nat (length (filter (fun o => Bool.eqb (ocre o) cre && Nat.eqb (slot (oidx o)) k) w)).
  (** The numbers of creators and annihilators of [w] lie in the intervals [q]. *)
  Definition conforms (q : qns) (w : list (op I)) : Prop :=
    length q = (if physical ctx then 1 else length (base_spaces ctx)) /\
    (forall o, In o w -> slot (oidx o) < length q) /\
    forall k c n, nth_error q k = Some (c, n) ->
      (fst c <= number true k w <= snd c)%Z /\ (fst n <= number false k w <= snd n)%Z.

  (** The state is occupied in the vacuum. *)
  Definition is_occupied (i : I) : bool :=
    match nth_error (base_spaces ctx) (base i) with
    | Some b => N.eqb (N.land (occupied ctx (sqns b)) (stype b)) (stype b)
    | None => false
    end.
  (** Quasiparticle annihilators: annihilators of unoccupied and creators of occupied states. *)
  Definition annihilates (o : op I) : bool :=
    if physical ctx then negb (ocre o)
    else if is_occupied (oidx o) then ocre o else negb (ocre o).
  (** A contraction can only be nonzero for a quasiparticle annihilator on the left and its
      counterpart, a creator of a quasiparticle in the same base space, on the right. *)
  Definition contractible (l r : op I) : bool :=
    annihilates l && negb (Bool.eqb (ocre l) (ocre r)) && Nat.eqb (base (oidx l)) (base (oidx r)).

  (** The occupied base spaces have the lowest bits (see C51 for what happens otherwise). *)
  Definition occupied_lowest : Prop := forall b, In b (base_spaces ctx) ->
    stype b <> 0%N /\ (N.land (occupied ctx (sqns b)) (stype b) = stype b \/ (occupied ctx (sqns b) < stype b)%N).

  (** Base spaces with different types; all with the same quantum numbers. *)
  Definition plain_spaces : Prop :=
    NoDup (map stype (base_spaces ctx)) /\ Forall (fun b => sqns b = any /\ stype b <> 0%N) (base_spaces ctx).
End Contents.

(** Operators are sums of terms with central coefficients. *)
Section Values.
  Context {R : ring} {I : Type}.
  Variable fermi : bool.
  Variables plus minus : op I -> car R.
  Definition operator_value (terms : list (car R * list (op I))) : car R :=
    rsum (map (fun t => rmul R (fst t) (normal fermi plus minus (snd t))) terms).
End Values.

(** nonempty intervals of natural numbers *)
Definition natural (i : Z * Z) : Prop := (0 <= fst i <= snd i)%Z.
Definition natural_qns (q : qns) : Prop := Forall (fun ca => natural (fst ca) /\ natural (snd ca)) q.
(** the number is known and only one of the two kinds of operators occurs in each base space *)
Definition definite (q : qns) : Prop :=
  Forall (fun ca => fst (fst ca) = snd (fst ca) /\ fst (snd ca) = snd (snd ca) /\ (snd (fst ca) = 0 \/ snd (snd ca) = 0)%Z) q.
