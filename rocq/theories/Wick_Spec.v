(** What the Wick engine is measured against: normal-ordered products in an operator algebra.

    Nothing here refers to the algorithm. An operator algebra is any ring (with one, not
    commutative). Every elementary operator o is the sum of a part [plus o] that creates and a part
    [minus o] that annihilates a quasiparticle; normal ordering puts the creating parts to the left,
    with a sign for fermions; a contraction is the (anti)commutator of the two parts. *)
From Coq Require Import List ZArith Bool Arith Permutation.
From Verif Require Import Wick_Model.
Import ListNotations.

(** A ring with one. *)
Record ring := mkring {
  car : Type;
  r0 : car; r1 : car;
  radd : car -> car -> car; rmul : car -> car -> car; ropp : car -> car;
  radd_0 : forall x, radd r0 x = x;
  radd_comm : forall x y, radd x y = radd y x;
  radd_assoc : forall x y z, radd x (radd y z) = radd (radd x y) z;
  radd_opp : forall x, radd x (ropp x) = r0;
  rmul_1_l : forall x, rmul r1 x = x;
  rmul_1_r : forall x, rmul x r1 = x;
  rmul_assoc : forall x y z, rmul x (rmul y z) = rmul (rmul x y) z;
  rdistr_l : forall x y z, rmul (radd x y) z = radd (rmul x z) (rmul y z);
  rdistr_r : forall x y z, rmul z (radd x y) = radd (rmul z x) (rmul z y) }.

Declare Scope op_scope.
Delimit Scope op_scope with op.
Notation "x + y" := (radd _ x y) : op_scope.
Notation "x * y" := (rmul _ x y) : op_scope.

Section Algebra.
  Context {R : ring}.
  Notation A := (car R).
  Local Open Scope op_scope.

  Definition rsum (l : list A) : A := fold_right (radd R) (r0 R) l.
  Definition rprod (l : list A) : A := fold_right (rmul R) (r1 R) l.

  (** multiplication by an integer *)
  Definition zscale (z : Z) (x : A) : A :=
    match z with
    | Z0 => r0 R
    | Zpos p => Nat.iter (Pos.to_nat p) (radd R x) (r0 R)
    | Zneg p => ropp R (Nat.iter (Pos.to_nat p) (radd R x) (r0 R))
    end.

  (** the sign of passing [n] operators *)
  Definition sign (fermi : bool) (n : nat) : Z := if fermi && Nat.odd n then (-1)%Z else 1%Z.

  Definition central (x : A) : Prop := forall y, x * y = y * x.

  Context {O : Type}.
  Variable fermi : bool.
  Variables plus minus : O -> A.
  Variable contr : O -> O -> A.

  (** The canonical (anti)commutation relations. *)
  Definition canonical : Prop :=
    (forall l r, minus l * plus r = contr l r + zscale (sign fermi 1) (plus r * minus l)) /\
    (forall a b, plus a * plus b = zscale (sign fermi 1) (plus b * plus a)) /\
    (forall a b, minus a * minus b = zscale (sign fermi 1) (minus b * minus a)) /\
    (forall l r, central (contr l r)).

  (** the elementary operator *)
  Definition elementary (o : O) : A := plus o + minus o.

  (** The normal-ordered product: the creating part of the first operator goes to the left of all
      the others, its annihilating part to the right of all the others. *)
  Fixpoint normal (w : list O) : A :=
    match w with
    | [] => r1 R
    | o :: w' => plus o * normal w' + zscale (sign fermi (length w')) (normal w' * minus o)
    end.

  (** A vacuum expectation value: additive, linear in central elements, 1 on 1, and it vanishes if
      a quasiparticle is created on the left or annihilated on the right. *)
  Definition expectation (V : A -> A) : Prop :=
    (forall x y, V (x + y) = V x + V y) /\
    (forall c x, central c -> V (c * x) = c * V x) /\
    V (r1 R) = r1 R /\
    (forall o x, V (plus o * x) = r0 R) /\
    (forall o x, V (x * minus o) = r0 R).

  (** The value of a term of the result. *)
  Context {F : Type}.
  Variable fval : F -> A.
  Definition factors_value (f : list F) : A := rprod (map fval f).
  Definition scaled (z : Z) (f : list F) (w : list O) : A := zscale z (factors_value f * normal w).
End Algebra.

Definition term_value {R : ring} {I F} (fermi : bool) (plus minus : op I -> car R) (fval : F -> car R) (t : wterm) : car R :=
  scaled fermi plus minus fval (t_scalar t) (t_factors t) (t_op t).

(** ** Sign of a rearrangement: exchanging neighbours. [rearranged n u v]: v is u after n
    exchanges of neighbouring elements. *)
Inductive rearranged {X : Type} : nat -> list X -> list X -> Prop :=
  | re_refl u : rearranged 0 u u
  | re_swap n u v a b w : rearranged n u (v ++ a :: b :: w) -> rearranged (S n) u (v ++ b :: a :: w).

(** ** Complete contraction patterns. [full_matching v m]: m pairs up all elements of v. *)
Inductive full_matching {X : Type} : list X -> list (X * X) -> Prop :=
  | fm_nil : full_matching [] []
  | fm_cons x v1 y v2 m : full_matching (v1 ++ v2) m -> full_matching (x :: v1 ++ y :: v2) ((x, y) :: m).

(** [partial_matching v m rest]: m pairs up some elements of v, rest are the others in their order. *)
Inductive partial_matching {X : Type} : list X -> list (X * X) -> list X -> Prop :=
  | pm_nil : partial_matching [] [] []
  | pm_skip x v m rest : partial_matching v m rest -> partial_matching (x :: v) m (x :: rest)
  | pm_pair x v1 y v2 m rest : partial_matching (v1 ++ v2) m rest -> partial_matching (x :: v1 ++ y :: v2) ((x, y) :: m) rest.

(** The elements of a pattern, pair by pair. *)
Definition pair_list {X : Type} (m : list (X * X)) : list X := flat_map (fun xy => [fst xy; snd xy]) m.

(** Which normal operator an operator stands in is its tag. *)
Definition tagged {I} (input : list (list (op I))) : list (nat * op I) := tag_nest input 0.

(** A pattern is admissible: every pair joins a quasiparticle annihilator with a creator of another
    normal operator. *)
Definition admissible {I} (can_contract : op I -> op I -> bool) (m : list ((nat * op I) * (nat * op I))) : Prop :=
  forall x y, In (x, y) m -> fst x <> fst y /\ can_contract (snd x) (snd y) = true.

(** The normal operators i and j are joined by a pair of the pattern. *)
Definition joined {I} (m : list ((nat * op I) * (nat * op I))) (i j : nat) : Prop :=
  exists x y, In (x, y) m /\ ((fst x = i /\ fst y = j) \/ (fst x = j /\ fst y = i)).

(** ** Spin labellings. A column is a pair (index of its creator, index of its annihilator); every
    column carries one of two spins. A contraction links the annihilator of one column with the
    creator of one (the same or another) column and forces the two spins to be equal. *)
Fixpoint labellings {X : Type} (columns : list X) : list (list (X * bool)) :=
  match columns with
  | [] => [[]]
  | x :: columns' => map (cons (x, true)) (labellings columns') ++ map (cons (x, false)) (labellings columns')
  end.

Section Spins.
  Context {I : Type}.
  Variable ieqb : I -> I -> bool.
  Definition spin_at (pick : I * I -> I) (lab : list ((I * I) * bool)) (i : I) : option bool :=
    option_map snd (find (fun p => ieqb (pick (fst p)) i) lab).
  (** [ac]: the index of the contracted annihilator and of the contracted creator *)
  Definition same_spin (lab : list ((I * I) * bool)) (ac : I * I) : bool :=
    match spin_at snd lab (fst ac), spin_at fst lab (snd ac) with
    | Some s, Some t => Bool.eqb s t
    | _, _ => true
    end.
  Definition spin_labellings (columns : list (I * I)) (links : list (I * I)) : nat :=
    length (filter (fun lab => forallb (same_spin lab) links) (labellings columns)).
End Spins.

(** The link made by the contraction of an annihilator with a creator, in either order. *)
Definition link {I} (lr : op I * op I) : I * I :=
  if ocre (fst lr) then (oidx (snd lr), oidx (fst lr)) else (oidx (fst lr), oidx (snd lr)).

(** A normal operator with as many creators as annihilators: the columns (particles) of
    a^dag(p1)...a^dag(pn) a(qn)...a(q1) are (p1,q1), ..., (pn,qn). *)
Definition number_conserving {I} (nop : list (op I)) : Prop :=
  length (filter (fun o => ocre o) nop) = length (filter (fun o => negb (ocre o)) nop).
Definition columns {I} (nop : list (op I)) : list (I * I) :=
  combine (map oidx (filter (fun o => ocre o) nop)) (rev (map oidx (filter (fun o => negb (ocre o)) nop))).

(** The factors of the contractions of a pattern, in order. *)
Definition pattern_factors {I F} (contract : op I -> op I -> list F) (m : list ((nat * op I) * (nat * op I))) : list F :=
  flat_map (fun xy => contract (snd (fst xy)) (snd (snd xy))) m.
(** The links of a pattern. *)
Definition links {I} (m : list ((nat * op I) * (nat * op I))) : list (I * I) :=
  map (fun xy => link (snd (fst xy), snd (snd xy))) m.
