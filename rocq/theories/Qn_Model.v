(** Quantum number changes of many-body operators and the screening built on them
    (/repo/SeQuant/domain/mbpt/op.hpp, op.cpp, op.ipp, vac_av.cpp). *)
From Coq Require Import List NArith ZArith Bool Arith.
Import ListNotations.
Local Open Scope Z_scope.

(** boost::numeric::interval<int64_t> (op.hpp:207): (lower, upper). Simplification: unbounded
    integers. *)
Definition interval := (Z * Z)%type.
Definition lower (i : interval) : Z := fst i.
Definition upper (i : interval) : Z := snd i.
Definition iadd (a b : interval) : interval := (lower a + lower b, upper a + upper b).
Definition isub (a b : interval) : interval := (lower a - upper b, upper a - lower b).
(** boost::numeric::overlap of two nonempty intervals *)
Definition overlap (a b : interval) : bool := (lower a <=? upper b) && (lower b <=? upper a).
Definition iequal (a b : interval) : bool := (lower a =? lower b) && (upper a =? upper b).

(** nonnegative (core/interval.hpp:31-35). [None]: the assertion fails. *)
Definition nonnegative (i : interval) : option interval :=
  if 0 <=? upper i then Some (Z.max 0 (lower i), upper i) else None.

(** interval{0, u}: the constructor refuses u < 0. *)
Definition upto (u : Z) : option interval := if 0 <=? u then Some (0, u) else None.

(** The part of the Context and of the IndexSpaceRegistry that is consulted. A base space has a type
    (a bit set, one bit) and quantum numbers; [occupied q], [particle q], [hole q] are the types of
    vacuum_occupied_space(q), particle_space(q), hole_space(q). Simplification: the three are defined
    for every q (the code throws if one is missing) and quantum numbers have no bits outside of the
    physical particle mask. *)
Record space := mkspace { stype : N; sqns : nat }.
Record context := mkcontext {
  physical : bool;                (* vacuum() == Vacuum::Physical, otherwise SingleProduct *)
  base_spaces : list space;
  occupied : nat -> N;
  particle : nat -> N;
  hole : nat -> N }.

(** Spin::any *)
Definition any : nat := 0.

(** QuantumNumberChange (op.hpp:203-418): intervals of the number of creators and of annihilators,
    per base space (SingleProduct) or altogether (Physical). Simplification: the flat vector with the
    creators at even and the annihilators at odd positions is a list of pairs. *)
Definition qns := list (interval * interval).

Section Context.
  Variable ctx : context.

  (** size() / 2 (op.hpp:214-225) *)
  Definition nslots : nat := if physical ctx then 1%nat else length (base_spaces ctx).
  (** QuantumNumberChange() (op.hpp:228-232) *)
  Definition zero_qns : qns := repeat ((0, 0), (0, 0)) nslots.
  (** operator== (op.hpp:276-280) *)
  Definition pair_equal (x y : interval * interval) : bool := iequal (fst x) (fst y) && iequal (snd x) (snd y).
  Definition qns_equal (a b : qns) : bool := forallb (fun xy => pair_equal (fst xy) (snd xy)) (List.combine a b).
  (** is_vacuum (op.cpp:287-291) *)
  Definition is_vacuum (q : qns) : bool := qns_equal q zero_qns.
  (** operator+= (op.hpp:271-274) *)
  Definition qns_add (a b : qns) : qns :=
    map (fun '(x, y) => (iadd (fst x) (fst y), iadd (snd x) (snd y))) (List.combine a b).
  (** overlaps_with (op.hpp:396-403) *)
  Definition overlaps_with (a b : qns) : bool :=
    forallb (fun '(x, y) => overlap (fst y) (fst x) && overlap (snd y) (snd x)) (List.combine a b).
  (** adjoint (op.cpp:297-309) *)
  Definition adjoint_qns (q : qns) : qns := map (fun ca => (snd ca, fst ca)) q.

  (** IndexSpaceRegistry::is_base(Type) (core/index_space_registry.hpp:894-896) *)
  Definition is_base (t : N) : bool := negb (N.eqb t 0) && N.eqb (N.land t (N.pred t)) 0.
  (** includes(t1, t2): t2 is contained in t1 (core/bitset.hpp) *)
  Definition includes (t1 t2 : N) : bool := N.eqb (N.land t1 t2) t2.
  (** is_pure_occupied (core/index_space_registry.hpp:903-914): a comparison of the bit sets as numbers *)
  Definition is_pure_occupied (s : space) : bool := negb (N.eqb (stype s) 0) && N.leb (stype s) (occupied ctx (sqns s)).

  Definition rank (k : nat) : interval := (Z.of_nat k, Z.of_nat k).
  Definition rank_upto (k : nat) : interval := (0, Z.of_nat k).
  Definition bounds (definite : bool) (k : nat) : interval := if definite then rank k else rank_upto k.

  (** excitation_type_qns (op.cpp:59-88) *)
  Definition excitation_type_qns (k : nat) (q : nat) : qns :=
    if physical ctx then [(rank_upto k, rank_upto k)] else
    map (fun b => if negb (Nat.eqb (sqns b) q) then ((0, 0), (0, 0)) else
      (if includes (particle ctx q) (stype b) then bounds (is_base (particle ctx q)) k else (0, 0),
       if includes (hole ctx q) (stype b) then bounds (is_base (hole ctx q)) k else (0, 0))) (base_spaces ctx).

  (** interval_excitation_type_qns (op.cpp:90-117) *)
  Definition interval_excitation_type_qns (k : nat) (q : nat) : qns :=
    if physical ctx then [(rank_upto k, rank_upto k)] else
    map (fun b => if negb (Nat.eqb (sqns b) q) then ((0, 0), (0, 0)) else
      (if includes (particle ctx q) (stype b) then rank_upto k else (0, 0),
       if includes (hole ctx q) (stype b) then rank_upto k else (0, 0))) (base_spaces ctx).

  (** deexcitation_type_qns (op.cpp:119-147) *)
  Definition deexcitation_type_qns (k : nat) (q : nat) : qns :=
    if physical ctx then [(rank_upto k, rank_upto k)] else
    map (fun b => if negb (Nat.eqb (sqns b) q) then ((0, 0), (0, 0)) else
      (if includes (hole ctx q) (stype b) then bounds (is_base (hole ctx q)) k else (0, 0),
       if includes (particle ctx q) (stype b) then bounds (is_base (particle ctx q)) k else (0, 0))) (base_spaces ctx).

  (** interval_deexcitation_type_qns (op.cpp:149-175) *)
  Definition interval_deexcitation_type_qns (k : nat) (q : nat) : qns :=
    if physical ctx then [(rank_upto k, rank_upto k)] else
    map (fun b => if negb (Nat.eqb (sqns b) q) then ((0, 0), (0, 0)) else
      (if includes (hole ctx q) (stype b) then rank_upto k else (0, 0),
       if includes (particle ctx q) (stype b) then rank_upto k else (0, 0))) (base_spaces ctx).

  (** general_type_qns (op.cpp:177-183) *)
  Definition general_type_qns (k : nat) : qns := repeat (rank_upto k, rank_upto k) nslots.

  (** generic_excitation_qns (op.cpp:185-216): whether the bounds are definite is decided by the
      registry's particle and hole spaces, not by the spaces that are passed. *)
  Definition generic_excitation_qns (particle_rank hole_rank : nat) (particle_space hole_space : N) (q : nat) : qns :=
    if physical ctx then [(rank_upto hole_rank, rank_upto particle_rank)] else
    map (fun b => if negb (Nat.eqb (sqns b) q) then ((0, 0), (0, 0)) else
      (if includes particle_space (stype b) then bounds (is_base (particle ctx q)) particle_rank else (0, 0),
       if includes hole_space (stype b) then bounds (is_base (hole ctx q)) hole_rank else (0, 0))) (base_spaces ctx).

  (** generic_deexcitation_qns (op.cpp:218-248) *)
  Definition generic_deexcitation_qns (particle_rank hole_rank : nat) (particle_space hole_space : N) (q : nat) : qns :=
    if physical ctx then [(rank_upto particle_rank, rank_upto hole_rank)] else
    map (fun b => if negb (Nat.eqb (sqns b) q) then ((0, 0), (0, 0)) else
      (if includes hole_space (stype b) then bounds (is_base (hole ctx q)) hole_rank else (0, 0),
       if includes particle_space (stype b) then bounds (is_base (particle ctx q)) particle_rank else (0, 0))) (base_spaces ctx).

  (** One slot of combine; [occ]: contractions take a creator of a and an annihilator of b. *)
  Definition combine_slot (occ : bool) (a b : interval * interval) : option (interval * interval) :=
    match (if occ then upto (Z.min (upper (snd b)) (upper (fst a))) else upto (Z.min (upper (fst b)) (upper (snd a)))) with
    | None => None
    | Some ncontr =>
        match nonnegative (isub (iadd (fst b) (fst a)) ncontr), nonnegative (isub (iadd (snd b) (snd a)) ncontr) with
        | Some c, Some n => Some (c, n)
        | _, _ => None
        end
    end.
  Fixpoint combine_slots (occ : list bool) (a b : qns) : option qns :=
    match occ, a, b with
    | o :: occ', x :: a', y :: b' =>
        match combine_slot o x y, combine_slots occ' a' b' with
        | Some z, Some r => Some (z :: r)
        | _, _ => None
        end
    | _, _, _ => Some []
    end.
  (** per slot: is the base space occupied in the vacuum *)
  Definition occupied_slots : list bool := if physical ctx then [false] else map is_pure_occupied (base_spaces ctx).
  (** combine (op.cpp:250-285). [None]: an assertion fails. *)
  Definition combine (a b : qns) : option qns :=
    if Nat.eqb (length a) (length b) then combine_slots occupied_slots a b else None.

  (** Operator<qns_t> (op.hpp:885-975): what matters here is its qn_action. The operators of
      mbpt::op have the action qns = combine(q, qns); adjoint() makes one with the action
      qns += adjoint(dN). *)
  Inductive operator := Plain (q : qns) | Adjointed (dN : qns).
  Definition qn_action (o : operator) (s : qns) : option qns :=
    match o with Plain q => combine q s | Adjointed dN => Some (qns_add s (adjoint_qns dN)) end.
  (** apply_to, operator() (op.ipp:63-83) *)
  Definition apply (o : operator) (s : qns) : option qns :=
    if is_vacuum s then qn_action o s
    else match qn_action o zero_qns with Some q => combine q s | None => None end.
  (** adjoint() (op.ipp:141-178). Simplification: labels and the tensor form are not modelled. *)
  Definition op_adjoint (o : operator) : option operator := option_map Adjointed (apply o zero_qns).

  (** apply_to_vac (op.cpp:1275-1290): the rightmost operator acts first. A single operator is a
      product of one. Simplification: scalar factors, which nonscalar_factors() skips, are left out. *)
  Fixpoint apply_to_vac (ops : list operator) : option qns :=
    match ops with
    | [] => Some zero_qns
    | o :: ops' => match apply_to_vac ops' with Some s => apply o s | None => None end
    end.

  (** can_change_qns (op.cpp:1292-1303) *)
  Definition can_change_qns (ops : list operator) (target source : qns) : option bool :=
    match apply_to_vac ops with
    | None => None
    | Some qnc => match combine qnc source with Some s => Some (overlaps_with s target) | None => None end
    end.

  (** op.cpp:1305-1329 *)
  Definition raises_vacuum_up_to_rank ops k := can_change_qns ops (interval_excitation_type_qns k any) zero_qns.
  Definition lowers_rank_or_lower_to_vacuum ops k := can_change_qns ops zero_qns (interval_excitation_type_qns k any).
  Definition raises_vacuum_to_rank ops k := can_change_qns ops (excitation_type_qns k any) zero_qns.
  Definition lowers_rank_to_vacuum ops k := can_change_qns ops zero_qns (excitation_type_qns k any).

  (** The screening step of the expectation value of a product of operators (vac_av.cpp:104-109):
      [Some true]: the product is replaced by 0. *)
  Definition screened (ops : list operator) : option bool := option_map negb (can_change_qns ops zero_qns zero_qns).

  (** commutes_with_atom (op.ipp:123-139) *)
  Definition commutes_with (o o' : operator) : option bool :=
    match apply o zero_qns, apply o' zero_qns with
    | Some d, Some d' =>
        match combine d d', combine d' d with
        | Some x, Some y => Some (qns_equal x y)
        | _, _ => None
        end
    | _, _ => None
    end.

  (** ** The operators of mbpt::op *)
  (** h, θ, ã, F, Hʼ (op.cpp:920-999, 1043-1056, 1117-1124) *)
  Definition op_general (k : nat) : operator := Plain (general_type_qns k).
  (** t, tʼ (op.cpp:1001-1010, 1126-1133) *)
  Definition op_t (k : nat) : operator := Plain (excitation_type_qns k any).
  (** λ, λʼ (op.cpp:1022-1031, 1149-1157) *)
  Definition op_lambda (k : nat) : operator := Plain (deexcitation_type_qns k any).
  (** A (op.cpp:1058-1085). [None]: an assertion fails. *)
  Definition op_A (np nh : Z) : option operator :=
    if (nh =? 0) && (np =? 0) then None
    else if negb (nh =? 0) && negb (np =? 0) && negb (((0 <? nh) && (0 <? np)) || ((nh <? 0) && (np <? 0))) then None
    else Some (Plain (if (np <? 0) || (nh <? 0)
      then generic_deexcitation_qns (Z.abs_nat np) (Z.abs_nat nh) (particle ctx any) (hole ctx any) any
      else generic_excitation_qns (Z.abs_nat np) (Z.abs_nat nh) (particle ctx any) (hole ctx any) any)).
  (** S (op.cpp:1087-1101) *)
  Definition op_S (k : Z) : option operator :=
    if k =? 0 then None
    else Some (Plain (if k <? 0 then deexcitation_type_qns (Z.abs_nat k) any else excitation_type_qns (Z.abs_nat k) any)).
  (** r, l with explicit spaces (op.cpp:1173-1188, 1195-1210) *)
  Definition op_r (na nc : nat) (cre_space ann_space : N) : operator := Plain (generic_excitation_qns nc na cre_space ann_space any).
  Definition op_l (na nc : nat) (cre_space ann_space : N) : operator := Plain (generic_deexcitation_qns na nc ann_space cre_space any).
End Context.
