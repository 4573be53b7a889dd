(** * Model of the operator-level expectation values, SeQuant/domain/mbpt/vac_av.cpp

    Operators, normal operators and other atoms are parameters; an operator has a label. Values of
    expressions are in a ring, so that [simplify] does nothing. Parameters for functions modelled elsewhere or
    not at all: [expand_simplified] is [expand] followed by [simplify]; [tev] is lowering to tensor form
    and [tensor::expectation_value_impl] for a scalar, the factors and the two lists of pairs of positions;
    [can_change] is [can_change_qns] from the vacuum. *)
From Coq Require Import List Arith Bool.
Import ListNotations.

Inductive vout (A : Type) := VOk (a : A) | VThrow | VFuel.
Arguments VOk {A}. Arguments VThrow {A}. Arguments VFuel {A}.

Section Vac.
  Context {Lab Op Nop Atom K : Type} (lab_eqb : Lab -> Lab -> bool) (label : Op -> Lab).

  (** The factors that are no sums: [op_t], [FNOperator] or [BNOperator], anything else. *)
  Inductive fac := FOp (o : Op) | FNop (n : Nop) | FOther (a : Atom).
  (** Expressions: scalars, single factors, products of a scalar and factors each of which may be a sum,
      sums. Products in products are flattened by [Product]. *)
  Inductive vex :=
  | VScalar (c : K)
  | VFac (f : fac)
  | VProd (c : K) (fs : list (fac + list vex))
  | VSum (l : list vex).

  (** [oplbl2pos.find(label)]. *)
  Fixpoint lookup (l : Lab) (m : list (Lab * list nat)) : option (list nat) :=
    match m with
    | [] => None
    | (k, v) :: m' => if lab_eqb k l then Some v else lookup l m'
    end.
  (** The map with [pos] appended to the entry of [l], vac_av.cpp:85-91. *)
  Fixpoint add_pos (l : Lab) (pos : nat) (m : list (Lab * list nat)) : list (Lab * list nat) :=
    match m with
    | [] => [(l, [pos])]
    | (k, v) :: m' => if lab_eqb k l then (k, v ++ [pos]) :: m' else (k, v) :: add_pos l pos m'
    end.
  (** The loop over the factors, vac_av.cpp:78-99: the map and [ops_only]. *)
  Fixpoint positions (pos : nat) (fs : list fac) (m : list (Lab * list nat)) (ops_only : bool)
    : list (Lab * list nat) * bool :=
    match fs with
    | [] => (m, ops_only)
    | FOp o :: fs' => positions (S pos) fs' (add_pos (label o) pos m) ops_only
    | FNop _ :: fs' => positions (S pos) fs' m false
    | FOther _ :: fs' => positions pos fs' m false
    end.

  (** [lower_label_pairs], vac_av.cpp:30-52. *)
  Definition lower_label_pairs (m : list (Lab * list nat)) (pairs : list (Lab * Lab)) : list (nat * nat) :=
    flat_map (fun p => match lookup (fst p) m, lookup (snd p) m with
                       | Some l1, Some l2 =>
                           flat_map (fun i => flat_map (fun j => if i <? j then [(i, j)] else []) l2) l1
                       | _, _ => []
                       end) pairs.

  Context (kzero : K) (kadd : K -> K -> K).
  Context (expand_simplified : vex -> vex)
          (tev : K -> list fac -> list (nat * nat) -> list (nat * nat) -> K)
          (can_change : list fac -> bool).

  (** [vac_av_product], vac_av.cpp:69-119. *)
  Definition vac_av_product (connect avoid : list (Lab * Lab)) (screen : bool) (c : K) (fs : list fac) : K :=
    let r := positions 0 fs [] true in
    if snd r && screen && negb (can_change fs) then kzero
    else tev c fs (lower_label_pairs (fst r) connect) (lower_label_pairs (fst r) avoid).

  (** The factors, if none is a sum. *)
  Fixpoint plain (fs : list (fac + list vex)) : option (list fac) :=
    match fs with
    | [] => Some []
    | inl f :: fs' => match plain fs' with Some l => Some (f :: l) | None => None end
    | inr _ :: _ => None
    end.

  (** [expectation_value_impl], vac_av.cpp:62-157; [fuel] bounds the recursion. *)
  Fixpoint expectation_value (fuel : nat) (connect avoid : list (Lab * Lab)) (screen : bool) (e : vex) : vout K :=
    match fuel with
    | O => VFuel
    | S fuel' =>
        match e with
        | VProd c fs => match plain fs with
                        | Some l => VOk (vac_av_product connect avoid screen c l)
                        | None => expectation_value fuel' connect avoid screen (expand_simplified e)
                        end
        | VSum l => (fix go (l : list vex) : vout K :=
                       match l with
                       | [] => VOk kzero
                       | x :: l' => match expectation_value fuel' connect avoid screen x, go l' with
                                    | VOk a, VOk b => VOk (kadd a b)
                                    | VThrow, _ => VThrow
                                    | VFuel, _ => VFuel
                                    | _, r => r
                                    end
                       end) l
        | VFac (FOp _) => VOk kzero
        | VFac _ => VThrow
        | VScalar c => VOk c
        end
    end.
End Vac.
Arguments fac : clear implicits.
Arguments vex : clear implicits.
