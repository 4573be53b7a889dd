(** * Model of the projections in SeQuant/domain/mbpt/models/cc.cpp: CC::t and CC::λ

    The transformed Hamiltonian is a list of terms, a sum. Parameters: [av p l], the expectation value of the
    projection on rank [p] of the sum of the terms [l] ([ref_av] with the connectivity, C150-C151);
    [up_to p x] and [exact p x], the screening functions, which are [raises_vacuum_up_to_rank] and
    [raises_vacuum_to_rank] in [t], [lowers_rank_or_lower_to_vacuum] and [lowers_rank_to_vacuum] in [λ]. A
    null pointer that is used is a distinct outcome. *)
From Coq Require Import List Arith Bool.
Import ListNotations.

Inductive tout (A : Type) := TOk (a : A) | TNull | TAssert.
Arguments TOk {A}. Arguments TNull {A}. Arguments TAssert {A}.

Section Ccm.
  Context {Term K : Type} (up_to exact : nat -> Term -> bool) (av : nat -> list Term -> K).

  (** A sum to which the terms are appended, null if there are none (cc.cpp:104-122). *)
  Definition sum_or_null (l : list Term) : option (list Term) := match l with [] => None | _ => Some l end.

  (** The loop over the ranks, cc.cpp:98-134 and 170-203: [ps] are the ranks to come, [hbar] is the pointer to what is
      left of the transformed Hamiltonian. The projection multiplies [hbar_for_vev], and [ref_av] takes it. *)
  Fixpoint project (screen : bool) (ps : list nat) (hbar : option (list Term)) : tout (list (nat * K)) :=
    match ps with
    | [] => TOk []
    | p :: ps' =>
        match hbar with
        | None => TNull
        | Some h =>
            let le := if screen then filter (up_to p) h else h in
            let vev := if screen then sum_or_null (filter (exact p) le) else Some h in
            match vev with
            | None => TNull
            | Some v => match project screen ps' (if screen then sum_or_null le else hbar) with
                        | TOk r => TOk ((p, av p v) :: r)
                        | TNull => TNull
                        | TAssert => TAssert
                        end
            end
        end
    end.

  (** [result.at(p) = ...] for a vector of [n] null pointers. *)
  Definition vector (n : nat) (r : list (nat * K)) : list (option K) :=
    map (fun p => match find (fun x => fst x =? p) r with Some x => Some (snd x) | None => None end) (seq 0 n).

  (** [pmax], ..., [pmin]. *)
  Definition ranks (pmax pmin : nat) : list nat := rev (seq pmin (S pmax - pmin)).

  (** [CC::t], cc.cpp:83-137, without the default of [pmax]. *)
  Definition t (screen : bool) (hbar : list Term) (pmax pmin : nat) : tout (list (option K)) :=
    if pmin <=? pmax then
      match project screen (ranks pmax pmin) (Some hbar) with
      | TOk r => TOk (vector (S pmax) r)
      | TNull => TNull
      | TAssert => TAssert
      end
    else TAssert.

  (** [CC::λ], cc.cpp:139-205; [pseudo] is element 0, [lhbar] is [(1 + Λ) H̄]. *)
  Definition lambda (screen : bool) (lhbar : list Term) (pseudo : K) (N : nat) : tout (list (option K)) :=
    match project screen (ranks N 1) (Some lhbar) with
    | TOk r => TOk (vector (S N) ((0, pseudo) :: r))
    | TNull => TNull
    | TAssert => TAssert
    end.
End Ccm.
