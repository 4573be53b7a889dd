(** * Specification of normal operators: a sequence of creators and annihilators *)
From Coq Require Import List Arith Bool.
From Verif Require Import Hug_Model Hug_Spec Nop_Model.
Import ListNotations.

Section Spec.
  Context {Index : Type}.
  Notation op := (op Index).
  Notation ncall := (ncall Index).

  Definition count_creators (l : list op) : nat := length (filter creates l).
  Definition count_annihilators (l : list op) : nat := length (filter (fun o => negb (creates o)) l).
  (** All creators come before all annihilators. *)
  Definition normal_ordered (l : list op) : Prop :=
    exists c a, l = c ++ a /\ Forall (fun o => creates o = true) c /\ Forall (fun o => creates o = false) a.

  (** What a call does to the sequence; [None]: a position outside of it. *)
  Definition neffect (c : ncall) (l : list op) : option (list op) :=
    match c with
    | NIns i o => if i <=? length l then Some (firstn i l ++ o :: skipn i l) else None
    | NErs i => if i <? length l then Some (firstn i l ++ skipn (S i) l) else None
    | NAdj => Some (map (fun o => mkOp (negb (creates o)) (index o)) (rev l))
    | NTrf f => Some (map (fun o => mkOp (creates o) (fst (f (index o)))) l)
    | NHug | NHash => Some l
    end.
  Fixpoint neffects (cs : list ncall) (l : list op) : option (list op) :=
    match cs with
    | [] => Some l
    | c :: cs' => match neffect c l with Some l' => neffects cs' l' | None => None end
    end.

  (** Replacing indices keeps their types. *)
  Definition keeps_types (teq : Index -> Index -> bool) (c : ncall) : Prop :=
    match c with NTrf f => forall x, teq x (fst (f x)) = true | _ => True end.
  (** Replacing indices reports a change of an index. *)
  Definition reports (c : ncall) : Prop :=
    match c with NTrf f => forall x, snd (f x) = false -> fst (f x) = x | _ => True end.
  (** The call may memoize the hash; the call changes the length of the sequence. *)
  Definition hashes (c : ncall) : bool := match c with NHash => true | _ => false end.
  Definition resizes (c : ncall) : bool := match c with NIns _ _ | NErs _ => true | _ => false end.
End Spec.
