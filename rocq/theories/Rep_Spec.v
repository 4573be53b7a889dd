(** * Specification of transforming and replacing

    An expression has a value for every value of its atoms, in any commutative ring. *)
From Coq Require Import List.
From Verif Require Import Rep_Model.
Import ListNotations.

Section RepSpec.
  Context {I L V K : Type} (kzero kone : K) (kadd kmul : K -> K -> K).
  Notation atom := (atom I L V K).
  Notation rex := (rex I L V K).

  (** The value of an expression, given those of the atoms. *)
  Fixpoint value (av : atom -> K) (e : rex) : K :=
    match e with
    | RAtom a => av a
    | RProd k fs => kmul k (fold_right (fun x r => kmul (value av x) r) kone fs)
    | RSum l => fold_right (fun x r => kadd (value av x) r) kzero l
    end.

  (** Constants have their own values. *)
  Definition valuation (av : atom -> K) : Prop := forall k, av (AConst k) = k.

  (** The atom with its indices renamed. *)
  Definition rename (f : I -> option I) (a : atom) : atom :=
    match a with
    | ATensor l s => ATensor l (map (fun x => match x with Some i => f i | None => None end) s)
    | _ => a
    end.

  (** Expressions whose products have only atoms as factors. *)
  Inductive flat : rex -> Prop :=
  | flat_atom a : flat (RAtom a)
  | flat_prod k fs : Forall (fun x => exists a, x = RAtom a) fs -> flat (RProd k fs)
  | flat_sum l : Forall flat l -> flat (RSum l).

  (** The renaming that takes the indices of the target to those in the same slots of the match, and leaves
      the others. *)
  Definition takes (ts cs : list (option I)) (f : I -> option I) : Prop :=
    (forall p i x, nth_error ts p = Some (Some i) -> nth_error cs p = Some x -> f i = x) /\
    (forall i, ~ In (Some i) ts -> f i = Some i).

  (** The tensor with these slots, or none. *)
  Definition slots_of (a : atom) : list (option I) := match a with ATensor _ s => s | _ => [] end.
End RepSpec.
