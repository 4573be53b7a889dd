(** Specification for C14. *)
From Coq Require Import List Arith Bool ZArith Permutation.
From Verif Require Import Idx_Model Bin_Model Bin_Spec Sto_Model Opt_Spec.
Import ListNotations.

Section Spec.
  Variable K : Type.
  Variable one : K.
  Variable find_label : nat -> option nat.
  (** how many tensors the optimiser accepts (24 in the code) *)
  Variable max : nat.

  (** the binary products of a contraction tree over the given factors *)
  Fixpoint tree_expr (ts : list (bex K)) (t : tree) : bex K :=
    match t with
    | Opt_Spec.Leaf i => nth i ts (Con one)
    | Opt_Spec.Node l r => Mul one [tree_expr ts l; tree_expr ts r]
    end.

  Definition nonscalar (e : bex K) : bool := negb (is_scalar K e).
  (** tensors of the user do not have the label of a placeholder *)
  Definition own_label (e : bex K) : Prop :=
    match e with
    | Ten t => match tkind t with Ordinary l => find_label l = None | _ => True end
    | _ => True
    end.
  (** What is asked of a product: a scalar factor that is a product has the scalar 1; with three or
      more factors, at least two and at most max are not scalars. Nothing is asked of nested factors. *)
  Definition good_product (l : list (bex K)) : Prop :=
    Forall own_label l /\
    (forall s m, In (Mul s m) l -> is_scalar K (Mul s m) = true -> s = one) /\
    (length l < 3 \/ 2 <= length (filter nonscalar l)) /\
    length (filter nonscalar l) <= max.
  Fixpoint good_expr (e : bex K) : Prop :=
    match e with
    | Mul _ l => good_product l
    | Add l => (fix go l := match l with [] => True | x :: l' => good_expr x /\ go l' end) l
    | _ => True
    end.
  (** The optimiser returns a contraction tree that uses each of the tensors once. *)
  Definition good_seq (seq_of : list (bex K) -> list Z) : Prop :=
    forall ts, 2 <= length ts <= max -> exists t, denotes (seq_of ts) t /\ over (length ts) t.
End Spec.
