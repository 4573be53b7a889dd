(** What the canonicalization of sums is measured against: the value of a sum of tensor networks, and
    when two sums are the same. *)
From Coq Require Import ZArith List Arith Bool Permutation Ring.
From Verif Require Import Tsr_Model Tsr_Spec Net_Model Net_Spec Can_Model.
Import ListNotations.

Section Sums.
  Context {K : cring}.
  (** The named indices that are given, if any; otherwise in each term those that occur once. *)
  Variable given : option (list index).

  (** ** Values *)
  Section Value.
    Context {D : Type}.
    Variable range : space -> list D.
    Variable E : list Z -> symmetry -> bksymmetry -> colsymmetry -> list D -> list D -> list D -> K.
    Variable W : variable -> K.

    Definition summed (N : list tensor) : list index :=
      nodup index_eq_dec (filter (fun i => if in_dec index_eq_dec i (named_indices given N) then false else true) (indices N)).
    (** The value of a network: the sum over its dummy indices. *)
    Definition network_value (N : list tensor) (a : index -> D) : K := total range (summed N) (product E N) a.
    Definition summand_value (a : index -> D) (x : summand K) : K :=
      match x with
      | SProd c fs => rmul c (rmul (fold_right rmul r1 (map W (vars fs))) (network_value (tensors fs) a))
      | STen t => network_value [t] a
      end.
    Definition sum_value (l : list (summand K)) (a : index -> D) : K := fold_right radd r0 (map (summand_value a) l).
  End Value.

  (** ** Sums that are the same

      The terms may be in any order; a term may be written as another one with the same variables and an
      equivalent network; terms with the same factors may be added; terms with coefficient 0 may be
      dropped. All sums on the way consist of terms with the property [P]. *)
  Variable P : summand K -> Prop.
  Inductive same_sum : list (summand K) -> list (summand K) -> Prop :=
  | ss_refl l : same_sum l l
  | ss_sym l m : same_sum l m -> same_sum m l
  | ss_trans l m n : Forall P m -> same_sum l m -> same_sum m n -> same_sum l n
  | ss_order l m : Permutation l m -> same_sum l m
  | ss_term c fs gs s l : Permutation (vars fs) (vars gs) ->
      equivalent (named_indices given (tensors fs)) (tensors fs) (tensors gs) s ->
      same_sum (SProd c fs :: l) (SProd (signed s c) gs :: l)
  | ss_add c d fs l : same_sum (SProd c fs :: SProd d fs :: l) (SProd (radd c d) fs :: l)
  | ss_zero fs l : same_sum (SProd r0 fs :: l) l
  | ss_lone t l : same_sum (STen t :: l) (SProd r1 [FTen t] :: l).
End Sums.
