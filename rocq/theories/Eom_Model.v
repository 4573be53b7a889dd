(** * Model of the equations of motion in SeQuant/domain/mbpt/models/cc.cpp: CC::eom_r and CC::eom_l, with the
    operators R and L of SeQuant/domain/mbpt/op.cpp

    Parameter: [av comps p h], the expectation value of the transformed Hamiltonian with the operator that has the
    components [comps], projected on [p] particles and [h] holes ([ref_av], C150-C151). A component is the pair of
    its numbers of particles and holes. The numbers are signed as in the code (op.hpp:77-78); no overflow. *)
From Coq Require Import List Arith Bool ZArith.
From Verif Require Import Ccm_Model.
Import ListNotations.
Open Scope Z_scope.

(** [ELoop] is a loop that did not end within its fuel, [EThrow] is [vector::at] out of range. *)
Inductive eout (A : Type) := EOk (a : A) | EAssert | ENull | EThrow | ELoop.
Arguments EOk {A}. Arguments EAssert {A}. Arguments ENull {A}. Arguments EThrow {A}. Arguments ELoop {A}.

(** The loops of op.cpp:1223-1230, 1245-1252 and cc.cpp:399-409, 444-453: the pairs visited. *)
Fixpoint ladder (fuel : nat) (a b : Z) : option (list (Z * Z)) :=
  match fuel with
  | O => None
  | S f =>
      if (0 <=? a) && (0 <=? b) then
        if (a =? 0) && (b =? 0) then Some []
        else if (a =? 0) || (b =? 0) then Some [(a, b)]
        else match ladder f (a - 1) (b - 1) with
             | Some l => Some ((a, b) :: l)
             | None => None
             end
      else Some []
  end.

Definition fuel_of (a b : Z) : nat := S (Z.to_nat (Z.min a b)).

(** [R(np, nh)], op.cpp:1234-1237 and 1217-1232: annihilates [nh], creates [np]; [None] if the loop does not end. *)
Definition R (np nh : Z) : option (list (Z * Z)) :=
  match ladder (fuel_of nh np) nh np with
  | Some l => Some (map (fun x => (snd x, fst x)) l)
  | None => None
  end.

(** [L(np, nh)], op.cpp:1256-1259 and 1239-1254: annihilates [np], creates [nh]. *)
Definition L (np nh : Z) : option (list (Z * Z)) := ladder (fuel_of np nh) np nh.

Section Eom.
  Context {K : Type} (av : list (Z * Z) -> Z -> Z -> K).

  (** [CC::eom_r] ([left] false), cc.cpp:367-412, and [CC::eom_l] ([left] true), cc.cpp:414-456. An operator without
      components is a null pointer, and multiplying by it uses it. *)
  Definition eom (left unitary spinfree : bool) (np nh : Z) : eout (list (option K)) :=
    if left && unitary then EAssert
    else if negb ((0 <? np) || (0 <? nh)) then EAssert
    else if negb (np =? nh) && spinfree then EAssert
    else match (if left then L np nh else R np nh) with
         | None => ELoop
         | Some [] => ENull
         | Some comps =>
             match ladder (fuel_of np nh) np nh with
             | None => ELoop
             | Some ps =>
                 let n := Z.to_nat (Z.min np nh + 1) in
                 let r := map (fun x => (Z.to_nat (Z.min (fst x) (snd x)), av comps (fst x) (snd x))) ps in
                 if forallb (fun x => (fst x <? n)%nat) r then EOk (vector n r) else EThrow
             end
         end.
End Eom.
