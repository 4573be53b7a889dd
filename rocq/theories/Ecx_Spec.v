(** * Specification of the strategies: what a history of calls has set

    Histories are read backwards: the most recent call comes first. *)
From Coq Require Import List Arith Bool.
From Verif Require Import Ecx_Model.
Import ListNotations.

Section EcxSpec.
  Context {X : Type} (xeqb : X -> X -> bool) (global : nat).

  (** The current expression. *)
  Fixpoint current_in (h : list (call X)) : option nat :=
    match h with
    | [] => None
    | SetCurrent id :: _ => id
    | _ :: h' => current_in h'
    end.
  (** The expression a call is for: the given one, or else the current one, or else all. *)
  Definition scope (id : option nat) (h : list (call X)) : nat :=
    match id, current_in h with Some n, _ => n | None, Some n => n | None, None => global end.

  (** The strategy set last for [x] in the scope [n]. *)
  Fixpoint last_load (n : nat) (x : X) (h : list (call X)) : option load_strategy :=
    match h with
    | [] => None
    | SetLoad y l id :: h' => if (scope id h' =? n) && xeqb y x then Some l else last_load n x h'
    | _ :: h' => last_load n x h'
    end.
  Fixpoint last_zero (n : nat) (x : X) (h : list (call X)) : option zero_strategy :=
    match h with
    | [] => None
    | SetZero y z id :: h' => if (scope id h' =? n) && xeqb y x then Some z else last_zero n x h'
    | _ :: h' => last_zero n x h'
    end.

  (** What the scope [n] says about [x], given the map of the constructor: nothing, or a strategy that is a
      default if only the other one has been set. *)
  Definition load_in (m : X -> option pair) (n : nat) (x : X) (h : list (call X)) : option load_strategy :=
    match last_load n x h, (if n =? global then m x else None), last_zero n x h with
    | Some l, _, _ => Some l
    | None, Some p, _ => Some (load p)
    | None, None, Some _ => Some Create
    | None, None, None => None
    end.
  Definition zero_in (m : X -> option pair) (n : nat) (x : X) (h : list (call X)) : option zero_strategy :=
    match last_zero n x h, (if n =? global then m x else None), last_load n x h with
    | Some z, _, _ => Some z
    | None, Some p, _ => Some (zero p)
    | None, None, Some _ => Some ZeroOnCreate
    | None, None, None => None
    end.

  (** What is set for all expressions comes first, then what is set for the current one, then the default. *)
  Definition choose {S : Type} (f : nat -> option S) (cur : option nat) (d : S) : S :=
    match f global with
    | Some s => s
    | None => match cur with
              | Some n => match f n with Some s => s | None => d end
              | None => d
              end
    end.
End EcxSpec.
