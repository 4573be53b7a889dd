(** * Specification of the swap counters *)
From Coq Require Import List Arith.
From Verif Require Import Swc_Model.
Import ListNotations.

(** The swaps of objects of a type after the last reset. *)
Definition since_reset (ty : nat) (cs : list call) : nat :=
  fold_left (fun n c => match c with
                        | Swap x => if x =? ty then S n else n
                        | Reset x => if x =? ty then 0 else n
                        end) cs 0.

(** The accesses of a thread in a trace. *)
Definition of_thread (t : nat) (tr : list (nat * access)) : list access :=
  map snd (filter (fun x => fst x =? t) tr).
