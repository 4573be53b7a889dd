(** * Model of the swap counters, SeQuant/core/utility/swap.hpp, with threads

    A counter per thread and type of object ([static thread_local], swap.hpp:44-47). Threads and types are
    numbers. The payloads of the swaps are not modelled. A step of a trace is one access to a counter, made
    by a thread; steps of different threads are interleaved in any way. *)
From Coq Require Import List Arith Bool.
Import ListNotations.

(** What a thread calls: [swap] of wrapped objects, [counted_swap] or [count_swap] (swap.hpp:63-66, 93-98, 121-126,
    142-147), [reset_ts_swap_counter] (swap.hpp:132-135). *)
Inductive call := Swap (ty : nat) | Reset (ty : nat).

(** The accesses: [toggle], swap.hpp:54, loads and then stores. *)
Inductive access := Load (ty : nat) | StoreNot (ty : nat) | StoreTrue (ty : nat).
Definition accesses (c : call) : list access :=
  match c with
  | Swap ty => [Load ty; StoreNot ty]
  | Reset ty => [StoreTrue ty]
  end.

(** A thread's counters and the value it loaded last. *)
Record tstate := { even : nat -> bool; loaded : bool }.
(** The constructor, swap.hpp:43. *)
Definition initial : tstate := {| even := fun _ => true; loaded := true |}.
Definition set (ty : nat) (b : bool) (s : tstate) : tstate :=
  {| even := fun x => if x =? ty then b else even s x; loaded := loaded s |}.
Definition access_step (s : tstate) (a : access) : tstate :=
  match a with
  | Load ty => {| even := even s; loaded := even s ty |}
  | StoreNot ty => set ty (negb (loaded s)) s
  | StoreTrue ty => set ty true s
  end.

(** All threads: [thread_instance] is that of the thread. *)
Definition step (g : nat -> tstate) (x : nat * access) : nat -> tstate :=
  fun t => if t =? fst x then access_step (g t) (snd x) else g t.
Definition run (tr : list (nat * access)) : nat -> tstate := fold_left step tr (fun _ => initial).

(** [ts_swap_counter_is_even], swap.hpp:137-140. *)
Definition is_even (t ty : nat) (g : nat -> tstate) : bool := even (g t) ty.
