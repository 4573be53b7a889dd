(** * Models of the threaded algorithms and of the singleton

    Sources: SeQuant/core/runtime.hpp (the implementation by threads, used when
    the header <execution> is missing), SeQuant/core/utility/singleton.hpp.

    Threads are interleaved step by step; what is one step is said at each
    machine.  A schedule is the list of the threads that are asked to make a
    step; a thread that cannot make one (it has finished or waits for a mutex)
    leaves the state unchanged.  The calling thread, which works as the last of
    the threads, and the moments at which the others are started are not told
    apart: a thread that has not been started yet is one that the schedule
    does not mention for a while. *)

From Coq Require Import List Arith Bool ZArith.
Import ListNotations.

Definition put {A} (i : nat) (a : A) (l : list A) : list A :=
  firstn i l ++ match skipn i l with [] => [] | _ :: t => a :: t end.

(** ** 1. The number of threads, runtime.hpp:27-51 *)

(** nthreads_accessor, 27-39: [env] is the value of SEQUANT_NUM_THREADS read as
    an unsigned number, if set, [hw] is std::thread::hardware_concurrency().
    Simplification: numbers that do not fit an int are not considered. *)
Definition init_nthreads (env : option nat) (hw : nat) : Z :=
  match env with
  | Some n => Z.of_nat n
  | None => if 0 <? hw then Z.of_nat hw else 1%Z
  end.
(** set_num_threads, 43-46: [None] is the exception *)
Definition set_num_threads (nt : Z) : option Z :=
  if (nt <? 1)%Z then None else Some nt.
(** num_threads after a history of calls of set_num_threads (failed calls
    leave the number alone) *)
Definition num_threads (env : option nat) (hw : nat) (sets : list Z) : Z :=
  fold_left (fun n nt => match set_num_threads nt with Some m => m | None => n end)
            sets (init_nthreads env hw).

(** ** 2. parallel_do, runtime.hpp:63-75

    The function object that each thread receives.  A std::thread stores a
    decayed copy of its argument, constructed from std::forward<Lambda>: from an
    lvalue it is a copy, from an rvalue the object is moved, which leaves
    [moved lambda] behind.  The last call is made on the object itself. *)
Section ParallelDo.
Variable L : Type.
Variable moved : L -> L.
Fixpoint parallel_do (rvalue : bool) (nthreads thread_id : nat) (lambda : L)
  : list (nat * L) :=
  match nthreads with
  | 0 => []
  | 1 => [(thread_id, lambda)]
  | S n => (thread_id, lambda)
             :: parallel_do rvalue n (S thread_id)
                            (if rvalue then moved lambda else lambda)
  end.
End ParallelDo.

(** ** 3. for_each, runtime.hpp:90-121

    The range is known by its size [n]; an iterator is a position in it.
    Steps: the fetch_add together with the comparison of the number it returns,
    which is local (102-103, 107), and std::advance (104); the beginning of
    op( *it ) (105); its end. *)
Inductive fworker : Type :=
| FFetch (it prev_task_id : nat)
| FReady (task_id it : nat)
| FBusy (task_id it : nat)
| FDone.
Inductive event : Type := Begin (pos : nat) | End (pos : nat).
Record fconf : Type := mkF { f_work : nat; f_workers : list fworker; f_log : list event }.

Definition fstep (n : nat) (i : nat) (c : fconf) : fconf :=
  match nth_error (f_workers c) i with
  | Some (FFetch it prev) =>
      let task_id := f_work c in
      mkF (S (f_work c))
          (put i (if task_id <? n then FReady task_id (it + (task_id - prev)) else FDone)
               (f_workers c))
          (f_log c)
  | Some (FReady k it) =>
      mkF (f_work c) (put i (FBusy k it) (f_workers c)) (f_log c ++ [Begin it])
  | Some (FBusy k it) =>
      mkF (f_work c) (put i (FFetch it k) (f_workers c)) (f_log c ++ [End it])
  | Some FDone | None => c
  end.
Definition finit (nthreads : nat) : fconf := mkF 0 (repeat (FFetch 0 0) nthreads) [].
Definition for_each (n nthreads : nat) (sched : list nat) : fconf :=
  fold_left (fun c i => fstep n i c) sched (finit nthreads).
(** for_each returns when all threads have finished and are joined (118-119) *)
Definition fdone (c : fconf) : Prop := forall w, In w (f_workers c) -> w = FDone.
Definition begun (c : fconf) : list nat :=
  flat_map (fun e => match e with Begin p => [p] | End _ => [] end) (f_log c).
Definition ended (c : fconf) : list nat :=
  flat_map (fun e => match e with End p => [p] | Begin _ => [] end) (f_log c).

(** ** 4. transform_reduce, runtime.hpp:138-178

    Steps: fetch_add and comparison (151-152, 159); rng[task_id] and map
    (153-154); locking (156); reading [result]; reduce, writing [result] and
    unlocking (157-158).

    The tasks of transform_sum_expr (expressions/sum.hpp:400-427) and of
    WickTheorem::compute for sums (wick.impl.hpp:786-796), run by for_each,
    have the same steps: [reduce] is the append to the accumulator made while
    the mutex is held. *)
Section TransformReduce.
Variables (A B T : Type).
Variable rng : list A.
Variable map_ : A -> B.
Variable reduce : T -> B -> T.

Inductive tworker : Type :=
| TFetch
| TMap (x : A)
| TLock (b : B)
| TRead (b : B)
| TWrite (b : B) (read : T)
| TDone.
Record tconf : Type := mkT {
  t_work : nat; t_lock : option nat; t_result : T; t_workers : list tworker }.

Definition tstep (i : nat) (c : tconf) : tconf :=
  let go w := put i w (t_workers c) in
  match nth_error (t_workers c) i with
  | Some TFetch =>
      mkT (S (t_work c)) (t_lock c) (t_result c)
          (go (match nth_error rng (t_work c) with Some x => TMap x | None => TDone end))
  | Some (TMap x) => mkT (t_work c) (t_lock c) (t_result c) (go (TLock (map_ x)))
  | Some (TLock b) =>
      match t_lock c with
      | None => mkT (t_work c) (Some i) (t_result c) (go (TRead b))
      | Some _ => c
      end
  | Some (TRead b) => mkT (t_work c) (t_lock c) (t_result c) (go (TWrite b (t_result c)))
  | Some (TWrite b r) => mkT (t_work c) None (reduce r b) (go TFetch)
  | Some TDone | None => c
  end.
Definition tinit (init : T) (nthreads : nat) : tconf :=
  mkT 0 None init (repeat TFetch nthreads).
Definition transform_reduce (init : T) (nthreads : nat) (sched : list nat) : tconf :=
  fold_left (fun c i => tstep i c) sched (tinit init nthreads).
Definition tdone (c : tconf) : Prop := forall w, In w (t_workers c) -> w = TDone.
End TransformReduce.
Arguments TFetch {A B T}.
Arguments TMap {A B T} x.
Arguments TLock {A B T} b.
Arguments TRead {A B T} b.
Arguments TWrite {A B T} b read.
Arguments TDone {A B T}.
Arguments mkT {A B T} t_work t_lock t_result t_workers.
Arguments t_work {A B T} _.
Arguments t_lock {A B T} _.
Arguments t_result {A B T} _.
Arguments t_workers {A B T} _.
Arguments tdone {A B T} _.
Arguments tinit {A B T} _ _.

(** ** 5. Singleton, utility/singleton.hpp:41-130

    An activity is one call; a thread that makes several calls is several
    activities, one after the other.  Objects are numbered in the order in
    which they are constructed; [x_made] keeps the arguments they were made
    with ([None]: the default constructor).  Steps: the read of the pointer
    outside of the mutex (61, 62); locking, together with the test made while
    the mutex is held (89-92, 123-124); construction (94, 125); the assignment
    of the pointer, together with unlocking (93-96, 125-127).  Constructors
    that throw and instance_ptr (which does not compile for a
    default-constructible class, as it returns a reference as a pointer) are
    not modelled. *)
Inductive act : Type :=
| XInstance                       (** before a call of instance() *)
| XSet (a : nat)                  (** before a call of set_instance(a) *)
| XDefault                        (** read a null pointer, before locking *)
| XMake (arg : option nat)        (** holds the mutex, before the construction *)
| XAssign (arg : option nat) (o : nat) (** holds the mutex, before the assignment *)
| XGot (arg : option nat) (o : nat) (made : bool) (** has returned a reference to [o] *)
| XThrew.                         (** has thrown *)
Record xconf : Type := mkX {
  x_ptr : option nat; x_lock : option nat; x_made : list (option nat); x_acts : list act }.

(** [dc]: the class is default-constructible *)
Definition xstep (dc : bool) (i : nat) (c : xconf) : xconf :=
  let go a := put i a (x_acts c) in
  match nth_error (x_acts c) i with
  | Some XInstance =>
      mkX (x_ptr c) (x_lock c) (x_made c)
          (go (match x_ptr c with
               | Some o => XGot None o false
               | None => if dc then XDefault else XThrew
               end))
  | Some XDefault =>
      match x_lock c with
      | Some _ => c
      | None =>
          match x_ptr c with
          | Some o => mkX (x_ptr c) None (x_made c) (go (XGot None o false))
          | None => mkX (x_ptr c) (Some i) (x_made c) (go (XMake None))
          end
      end
  | Some (XSet a) =>
      match x_lock c with
      | Some _ => c
      | None =>
          match x_ptr c with
          | Some _ => mkX (x_ptr c) None (x_made c) (go XThrew)
          | None => mkX (x_ptr c) (Some i) (x_made c) (go (XMake (Some a)))
          end
      end
  | Some (XMake arg) =>
      mkX (x_ptr c) (x_lock c) (x_made c ++ [arg]) (go (XAssign arg (length (x_made c))))
  | Some (XAssign arg o) => mkX (Some o) None (x_made c) (go (XGot arg o true))
  | Some (XGot _ _ _) | Some XThrew | None => c
  end.
Definition xinit (calls : list act) : xconf := mkX None None [] calls.
Definition singleton (dc : bool) (calls : list act) (sched : list nat) : xconf :=
  fold_left (fun c i => xstep dc i c) sched (xinit calls).
(** calls of instance() and set_instance() *)
Definition is_call (a : act) : Prop :=
  match a with XInstance | XSet _ => True | _ => False end.

(** The access to the pointer that an activity makes in its next step: [true]
    is a write.  The pointer is a std::unique_ptr, not an atomic object, so two
    accesses by two threads that may happen at the same time, one of them a
    write, are undefined behaviour. *)
Definition next_access (c : xconf) (i : nat) : option bool :=
  match nth_error (x_acts c) i with
  | Some XInstance => Some false
  | Some XDefault | Some (XSet _) =>
      match x_lock c with None => Some false | Some _ => None end
  | Some (XAssign _ _) => Some true
  | _ => None
  end.
Definition race (c : xconf) : Prop :=
  exists i j b, i <> j /\ next_access c i = Some true /\ next_access c j = Some b.
