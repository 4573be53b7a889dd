(** Models of the two functions that several threads may run at the same time: memoize
    (SeQuant/core/utility/memoize.hpp) and factorial (SeQuant/core/math.hpp). Whatever happens while the
    mutex is held is one step; everything else is interleaved freely. *)
From Coq Require Import List Bool Arith ZArith.
Import ListNotations.

(** * memoize *)
Section Memoize.
  Context {V : Type}.
  (** compute_fn, for each key. Simplification: keys are natural numbers (the order is all that matters). *)
  Variable f : nat -> V.
  (** How the capacity of the vector in a flat_map grows (boost::container::vector). *)
  Variable grow : nat -> nat.

  (** container::map is boost::container::flat_map (container.hpp:33), a sorted vector; an iterator or a
      reference is a position in a buffer. *)
  Definition cache := list (nat * option V).
  Record iter := mkiter { ibuf : nat; ipos : nat }.
  Fixpoint lower_bound (k : nat) (c : cache) : nat :=
    match c with [] => 0 | (k', _) :: c' => if k' <? k then S (lower_bound k c') else 0 end.
  Definition found (k : nat) (c : cache) : bool :=
    match nth_error c (lower_bound k c) with Some (k', _) => k' =? k | None => false end.
  Definition insert_at (p : nat) (x : nat * option V) (c : cache) : cache := firstn p c ++ x :: skipn p c.
  Definition replace_at (p : nat) (x : nat * option V) (c : cache) : cache := firstn p c ++ x :: skipn (S p) c.

  (** A call of memoize and the use of what it returns. A thread that makes several calls is several of
      these, one after the other. *)
  Inductive activity :=
    | Calling (k : nat)                 (** before the call *)
    | Waiting (k : nat) (it : iter)     (** blocked in cv.wait *)
    | Awake (k : nat) (it : iter)       (** woken up, about to evaluate the predicate of wait *)
    | Computing (k : nat)               (** in compute_fn *)
    | Storing (k : nat) (v : V)         (** before the second critical section *)
    | Holding (k : nat) (r : iter)      (** memoize has returned a reference *)
    | Saw (k : nat) (v : V)             (** the reference has been read *)
    | Failed (k : nat)                  (** compute_fn has thrown *)
    | Broken (k : nat).                 (** undefined behaviour: an invalid iterator or reference was used *)
  Record state := mkstate { buffer : nat; capacity : nat; elems : cache; acts : list activity; calls : list nat }.

  Definition set_act (i : nat) (x : activity) (l : list activity) : list activity := firstn i l ++ x :: skipn (S i) l.
  (** What an iterator points to: nothing if the vector has been reallocated since. *)
  Definition deref (s : state) (it : iter) : option (nat * option V) :=
    if ibuf it =? buffer s then nth_error (elems s) (ipos it) else None.
  (** Insertion: reallocation if the vector is full. *)
  Definition insertion (s : state) (p : nat) (x : nat * option V) : nat * nat * cache :=
    let full := length (elems s) =? capacity s in
    (if full then S (buffer s) else buffer s, if full then grow (capacity s) else capacity s, insert_at p x (elems s)).
  Definition woken (a : activity) : activity := match a with Waiting k it => Awake k it | _ => a end.

  (** One step of activity [i]; None if it has none. [b]: whether compute_fn throws; whether a waiting
      thread wakes up without being notified. *)
  Definition step (s : state) (i : nat) (b : bool) : option state :=
    match nth_error (acts s) i with
    | Some (Calling k) =>
        (* memoize.hpp:32-46: try_emplace, and the first test of the predicate *)
        let p := lower_bound k (elems s) in
        if found k (elems s) then
          let it := mkiter (buffer s) p in
          match nth_error (elems s) p with
          | Some (_, Some _) => Some (mkstate (buffer s) (capacity s) (elems s) (set_act i (Holding k it) (acts s)) (calls s))
          | _ => Some (mkstate (buffer s) (capacity s) (elems s) (set_act i (Waiting k it) (acts s)) (calls s))
          end
        else
          let '(buf, cap, c) := insertion s p (k, None) in
          Some (mkstate buf cap c (set_act i (Computing k) (acts s)) (k :: calls s))
    | Some (Computing k) =>
        (* 48 *)
        Some (mkstate (buffer s) (capacity s) (elems s) (set_act i (if b then Failed k else Storing k (f k)) (acts s)) (calls s))
    | Some (Storing k v) =>
        (* 50-55: cache[key] = result; notify_all; return cache[key].value() *)
        let p := lower_bound k (elems s) in
        let '(buf, cap, c) :=
          if found k (elems s) then (buffer s, capacity s, replace_at p (k, Some v) (elems s)) else insertion s p (k, Some v) in
        Some (mkstate buf cap c (set_act i (Holding k (mkiter buf p)) (map woken (acts s))) (calls s))
    | Some (Waiting k it) =>
        if b then Some (mkstate (buffer s) (capacity s) (elems s) (set_act i (Awake k it) (acts s)) (calls s)) else None
    | Some (Awake k it) =>
        (* 43: the predicate; 44: return it->second.value() *)
        let a := match deref s it with
                 | None => Broken k
                 | Some (_, None) => Waiting k it
                 | Some (_, Some _) => Holding k it
                 end in
        Some (mkstate (buffer s) (capacity s) (elems s) (set_act i a (acts s)) (calls s))
    | Some (Holding k r) =>
        (* the caller reads the value *)
        let a := match deref s r with Some (_, Some v) => Saw k v | _ => Broken k end in
        Some (mkstate (buffer s) (capacity s) (elems s) (set_act i a (acts s)) (calls s))
    | _ => None
    end.
  Fixpoint run (s : state) (l : list (nat * bool)) : option state :=
    match l with [] => Some s | (i, b) :: l' => match step s i b with Some s' => run s' l' | None => None end end.
  (** An empty cache, and calls for the given keys. *)
  Definition start (ks : list nat) : state := mkstate 0 0 [] (map Calling ks) [].
End Memoize.

(** * factorial *)
Section Factorial.
  Local Open Scope Z_scope.
  (** math.hpp:31-52 *)
  Definition table : list Z :=
    [1; 1; 2; 6; 24; 120; 720; 5040; 40320; 362880; 3628800; 39916800; 479001600; 6227020800; 87178291200;
     1307674368000; 20922789888000; 355687428096000; 6402373705728000; 121645100408832000; 2432902008176640000].
  Definition n_max : nat := 20.
  (** 93-97: the loop that appends; [m] rounds *)
  Fixpoint extended (m : nat) (l : list Z) : list Z :=
    match m with
    | O => l
    | S m' => let i := length l in
        extended m' (l ++ [(match i with O => nth n_max table 0 | _ => last l 0 end) * Z.of_nat (i + n_max + 1)])
    end.
  (** A call of factorial *)
  Inductive fcall :=
    | Fstart (n : nat)
    | Fwait (n : nat)                   (** the table did not have the value; about to lock *)
    | Flocked (n : nat)                 (** holds the mutex, about to load the table *)
    | Fbuilt (n : nat) (l : list Z)     (** holds the mutex and has built the longer table *)
    | Fstored (n : nat) (l : list Z)    (** has stored it, still holds the mutex *)
    | Freturned (n : nat) (z : Z).
  Record fstate := mkfstate { memvals : option (list Z); locked : bool; fcalls : list fcall }.
  Definition set_call (i : nat) (x : fcall) (l : list fcall) : list fcall := firstn i l ++ x :: skipn (S i) l.
  Definition known (m : option (list Z)) (j : nat) : option Z := match m with Some l => nth_error l j | None => None end.

  Definition fstep (s : fstate) (i : nat) : option fstate :=
    match nth_error (fcalls s) i with
    | Some (Fstart n) =>
        if Nat.leb n n_max then Some (mkfstate (memvals s) (locked s) (set_call i (Freturned n (nth n table 0)) (fcalls s)))
        else match known (memvals s) (n - n_max - 1) with
             | Some z => Some (mkfstate (memvals s) (locked s) (set_call i (Freturned n z) (fcalls s)))
             | None => Some (mkfstate (memvals s) (locked s) (set_call i (Fwait n) (fcalls s)))
             end
    | Some (Fwait n) => if locked s then None else Some (mkfstate (memvals s) true (set_call i (Flocked n) (fcalls s)))
    | Some (Flocked n) =>
        match known (memvals s) (n - n_max - 1) with
        | Some z => Some (mkfstate (memvals s) false (set_call i (Freturned n z) (fcalls s)))
        | None => let old := match memvals s with Some l => l | None => [] end in
            Some (mkfstate (memvals s) (locked s) (set_call i (Fbuilt n (extended (n - n_max - length old) old)) (fcalls s)))
        end
    | Some (Fbuilt n l) => Some (mkfstate (Some l) (locked s) (set_call i (Fstored n l) (fcalls s)))
    | Some (Fstored n l) => Some (mkfstate (memvals s) false (set_call i (Freturned n (nth (n - n_max - 1) l 0)) (fcalls s)))
    | _ => None
    end.
  Fixpoint frun (s : fstate) (l : list nat) : option fstate :=
    match l with [] => Some s | i :: l' => match fstep s i with Some s' => frun s' l' | None => None end end.
  Definition fbegin (ns : list nat) : fstate := mkfstate None false (map Fstart ns).
End Factorial.
