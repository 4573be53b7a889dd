(** Model of the generation optimizer (SeQuant/core/export/generation_optimizer.hpp).

    Objects (Tensor or Variable, 27) are numbers: two objects are the same number when
    [object_equals] (180-195) holds, that is, when they are the same block under the comparator
    installed by [begin_expression] (450-454). That the comparator is an equivalence is assumed.
    An expression handed to [compute] is a list of numbers that describes it, together with the list of
    objects it reads.
    The wrapped generator is modelled by the list of the calls it receives for one expression; the
    pass-through calls (460-486) are not modelled. *)
From Coq Require Import List Arith Bool.
Import ListNotations.

Definition obj := nat.
(** OperationType (29-38) and the data of the operation classes (198-342) *)
Inductive op : Type :=
| Create (o : obj) (zero_init : bool)
| Load (o : obj)
| LoadAndZero (o : obj)
| Zero (o : obj)
| Unload (o : obj)
| Destroy (o : obj)
| Persist (o : obj)
| Compute (result : obj) (expr : list nat) (args : list obj).

(** m_object (178) *)
Definition object (x : op) : obj :=
  match x with
  | Create o _ | Load o | LoadAndZero o | Zero o | Unload o | Destroy o | Persist o => o
  | Compute r _ _ => r
  end.

(** cancels (62-74) *)
Definition cancels (x y : op) : bool :=
  match x, y with
  | Load a, Unload b | Unload a, Load b => Nat.eqb a b
  | _, _ => false
  end.

(** MemoryAction (40-44), memory_action (107-123) *)
Inductive action : Type := Deallocate | NoAction | Allocate.
Definition memory_action (x : op) : action :=
  match x with
  | Create _ _ | Load _ | LoadAndZero _ => Allocate
  | Unload _ | Destroy _ | Persist _ => Deallocate
  | Zero _ | Compute _ _ _ => NoAction
  end.

(** pairs_with (76-105) *)
Definition pairs_with (x y : op) : bool :=
  Nat.eqb (object x) (object y) &&
  match x with
  | Create _ _ | Load _ | LoadAndZero _ =>
      match y with Destroy _ | Persist _ | Unload _ => true | _ => false end
  | Unload _ | Destroy _ | Persist _ =>
      match y with Create _ _ | Load _ | LoadAndZero _ => true | _ => false end
  | Zero _ | Compute _ _ _ => false
  end.

(** What can happen: the calls made to the wrapped generator, a failed assertion, an exception from
    [at], undefined behaviour, or the fuel of a loop being used up (which Gen_Proofs shows cannot
    happen). *)
Inductive res (A : Type) : Type :=
| Done (a : A)
| AssertionFailed
| OutOfRange
| Undefined
| OutOfFuel.
Arguments Done {A} _.
Arguments AssertionFailed {A}.
Arguments OutOfRange {A}.
Arguments Undefined {A}.
Arguments OutOfFuel {A}.
Definition bind {A B} (x : res A) (f : A -> res B) : res B :=
  match x with
  | Done a => f a
  | AssertionFailed => AssertionFailed
  | OutOfRange => OutOfRange
  | Undefined => Undefined
  | OutOfFuel => OutOfFuel
  end.

Section Checked.
(** SEQUANT_ASSERT either stops the program or, in the default build that is not a debug build
    (CMakeLists.txt:140-144), does nothing *)
Variable checked : bool.
Definition assert (b : bool) {A} (k : res A) : res A := if checked && negb b then AssertionFailed else k.

(** vector::erase of one position *)
Fixpoint erase {A} (i : nat) (l : list A) : list A :=
  match l, i with
  | [], _ => []
  | _ :: l', 0 => l'
  | x :: l', S i' => x :: erase i' l'
  end.
(** assignment to one position *)
Fixpoint put {A} (i : nat) (x : A) (l : list A) : list A :=
  match l, i with
  | [], _ => []
  | _ :: l', 0 => x :: l'
  | y :: l', S i' => y :: put i' x l'
  end.

(** the first loop of process_operation_queue (534-543). [i - 2] and [-1] are values of size_t, so
    the maximum (541) is always the largest value, and the increment makes the next [i] zero. With an
    empty queue [size() - 1] is the largest value and [m_queue[0]] (535) is undefined. *)
Fixpoint cancel_loop (fuel i : nat) (q : list op) : res (list op) :=
  match fuel with
  | 0 => OutOfFuel
  | S fuel' =>
      match q with
      | [] => Undefined
      | _ :: _ =>
          if i <? length q - 1 then
            match nth_error q i, nth_error q (S i) with
            | Some x, Some y =>
                if cancels x y then cancel_loop fuel' 0 (erase i (erase (S i) q))
                else cancel_loop fuel' (S i) q
            | _, _ => Undefined
            end
          else Done q
      end
  end.
Definition cancel_fuel (q : list op) : nat := S (length q * S (length q)).

(** the inner loop of the second loop (559-585): the position after i of the first partner *)
Fixpoint partner (x : op) (k : nat) (rest : list op) : option nat :=
  match rest with
  | [] => None
  | y :: rest' => if pairs_with x y then Some k else partner x (S k) rest'
  end.
(** the second loop (556-586); [base] is m_cache.size(). The first assertion is on the first
    components, the second on the second ones. The text printed before it (570-576) is not modelled,
    except that [m_cache.at] (574-575) throws when the clashing pair was made from the same queue,
    because those operations are not in m_cache yet. *)
Fixpoint pair_loop (base i : nat) (q : list op) (paired : list (nat * nat)) : res (list (nat * nat)) :=
  match q with
  | [] => Done paired
  | x :: q' =>
      match partner x (S i) q' with
      | None => pair_loop base (S i) q' paired
      | Some k =>
          assert (negb (existsb (fun p => Nat.eqb (fst p) (base + i)) paired))
            (match find (fun p => Nat.eqb (snd p) (base + k)) paired with
             | Some p => if (fst p <? base) && (snd p <? base)
                         then assert false (pair_loop base (S i) q' (paired ++ [(base + i, base + k)]))
                         else OutOfRange
             | None => pair_loop base (S i) q' (paired ++ [(base + i, base + k)])
             end)
      end
  end.

(** the members m_queue, m_cache and m_paired (490-492) *)
Record state : Type := mkState { queue : list op; cache : list op; paired : list (nat * nat) }.

(** process_operation_queue (530-591) *)
Definition process_queue (s : state) : res state :=
  bind (cancel_loop (cancel_fuel (queue s)) 0 (queue s)) (fun q =>
  match q with
  | [] => Undefined
  | _ :: _ =>
      bind (pair_loop (length (cache s)) 0 q (paired s)) (fun p =>
      Done (mkState [] (cache s ++ q) p))
  end).

(** find_unpaired_allocation (495-528), on the operations in the order in which they are visited
    (backwards); the result is the number of operations skipped. The head of [st] is the top of the
    stack. *)
Fixpoint find_unpaired (skipped : nat) (st : list op) (l : list op) : option nat :=
  match l with
  | [] => None
  | x :: l' =>
      match memory_action x with
      | Deallocate => find_unpaired (S skipped) (x :: st) l'
      | NoAction => find_unpaired (S skipped) st l'
      | Allocate =>
          match st with
          | d :: st' => if pairs_with x d then find_unpaired (S skipped) st' l' else Some skipped
          | [] => Some skipped
          end
      end
  end.
(** the position in the cache of the allocation found when starting just before position n *)
Definition allocation_before (c : list op) (n : nat) : option nat :=
  match find_unpaired 0 [] (rev (firstn n c)) with
  | Some k => Some (n - 1 - k)
  | None => None
  end.

Definition is_allocate (x : op) : bool := match memory_action x with Allocate => true | _ => false end.
Definition is_deallocate (x : op) : bool := match memory_action x with Deallocate => true | _ => false end.
Definition is_none (x : op) : bool := match memory_action x with NoAction => true | _ => false end.

(** one iteration of the loop of optimize_operation_cache (604-678): the new cache and the number of
    erased operations. Subtractions are on size_t: when [first_idx < erased] the difference is
    larger than any size and [at] throws. *)
Definition optimize_pair (c : list op) (erased : nat) (p : nat * nat) : res (list op * nat) :=
  let '(f0, s0) := p in
  assert (erased <=? f0) (assert (erased <=? s0)
    (if (f0 <? erased) || (s0 <? erased) then OutOfRange else
     let f := f0 - erased in
     let s := s0 - erased in
     assert (f <? length c) (assert (s <? length c) (assert (f <? s)
       (match nth_error c f, nth_error c s with
        | Some first, Some second =>
            assert (pairs_with first second)
              (if 2 <? s - f then Done (c, erased) else
               match nth_error c (S f) with
               | None => OutOfRange
               | Some inter =>
                   if is_none inter then Done (c, erased)
                   else if is_allocate inter then Done (c, erased)
                   else
                     assert (is_deallocate first)
                       (match allocation_before c f with
                        | None => assert false Undefined
                        | Some a1 =>
                            assert (match nth_error c a1 with Some x => pairs_with x first | None => false end)
                              (match allocation_before c a1 with
                               | None => assert false (if Nat.eqb a1 0 then OutOfRange else Done (c, erased))
                               | Some a2 =>
                                   assert (match nth_error c a2 with Some x => pairs_with x inter | None => false end)
                                     (assert (a2 <? a1)
                                        (if Nat.eqb (a1 - a2) 1 then
                                           match nth_error c a1, nth_error c a2 with
                                           | Some x1, Some x2 =>
                                               Done (erase f (erase s (put a1 x2 (put a2 x1 c))), erased + 2)
                                           | _, _ => OutOfRange
                                           end
                                         else Done (c, erased)))
                               end)
                        end)
               end)
        | _, _ => OutOfRange
        end)))))%nat.
(** the loop (593-679) *)
Fixpoint optimize_cache (c : list op) (erased : nat) (ps : list (nat * nat)) : res (list op) :=
  match ps with
  | [] => Done c
  | p :: ps' => bind (optimize_pair c erased p) (fun ce => optimize_cache (fst ce) (snd ce) ps')
  end.

(** process_operation_cache (681-694): the calls to the wrapped generator *)
Definition process_cache (s : state) : res (list op) :=
  assert (match cache s with
          | [] => true
          | x :: _ => pairs_with x (last (cache s) x)
          end)
    (optimize_cache (cache s) 0 (paired s)).

(** the calls of one expression (358-428): each is put into the queue, and a computation processes the
    queue *)
Definition is_compute (x : op) : bool := match x with Compute _ _ _ => true | _ => false end.
Fixpoint receive (calls : list op) (s : state) : res state :=
  match calls with
  | [] => Done s
  | x :: calls' =>
      let s' := mkState (queue s ++ [x]) (cache s) (paired s) in
      bind (if is_compute x then process_queue s' else Done s') (receive calls')
  end.
(** one expression: the calls followed by end_expression (430-440) *)
Definition optimize_calls (calls : list op) : res (list op) :=
  bind (receive calls (mkState [] [] [])) (fun s => bind (process_queue s) process_cache).
End Checked.
