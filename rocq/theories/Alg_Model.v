(** Model of the sorting and permutation algorithms: SeQuant/core/algorithm.hpp (bubble_sort,
    next_permutation_parity), SeQuant/core/eval/result.hpp (antisymmetric_permutation,
    symmetric_permutation), SeQuant/core/utility/permutation.hpp (count_cycles,
    permutation_parity).

    A range [first,last) that is rewritten in place is a list that is returned. *)
From Coq Require Import ZArith List Arith Bool.
Import ListNotations.

Section BubbleSort.
  Context {A : Type}.
  Variable comp : A -> A -> bool.

  (** One pass of the [for] loop, algorithm.hpp:45-57: [x] is the element at iterator [i], the
      list is the range from [inext]. Returns the rewritten range and the number of swaps (the
      code keeps only whether it is non-zero, in [swapped]). *)
  Fixpoint bubble_pass (x : A) (l : list A) : list A * nat :=
    match l with
    | [] => ([x], 0)
    | y :: l' =>
        if comp y x
        then let '(r, k) := bubble_pass x l' in (y :: r, S k)
        else let '(r, k) := bubble_pass y l' in (x :: r, k)
    end.

  (** The [do ... while (swapped)] loop, algorithm.hpp:35-94. Returns the final range and the
      total number of swaps; [None] when the fuel is exhausted. *)
  Fixpoint bubble_loop (fuel : nat) (l : list A) : option (list A * nat) :=
    match fuel with
    | O => None
    | S f =>
        match l with
        | [] => Some ([], 0)
        | x :: l' =>
            let '(r, k) := bubble_pass x l' in
            if Nat.eqb k 0 then Some (r, 0)
            else option_map (fun rk : list A * nat => (fst rk, k + snd rk)) (bubble_loop f r)
        end
    end.

  (** [bubble_sort], algorithm.hpp:32-95. *)
  Definition bubble_sort (l : list A) : option (list A * nat) :=
    bubble_loop (S (length l * length l)) l.
End BubbleSort.

(** [composite_compare], algorithm.hpp:72-81: the comparison used on zipped ranges. *)
Definition composite_compare {A} (comp : A -> A -> bool) (c0 c1 : A * A) : bool :=
  if comp (fst c0) (fst c1) then true
  else if negb (comp (fst c1) (fst c0)) then comp (snd c0) (snd c1)
  else false.

Section NextPerm.
  Context {A : Type}.
  Variable comp : A -> A -> bool.

  (** The scan [while (!comp( *i, *(--j)))] from the back, followed by the swap of [*i] and [*j],
      algorithm.hpp:118-126: [x] is [*i], the list is [ii,last) {e reversed}. Returns the
      element that goes to position [i] and the reversed range after the swap. Running off the
      range is [None] (undefined behaviour). *)
  Fixpoint swap_pivot (x : A) (rsuffix : list A) : option (A * list A) :=
    match rsuffix with
    | [] => None
    | y :: r =>
        if comp x y then Some (y, x :: r)
        else option_map (fun yr : A * list A => (fst yr, y :: snd yr)) (swap_pivot x r)
    end.

  (** The [for (;;)] loop, algorithm.hpp:114-137. [suffix] is [ii,last); [before] is the range
      [first,ii) reversed, so its head is [*i]. [std::reverse(ii,last)] of the swapped range is
      the reversed range itself. *)
  Fixpoint next_perm_loop (parity : Z) (suffix before : list A) : option (bool * list A * Z) :=
    match before with
    | [] => None
    | x :: before' =>
        match suffix with
        | [] => None
        | y :: _ =>
            if comp x y then
              match swap_pivot x (rev suffix) with
              | None => None
              | Some (z, rsw) =>
                  Some (true, rev before' ++ z :: rsw,
                        Z.rem (parity + 1 + Z.of_nat (length suffix / 2)) 2)
              end
            else match before' with
                 | [] => Some (false, rev (x :: suffix),
                               Z.rem (parity + Z.of_nat (S (length suffix) / 2)) 2)
                 | _ => next_perm_loop parity (x :: suffix) before'
                 end
        end
    end.

  (** [next_permutation_parity], algorithm.hpp:107-138: returned flag, new range, new parity.
      [None] is undefined behaviour. [int] is [Z] (no overflow: the flag is reduced modulo 2 and
      ranges are shorter than 2^31). *)
  Definition next_permutation_parity (parity : Z) (l : list A) : option (bool * list A * Z) :=
    match rev l with
    | [] => Some (false, l, parity)
    | [_] => Some (false, l, parity)
    | y :: before => next_perm_loop parity [y] before
    end.

  (** [antisymmetric_permutation], result.hpp:105-116: the sequence of callback invocations
      (contents of the range at that moment, parity) and the final range. [None]: fuel exhausted
      or undefined behaviour. *)
  Fixpoint antisym_loop (fuel : nat) (parity : Z) (l : list A)
    : option (list (list A * Z) * list A) :=
    match fuel with
    | O => None
    | S f =>
        match next_permutation_parity parity l with
        | None => None
        | Some (true, l', p') =>
            option_map (fun cl : list (list A * Z) * list A => ((l, parity) :: fst cl, snd cl))
                       (antisym_loop f p' l')
        | Some (false, l', _) => Some ([(l, parity)], l')
        end
    end.

  Definition antisymmetric_permutation (fuel : nat) (l : list A)
    : option (list (list A * Z) * list A) :=
    if Nat.leb (length l) 1 then Some ([(l, 0%Z)], l)
    else antisym_loop fuel 0%Z l.
End NextPerm.

(** [symmetric_permutation], result.hpp:126-132, on the list of (bra, ket) pairs. The range of
    iterator pairs never moves: the overloaded [swap] (result.hpp:51-56) swaps the pointed-to bra
    and ket entries together and [operator<] (result.hpp:58-61) compares the bra entries, so
    [std::next_permutation] rewrites the list of pairs. [std::next_permutation] has the result
    and return value of [next_permutation_parity] (which is a copy of it plus the counter). *)
Definition pair_less (a b : nat * nat) : bool := Nat.ltb (fst a) (fst b).
Definition symmetric_permutation (fuel : nat) (l : list (nat * nat))
  : option (list (list (nat * nat)) * list (nat * nat)) :=
  option_map (fun cl => (map fst (fst cl), snd cl)) (antisym_loop pair_less fuel 0%Z l).

(** ** count_cycles, permutation.hpp:47-116 *)

(** The array [parent] as a function on slots. *)
Notation parents := (nat -> nat) (only parsing).
Definition pset (p : nat -> nat) (k v : nat) : nat -> nat := fun j => if Nat.eqb j k then v else p j.

(** [find] with path halving, permutation.hpp:83-89. [None]: fuel exhausted. *)
Fixpoint uf_find (fuel : nat) (p : nat -> nat) (x : nat) : option ((nat -> nat) * nat) :=
  match fuel with
  | O => None
  | S f => if Nat.eqb (p x) x then Some (p, x)
           else let p' := pset p x (p (p x)) in uf_find f p' (p' x)
  end.

(** [unite]: [parent[find(a)] = find(b)], permutation.hpp:90. The right-hand side of an assignment
    is evaluated first (C++17). *)
Definition uf_unite (fuel : nat) (p : nat -> nat) (a b : nat) : option (nat -> nat) :=
  match uf_find fuel p b with
  | None => None
  | Some (p1, rb) =>
      match uf_find fuel p1 a with
      | None => None
      | Some (p2, ra) => Some (pset p2 ra rb)
      end
  end.

(** [first_slot.try_emplace(idx, slot)]: the slot stored for the value, if any. Values are
    natural numbers. *)
Fixpoint lookup_slot (m : list (nat * nat)) (v : nat) : option nat :=
  match m with
  | [] => None
  | (v', s) :: m' => if Nat.eqb v v' then Some s else lookup_slot m' v
  end.

(** [add_slot], permutation.hpp:98-102, folded over a list of (value, slot). *)
Fixpoint uf_add_slots (fuel : nat) (st : (nat -> nat) * list (nat * nat)) (vs : list (nat * nat))
  : option ((nat -> nat) * list (nat * nat)) :=
  match vs with
  | [] => Some st
  | (v, s) :: vs' =>
      match lookup_slot (snd st) v with
      | None => uf_add_slots fuel (fst st, (v, s) :: snd st) vs'
      | Some s0 => match uf_unite fuel (fst st) s0 s with
                   | None => None
                   | Some p' => uf_add_slots fuel (p', snd st) vs'
                   end
      end
  end.

(** The column-edge loop, permutation.hpp:93-94. *)
Fixpoint uf_columns (fuel : nat) (p : nat -> nat) (n0 : nat) (cols : list nat) : option (nat -> nat) :=
  match cols with
  | [] => Some p
  | i :: cols' => match uf_unite fuel p i (n0 + i) with
                  | None => None
                  | Some p' => uf_columns fuel p' n0 cols'
                  end
  end.

(** The final count, permutation.hpp:111-114. *)
Fixpoint uf_count (fuel : nat) (p : nat -> nat) (slots : list nat) : option nat :=
  match slots with
  | [] => Some 0
  | i :: slots' =>
      match uf_find fuel p i with
      | None => None
      | Some (p', r) => option_map (fun c => (if Nat.eqb r i then 1 else 0) + c) (uf_count fuel p' slots')
      end
  end.

(** [count_cycles], permutation.hpp:47-116, without the debug assertions. *)
Definition count_cycles (v0 v1 : list nat) : option nat :=
  let n0 := length v0 in
  let n1 := length v1 in
  let n := n0 + n1 in
  let fuel := S (n + n) in
  match uf_columns fuel (fun x => x) n0 (seq 0 (Nat.min n0 n1)) with
  | None => None
  | Some p =>
      match uf_add_slots fuel (p, []) (combine v0 (seq 0 n0) ++ combine v1 (seq n0 n1)) with
      | None => None
      | Some (p', _) => uf_count fuel p' (seq 0 n)
      end
  end.

(** ** permutation_parity, permutation.hpp:122-146 *)

Fixpoint lset (l : list Z) (k : nat) (f : Z -> Z) : list Z :=
  match l, k with
  | [], _ => []
  | x :: l', O => f x :: l'
  | x :: l', S k' => x :: lset l' k' f
  end.

(** The [do ... while] loop of one cycle, permutation.hpp:134-138; returns the array and the cycle
    length. [None]: out of fuel or an access outside the array. *)
Fixpoint parity_cycle (fuel : nat) (N : Z) (p : list Z) (i : nat) (len : nat) : option (list Z * nat) :=
  match fuel with
  | O => None
  | S f =>
      match nth_error p i with
      | None => None
      | Some v =>
          let i' := Z.to_nat v in
          match nth_error p i' with
          | None => None
          | Some w =>
              let p' := lset p i' (fun e => (e + N)%Z) in
              if Z.ltb (w + N) N then parity_cycle f N p' i' (S len) else Some (p', S len)
          end
      end
  end.

(** The [for] loop over [k], permutation.hpp:130-140. *)
Fixpoint parity_loop (fuel : nat) (N : Z) (ks : list nat) (p : list Z) (parity : Z)
  : option (list Z * Z) :=
  match ks with
  | [] => Some (p, parity)
  | k :: ks' =>
      if Z.leb N (nth k p 0%Z) then parity_loop fuel N ks' p parity
      else match parity_cycle fuel N p k 1 with
           | None => None
           | Some (p', len) =>
               parity_loop fuel N ks' p' (if Nat.even len then (- parity)%Z else parity)
           end
  end.

(** [permutation_parity], permutation.hpp:122-146: final array and returned value. Elements are
    integers without overflow. *)
Definition permutation_parity (p : list Z) (overwrite : bool) : option (list Z * Z) :=
  let N := Z.of_nat (length p) in
  match parity_loop (S (length p)) N (seq 0 (length p)) p 1%Z with
  | None => None
  | Some (p', r) => Some (if overwrite then map (fun e => (e - N)%Z) p' else p', r)
  end.
