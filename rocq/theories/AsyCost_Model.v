(** Model of SeQuant/core/asy_cost.hpp and asy_cost.cpp: symbolic costs.

    Index spaces are numbered in the order of IndexSpace::operator<. Rationals are exact (Qc).
    The result of AsyCost::ops is a double in the code; here it is the exact rational, with None for
    infinity. Text output is not modelled. *)
From Coq Require Import List Bool Arith QArith Qcanon.
Import ListNotations.

(** AsyCostEntry, asy_cost.hpp:35-104. [exps] is a flat_map ordered by space. *)
Record entry := mkentry { exps : list (nat * nat); pre : Qc; emax : bool }.

(** AsyCostEntry(exponents, prefactor), asy_cost.cpp:22-34 *)
Definition mk_entry (m : list (nat * nat)) (q : Qc) : entry :=
  let m' := filter (fun kv => negb (Nat.eqb (snd kv) 0)) m in
  if Qc_eq_bool q 0 || (match m' with [] => true | _ => false end) then mkentry [] 0 false else mkentry m' q false.

(** AsyCostEntry::max, asy_cost.cpp:36-41: the prefactor is the largest intmax_t *)
Definition max_pre : Qc := Q2Qc (inject_Z 9223372036854775807).
Definition max_entry : entry := mkentry [] max_pre true.

(** is_zero, asy_cost.cpp:56-58 *)
Definition entry_zero (e : entry) : bool := negb (emax e) && (match exps e with [] => true | _ => false end) && Qc_eq_bool (pre e) 0.

(** exp_for and total_degree, asy_cost.cpp:134-143 *)
Fixpoint exp_for (m : list (nat * nat)) (s : nat) : nat :=
  match m with [] => 0%nat | kv :: m' => if Nat.eqb (fst kv) s then snd kv else exp_for m' s end.
Definition total_degree (m : list (nat * nat)) : nat := fold_left (fun n kv => (n + snd kv)%nat) m 0%nat.

(** the set of spaces, asy_cost.cpp:150-152: insertion into an ordered set *)
Fixpoint insert_space (s : nat) (l : list nat) : list nat :=
  match l with
  | [] => [s]
  | x :: l' => if Nat.ltb s x then s :: l else if Nat.eqb s x then l else x :: insert_space s l'
  end.
Definition spaces (m n : list (nat * nat)) : list nat :=
  fold_left (fun l kv => insert_space (fst kv) l) n (fold_left (fun l kv => insert_space (fst kv) l) m []).

(** the loop of lines 154-158 *)
Fixpoint first_diff (m n : list (nat * nat)) (ss : list nat) : bool :=
  match ss with
  | [] => false
  | s :: ss' => if Nat.eqb (exp_for m s) (exp_for n s) then first_diff m n ss' else Nat.ltb (exp_for m s) (exp_for n s)
  end.

(** AsyCostEntry::operator<, asy_cost.cpp:122-160 *)
Definition entry_lt (a b : entry) : bool :=
  if negb (Bool.eqb (emax a) (emax b)) then negb (emax a)
  else if negb (Nat.eqb (total_degree (exps a)) (total_degree (exps b)))
  then Nat.ltb (total_degree (exps a)) (total_degree (exps b))
  else first_diff (exps a) (exps b) (rev (spaces (exps a) (exps b))).

(** AsyCostEntry::operator==, asy_cost.cpp:162-164 *)
Fixpoint exps_eqb (m n : list (nat * nat)) : bool :=
  match m, n with
  | [], [] => true
  | x :: m', y :: n' => Nat.eqb (fst x) (fst y) && Nat.eqb (snd x) (snd y) && exps_eqb m' n'
  | _, _ => false
  end.
Definition entry_eqb (a b : entry) : bool := Bool.eqb (emax a) (emax b) && exps_eqb (exps a) (exps b).

(** AsyCost is a flat_set of entries, asy_cost.hpp:107. Its find and emplace are a lower bound with
    operator<, here by going through the elements in order. *)
Definition cost := list entry.

(** AsyCost(AsyCostEntry), asy_cost.cpp:170-172, and the public constructors, lines 174-177 *)
Definition cost_of_entry (e : entry) : cost := if entry_zero e then [] else [e].
Definition mk_cost (m : list (nat * nat)) (q : Qc) : cost := cost_of_entry (mk_entry m q).
Definition zero_cost : cost := cost_of_entry (mkentry [] 0 false).
Definition max_cost : cost := cost_of_entry max_entry.

(** one round of the loop in operator+, asy_cost.cpp:217-224: find, then change the prefactor of
    the element found (and erase it if it becomes zero), or emplace *)
Fixpoint add_term (c : entry) (data : cost) : cost :=
  match data with
  | [] => [c]
  | x :: d =>
      if entry_lt x c then x :: add_term c d
      else if entry_lt c x then c :: data
      else
        let p := (pre x + pre c)%Qc in
        if Qc_eq_bool p 0 then d else mkentry (exps x) p (emax x) :: d
  end.
Definition cost_add (l r : cost) : cost := fold_left (fun d c => add_term c d) r l.

(** operator*, asy_cost.cpp:231-235; operator/, 239-241; operator-, 227-229 *)
Definition cost_scale (q : Qc) (c : cost) : cost := map (fun e => mkentry (exps e) (pre e * q)%Qc (emax e)) c.
Definition cost_div (c : cost) (q : Qc) : cost := cost_scale (1 / q)%Qc c.
Definition cost_sub (l r : cost) : cost := cost_add l (cost_scale (- (1))%Qc r).

(** ops, asy_cost.cpp:179-193: [ext] gives the extent of each space (from the argument or its
    approximate_size) *)
Definition qnat (n : nat) : Qc := Q2Qc (inject_Z (Z.of_nat n)).
Fixpoint qpow (q : Qc) (n : nat) : Qc := match n with 0%nat => 1%Qc | S n' => (q * qpow q n')%Qc end.
Definition ops_entry (ext : nat -> nat) (e : entry) : Qc :=
  (pre e * fold_left (fun t kv => t * qpow (qnat (ext (fst kv))) (snd kv)) (exps e) 1)%Qc.
Fixpoint ops_from (ext : nat -> nat) (total : Qc) (c : cost) : option Qc :=
  match c with
  | [] => Some total
  | e :: c' => if emax e then None else ops_from ext (total + ops_entry ext e)%Qc c'
  end.
Definition ops (ext : nat -> nat) (c : cost) : option Qc := ops_from ext 0%Qc c.

(** operator<, asy_cost.cpp:243-261: the pairs at the same position counted from the lowest term,
    from the last pair down *)
Definition Qc_ltb (x y : Qc) : bool := match (x ?= y)%Qc with Lt => true | _ => false end.
Fixpoint pairs_lt (l : list (entry * entry)) (rest : bool) : bool :=
  match l with
  | [] => rest
  | (c1, c2) :: l' =>
      if entry_lt c1 c2 then true
      else if entry_eqb c1 c2 then
        if Qc_ltb (pre c1) (pre c2) then true else if Qc_ltb (pre c2) (pre c1) then false else pairs_lt l' rest
      else false
  end.
Definition cost_lt (l r : cost) : bool := pairs_lt (rev (combine l r)) (Nat.ltb (length l) (length r)).

(** operator==, !=, >, <=, >=, asy_cost.cpp:263-281 *)
Definition cost_eqb (l r : cost) : bool := Nat.eqb (length l) (length r) && negb (cost_lt l r || cost_lt r l).
Definition cost_gt (l r : cost) : bool := negb (cost_lt l r || cost_eqb l r).
Definition cost_le (l r : cost) : bool := cost_lt l r || cost_eqb l r.
Definition cost_ge (l r : cost) : bool := cost_gt l r || cost_eqb l r.
