(** Model of the reordering of sums (SeQuant/core/optimize/sum.cpp): [clusters] and [reorder].

    A term is represented by the hash values that [clusters] records for it. Not modelled: how hash
    values are computed. *)
From Coq Require Import List Arith Bool.
From Verif Require Import Idx_Model Bin_Model.
Import ListNotations.

(** container::set<pos_t>::emplace: a sorted sequence without duplicates *)
Fixpoint set_emplace (x : nat) (l : list nat) : list nat :=
  match l with
  | [] => [x]
  | y :: l' => if Nat.eqb x y then l else if x <? y then x :: l else y :: set_emplace x l'
  end.
(** the visitor (sum.cpp:43-51): a map from hash values to sets of positions, sorted by hash value *)
Fixpoint record (h p : nat) (m : list (nat * list nat)) : list (nat * list nat) :=
  match m with
  | [] => [(h, [p])]
  | (g, s) :: m' => if Nat.eqb h g then (g, set_emplace p s) :: m'
                    else if h <? g then (h, [p]) :: m else (g, s) :: record h p m'
  end.
(** the loop over the terms (53-61) *)
Fixpoint positions_from (p : nat) (hs : list (list nat)) (m : list (nat * list nat)) : list (nat * list nat) :=
  match hs with
  | [] => m
  | l :: hs' => positions_from (S p) hs' (fold_left (fun m h => record h p m) l m)
  end.
Definition positions (hs : list (list nat)) : list (nat * list nat) := positions_from 0 hs [].

(** connections (65-76): the first position of a set is connected to the others *)
Fixpoint connect (p : nat) (qs : list nat) (c : list (nat * list nat)) : list (nat * list nat) :=
  match c with
  | [] => [(p, qs)]
  | (k, v) :: c' => if Nat.eqb p k then (k, v ++ qs) :: c'
                    else if p <? k then (p, qs) :: c else (k, v) :: connect p qs c'
  end.
Definition connections (m : list (nat * list nat)) : list (nat * list nat) :=
  fold_left (fun c kv => match snd kv with [] => c | p :: qs => connect p qs c end) m [].
Definition children (c : list (nat * list nat)) (p : nat) : list nat :=
  match find (fun kv => Nat.eqb p (fst kv)) c with Some kv => snd kv | None => [] end.

(** the loop over the stack (88-98); the head of the list is the top of the stack. None: out of fuel. *)
Definition member (x : nat) (l : list nat) : bool := existsb (Nat.eqb x) l.
Fixpoint dfs (fuel : nat) (c : list (nat * list nat)) (stack visited cluster : list nat) : option (list nat * list nat) :=
  match fuel with
  | 0 => None
  | S fuel' =>
      match stack with
      | [] => Some (visited, cluster)
      | p :: stack' =>
          let stack'' := fold_left (fun st q => q :: st) (rev (children c p)) stack' in
          if member p visited then dfs fuel' c stack'' visited cluster
          else dfs fuel' c stack'' (p :: visited) (cluster ++ [p])
      end
  end.
(** the loop over the keys (82-102) *)
Fixpoint collect_clusters (fuel : nat) (c : list (nat * list nat)) (keys visited : list nat) : option (list (list nat)) :=
  match keys with
  | [] => Some []
  | k :: keys' =>
      if member k visited then collect_clusters fuel c keys' visited
      else match dfs fuel c [k] visited [] with
           | None => None
           | Some (visited', cl) =>
               match collect_clusters fuel c keys' visited' with
               | None => None
               | Some r => Some (cl :: r)
               end
           end
  end.
Definition clusters (fuel : nat) (hs : list (list nat)) : option (list (list nat)) :=
  let c := connections (positions hs) in collect_clusters fuel c (map fst c) [].

(** [reorder] (118-127). Appending to the new sum is modelled as adding the term at the end: the terms
    are not sums, not zero and at most one of them is a constant (Sum::append would otherwise flatten,
    drop or merge them, and the assertion on the size of the result would fail).
    Undefined: out of fuel or the failed assertion. *)
Definition reorder {X} (fuel : nat) (hs : list (list nat)) (sum : list X) : res (list X) :=
  match clusters fuel hs with
  | None => Undefined
  | Some cs =>
      let r := flat_map (fun p => match nth_error sum p with Some x => [x] | None => [] end) (concat cs) in
      if Nat.eqb (length r) (length sum) then Ret r else Undefined
  end.

(** ** the hash values of a term *)
Section Terms.
  Variable K : Type.
  Variable hash : node K -> nat.
  (** has_only_single_atom (19-28) *)
  Fixpoint single_atom (e : bex K) : bool :=
    match e with
    | Con _ | Var _ | Ten _ => true
    | Add [] | Mul _ [] => true
    | Add [x] | Mul _ [x] => single_atom x
    | _ => false
    end.
  (** FullBinaryNode::visit_internal *)
  Fixpoint internals (n : node K) : list (node K) :=
    match n with Leaf _ => [] | Node _ _ l r => n :: internals l ++ internals r end.
  Definition term_hashes (e : bex K) (n : node K) : list nat :=
    if single_atom e then [hash n] else map hash (internals n).
End Terms.
