(** * Model of HugenholtzVertex, SeQuant/core/hugenholtz.hpp

    A vertex keeps, for a sequence of edges, the groups of equivalent edges. [container::set] of edge
    indices is the list of its elements in order; [container::svector] is a list. *)
From Coq Require Import List Arith Bool.
Import ListNotations.

Inductive hout (A : Type) :=
| HOk (a : A)
| HThrow           (* an exception: out of range, or the one of [insert] *)
| HAssert.         (* a SEQUANT_ASSERT fails *)
Arguments HOk {A}. Arguments HThrow {A}. Arguments HAssert {A}.

Section Hug.
  (** [equals] is the [EdgeEquality]; [chk]: assertions are enabled. *)
  Context {Edge : Type} (equals : Edge -> Edge -> bool) (chk : bool).

  (** hugenholtz.hpp:27 and 172-175: [Group], [edge_to_group_], [groups_]. *)
  Record vertex := mkV { edge_to_group : list nat; groups : list (Edge * list nat) }.

  (** [HugenholtzVertex()], hugenholtz.hpp:30. *)
  Definition empty_vertex : vertex := mkV [] [].

  (** [std::set::insert]: the set and whether the element is new. *)
  Fixpoint set_insert (x : nat) (s : list nat) : list nat * bool :=
    match s with
    | [] => ([x], true)
    | y :: s' => if y <? x then (y :: fst (set_insert x s'), snd (set_insert x s'))
                 else if y =? x then (s, false) else (x :: s, true)
    end.

  (** [std::set::erase]. *)
  Definition set_erase (x : nat) (s : list nat) : list nat := filter (fun y => negb (y =? x)) s.

  (** [std::find_if] over the groups, hugenholtz.hpp:44-46 and 142-144: the position of the first group
      equivalent to the edge, the number of groups if there is none. *)
  Fixpoint find_group (e : Edge) (gs : list (Edge * list nat)) : nat :=
    match gs with
    | [] => 0
    | g :: gs' => if equals (fst g) e then 0 else S (find_group e gs')
    end.

  (** Change group [k]. *)
  Fixpoint update_at {A} (k : nat) (f : A -> A) (l : list A) : list A :=
    match l, k with
    | [], _ => []
    | x :: l', 0 => f x :: l'
    | x :: l', S k' => x :: update_at k' f l'
    end.

  (** [v.insert(v.begin() + i, x)] and [v.erase(v.begin() + i)]. *)
  Definition vec_insert {A} (i : nat) (x : A) (v : list A) : list A := firstn i v ++ x :: skipn i v.
  Definition vec_erase {A} (i : nat) (v : list A) : list A := firstn i v ++ skipn (S i) v.

  (** One step of the constructor, hugenholtz.hpp:43-57, with [edge_idx]. *)
  Definition add_edge (edge_idx : nat) (e : Edge) (v : vertex) : hout vertex :=
    let k := find_group e (groups v) in
    match nth_error (groups v) k with
    | None => HOk (mkV (edge_to_group v ++ [length (groups v ++ [(e, [edge_idx])]) - 1])
                       (groups v ++ [(e, [edge_idx])]))
    | Some g =>
        if chk && negb (snd (set_insert edge_idx (snd g))) then HAssert
        else HOk (mkV (edge_to_group v ++ [k])
                      (update_at k (fun g => (fst g, fst (set_insert edge_idx (snd g)))) (groups v)))
    end.

  Fixpoint add_edges (edge_idx : nat) (es : list Edge) (v : vertex) : hout vertex :=
    match es with
    | [] => HOk v
    | e :: es' => match add_edge edge_idx e v with
                  | HOk v' => add_edges (S edge_idx) es' v'
                  | HThrow => HThrow
                  | HAssert => HAssert
                  end
    end.
  (** The constructor from a range, hugenholtz.hpp:36-58. *)
  Definition make_vertex (es : list Edge) : hout vertex := add_edges 0 es empty_vertex.

  (** [num_edges], [num_groups], [num_nonempty_groups], hugenholtz.hpp:62-81. *)
  Definition num_edges (v : vertex) : nat := length (edge_to_group v).
  Definition num_groups (v : vertex) : nat := length (groups v).
  Definition num_nonempty_groups (v : vertex) : nat :=
    fold_left (fun left g => left + match snd g with [] => 0 | _ => 1 end) (groups v) 0.

  (** [group], hugenholtz.hpp:86-89; [at] throws. *)
  Definition group (v : vertex) (edge_idx : nat) : hout (Edge * list nat) :=
    match nth_error (edge_to_group v) edge_idx with
    | None => HThrow
    | Some k => match nth_error (groups v) k with None => HThrow | Some g => HOk g end
    end.

  (** [group_size], hugenholtz.hpp:100-104. *)
  Definition group_size (v : vertex) (edge_idx : nat) : hout nat :=
    match group v edge_idx with
    | HOk g => if chk && (length (snd g) =? 0) then HAssert else HOk (length (snd g))
    | HThrow => HThrow
    | HAssert => HAssert
    end.

  (** The loops over all elements of all groups, hugenholtz.hpp:123-130 and 147-155. *)
  Definition dec_from (k e : nat) : nat := if k <=? e then e - 1 else e.
  Definition inc_from (k e : nat) : nat := if k <=? e then S e else e.

  (** [erase], hugenholtz.hpp:109-132. *)
  Definition erase (edge_idx : nat) (e : Edge) (v : vertex) : hout vertex :=
    match nth_error (edge_to_group v) edge_idx with
    | None => HThrow
    | Some k =>
        match nth_error (groups v) k with
        | None => HThrow
        | Some g =>
            if chk && negb (find_group e (groups v) <? length (groups v)) then HAssert
            else if chk && negb (existsb (Nat.eqb edge_idx) (snd g)) then HAssert
            else if chk && negb (equals (fst g) e) then HAssert
            else
              let gs := update_at k (fun g => (fst g, set_erase edge_idx (snd g))) (groups v) in
              if chk && existsb (fun g => existsb (fun x => (edge_idx <=? x) && (x =? 0)) (snd g)) gs then HAssert
              else HOk (mkV (vec_erase edge_idx (edge_to_group v))
                            (map (fun g => (fst g, map (dec_from edge_idx) (snd g))) gs))
        end
    end.

  (** [insert], hugenholtz.hpp:136-169. *)
  Definition insert (edge_idx : nat) (e : Edge) (v : vertex) : hout vertex :=
    if length (edge_to_group v) <? edge_idx then HThrow
    else
      let k := find_group e (groups v) in
      let gs := if edge_idx <? length (edge_to_group v)
                then map (fun g => (fst g, map (inc_from edge_idx) (snd g))) (groups v) else groups v in
      match nth_error gs k with
      | None => HOk (mkV (vec_insert edge_idx (length (gs ++ [(e, [edge_idx])]) - 1) (edge_to_group v))
                         (gs ++ [(e, [edge_idx])]))
      | Some g =>
          if chk && negb (snd (set_insert edge_idx (snd g))) then HAssert
          else HOk (mkV (vec_insert edge_idx k (edge_to_group v))
                        (update_at k (fun g => (fst g, fst (set_insert edge_idx (snd g)))) gs))
      end.

  (** A history of calls. *)
  Inductive call := CIns (i : nat) (e : Edge) | CErs (i : nat) (e : Edge).
  Definition do_call (c : call) (v : vertex) : hout vertex :=
    match c with CIns i e => insert i e v | CErs i e => erase i e v end.
  Fixpoint do_calls (cs : list call) (v : vertex) : hout vertex :=
    match cs with
    | [] => HOk v
    | c :: cs' => match do_call c v with HOk v' => do_calls cs' v' | HThrow => HThrow | HAssert => HAssert end
    end.
End Hug.
