(** * Model of the state of a NormalOperator and its mutators, SeQuant/core/op.hpp

    Indices, their equality, their type equality ([Index::TypeEquality]) and the hash of a sequence of
    operators are parameters. *)
From Coq Require Import List Arith Bool.
From Verif Require Import Hug_Model.
Import ListNotations.

Inductive nout (A : Type) :=
| NOk (a : A)
| NThrow           (* an exception *)
| NAssert          (* a SEQUANT_ASSERT fails *)
| NUB.             (* an iterator outside of the sequence: undefined *)
Arguments NOk {A}. Arguments NThrow {A}. Arguments NAssert {A}. Arguments NUB {A}.

Definition of_hout {A} (x : hout A) : nout A :=
  match x with HOk a => NOk a | HThrow => NThrow | HAssert => NAssert end.

Section Nop.
  Context {Index Vac Hash : Type} (ieqb : Index -> Index -> bool) (type_eqb : Index -> Index -> bool)
          (veqb : Vac -> Vac -> bool) (heqb : Hash -> Hash -> bool) (chk : bool).

  (** [Op]: [Action] and [Index], op.hpp:41-115. *)
  Record op := mkOp { creates : bool; index : Index }.
  Context (hash : list op -> Hash).

  (** [Op::TypeEquality], op.hpp:104-110. *)
  Definition op_type_eqb (a b : op) : bool := Bool.eqb (creates a) (creates b) && type_eqb (index a) (index b).
  (** [Op::adjoint]: the other action, the same index. *)
  Definition op_adjoint (a : op) : op := mkOp (negb (creates a)) (index a).
  (** [operator==] of [Op]. *)
  Definition op_eqb (a b : op) : bool := Bool.eqb (creates a) (creates b) && ieqb (index a) (index b).

  (** The data of [Operator] and [NormalOperator], op.hpp:345 and 742-746; [hash_value_] of [Expr],
      expressions/expr.hpp:430. [ncreators_] is a natural number; C145 shows that it never underflows. *)
  Record nop := mkN { ops : list op; vacuum : Vac; ncreators_ : nat; hug_ : option (@vertex op);
                      hash_value_ : option Hash }.

  (** The constructor from creators and annihilators given by indices, op.hpp:533-562. *)
  Definition make_nop (cre ann : list Index) (v : Vac) : nop :=
    mkN (map (mkOp true) cre ++ map (mkOp false) (rev ann)) v (length cre) None None.
  (** The constructor from one operator, op.hpp:515-521. *)
  Definition make_nop1 (o : op) (v : Vac) : nop := mkN [o] v (if creates o then 1 else 0) None None.

  (** [ncreators], [nannihilators], [creators], [annihilators], [rank], op.hpp:583-608. *)
  Definition ncreators (n : nop) : nat := ncreators_ n.
  Definition nannihilators (n : nop) : nat := length (ops n) - ncreators n.
  Definition creators (n : nop) : list op := firstn (ncreators n) (ops n).
  Definition annihilators (n : nop) : list op := firstn (nannihilators n) (rev (ops n)).
  Definition rank (n : nop) : nout nat := if ncreators n =? nannihilators n then NOk (ncreators n) else NThrow.

  (** [hug], op.hpp:612-618: the operator with the vertex present, and the vertex. *)
  Definition get_hug (n : nop) : nout (nop * @vertex op) :=
    match hug_ n with
    | Some v => NOk (n, v)
    | None => match make_vertex op_type_eqb chk (ops n) with
              | HOk v => NOk (mkN (ops n) (vacuum n) (ncreators_ n) (Some v) (hash_value_ n), v)
              | HThrow => NThrow
              | HAssert => NAssert
              end
    end.

  (** Apply to the vertex, if there is one. *)
  Definition on_hug (f : @vertex op -> hout vertex) (h : option (@vertex op)) : nout (option (@vertex op)) :=
    match h with
    | None => NOk None
    | Some v => match f v with HOk v' => NOk (Some v') | HThrow => NThrow | HAssert => NAssert end
    end.

  (** [erase], op.hpp:694-698. *)
  Definition nop_erase (i : nat) (n : nop) : nout nop :=
    match nth_error (ops n) i with
    | None => NUB
    | Some o => match on_hug (erase op_type_eqb chk i o) (hug_ n) with
                | NOk h => NOk (mkN (firstn i (ops n) ++ skipn (S i) (ops n)) (vacuum n)
                                    (if creates o then ncreators_ n - 1 else ncreators_ n) h (hash_value_ n))
                | NThrow => NThrow | NAssert => NAssert | NUB => NUB
                end
    end.

  (** [insert], op.hpp:701-707. *)
  Definition nop_insert (i : nat) (o : op) (n : nop) : nout nop :=
    if length (ops n) <? i then NUB
    else match on_hug (insert op_type_eqb chk i o) (hug_ n) with
         | NOk h => NOk (mkN (firstn i (ops n) ++ o :: skipn i (ops n)) (vacuum n)
                             (if creates o then ncreators_ n + 1 else ncreators_ n) h (hash_value_ n))
         | NThrow => NThrow | NAssert => NAssert | NUB => NUB
         end.

  (** [adjoint], op.hpp:375-379 and 717-722. *)
  Definition nop_adjoint (n : nop) : nop :=
    mkN (map op_adjoint (rev (ops n))) (vacuum n) (length (ops n) - ncreators_ n) None None.

  (** [transform_indices], op.hpp:732-740; [f] is what [Index::transform] does to an index, and whether it
      reports a change. Tags are part of [f]. *)
  Definition nop_transform (f : Index -> Index * bool) (n : nop) : nop * bool :=
    let mutated := existsb (fun o => snd (f (index o))) (ops n) in
    (mkN (map (fun o => mkOp (creates o) (fst (f (index o)))) (ops n)) (vacuum n) (ncreators_ n) (hug_ n)
         (if mutated then None else hash_value_ n), mutated).

  (** [hash_value], op.hpp:426-440. *)
  Definition hash_value (n : nop) : nout (nop * Hash) :=
    match hash_value_ n with
    | None => NOk (mkN (ops n) (vacuum n) (ncreators_ n) (hug_ n) (Some (hash (ops n))), hash (ops n))
    | Some h => if chk && negb (heqb h (hash (ops n))) then NAssert else NOk (n, h)
    end.

  Fixpoint ops_eqb (a b : list op) : bool :=
    match a, b with
    | [], [] => true
    | x :: a', y :: b' => op_eqb x y && ops_eqb a' b'
    | _, _ => false
    end.
  (** [operator==] of [Operator] and of [NormalOperator], op.hpp:443-457 and 968-975. The operators with
      their hashes memoized are not returned. *)
  Definition nop_eqb (a b : nop) : nout bool :=
    if veqb (vacuum a) (vacuum b) && (ncreators a =? ncreators b) then
      if length (ops a) =? length (ops b) then
        match ops a with
        | [] => NOk true
        | _ => match hash_value a, hash_value b with
               | NOk (_, h), NOk (_, k) => NOk (if heqb h k then ops_eqb (ops a) (ops b) else false)
               | _, _ => NAssert
               end
        end
      else NOk false
    else NOk false.

  (** Histories of calls. *)
  Inductive ncall :=
  | NIns (i : nat) (o : op) | NErs (i : nat) | NAdj | NTrf (f : Index -> Index * bool) | NHug | NHash.
  Definition do_ncall (c : ncall) (n : nop) : nout nop :=
    match c with
    | NIns i o => nop_insert i o n
    | NErs i => nop_erase i n
    | NAdj => NOk (nop_adjoint n)
    | NTrf f => NOk (fst (nop_transform f n))
    | NHug => match get_hug n with NOk (n', _) => NOk n' | NThrow => NThrow | NAssert => NAssert | NUB => NUB end
    | NHash => match hash_value n with NOk (n', _) => NOk n' | NThrow => NThrow | NAssert => NAssert | NUB => NUB end
    end.
  Fixpoint do_ncalls (cs : list ncall) (n : nop) : nout nop :=
    match cs with
    | [] => NOk n
    | c :: cs' => match do_ncall c n with
                  | NOk n' => do_ncalls cs' n'
                  | NThrow => NThrow | NAssert => NAssert | NUB => NUB
                  end
    end.
End Nop.
Arguments op : clear implicits.
Arguments nop : clear implicits.
Arguments ncall : clear implicits.
