(** * Specification of a grouped sequence of edges: just the sequence *)
From Coq Require Import List Arith Bool Sorted.
From Verif Require Import Hug_Model.
Import ListNotations.

Section Spec.
  Context {Edge : Type} (equals : Edge -> Edge -> bool).

  Definition equivalence : Prop :=
    (forall a, equals a a = true) /\ (forall a b, equals a b = true -> equals b a = true) /\
    (forall a b c, equals a b = true -> equals b c = true -> equals a c = true).

  (** [s] lists, in increasing order, exactly the positions of the edges of [es] equivalent to [e]. *)
  Definition positions_of (e : Edge) (es : list Edge) (s : list nat) : Prop :=
    StronglySorted lt s /\
    forall i, In i s <-> exists x, nth_error es i = Some x /\ equals e x = true.

  (** There are [k] classes of edges in [es]. *)
  Definition number_of_classes (es : list Edge) (k : nat) : Prop :=
    exists cs, length cs = k /\ ForallOrdPairs (fun a b => equals a b = false) cs /\
      (forall c, In c cs -> exists e, In e es /\ equals c e = true) /\
      (forall e, In e es -> exists c, In c cs /\ equals c e = true).

  (** What a call does to the sequence; [None]: the call is not allowed. *)
  Definition effect (c : call) (es : list Edge) : option (list Edge) :=
    match c with
    | CIns i e => if i <=? length es then Some (firstn i es ++ e :: skipn i es) else None
    | CErs i e => match nth_error es i with
                  | Some x => if equals x e then Some (firstn i es ++ skipn (S i) es) else None
                  | None => None
                  end
    end.
  Fixpoint effects (cs : list call) (es : list Edge) : option (list Edge) :=
    match cs with
    | [] => Some es
    | c :: cs' => match effect c es with Some es' => effects cs' es' | None => None end
    end.

  (** The vertex shows the sequence [es]. *)
  Definition shows (chk : bool) (v : vertex) (es : list Edge) : Prop :=
    num_edges v = length es /\
    number_of_classes es (num_nonempty_groups v) /\
    (forall i e, nth_error es i = Some e -> exists rep s,
       group v i = HOk (rep, s) /\ equals rep e = true /\ positions_of e es s /\
       group_size chk v i = HOk (length s)) /\
    (forall i, length es <= i -> group v i = HThrow /\ group_size chk v i = HThrow).
End Spec.
