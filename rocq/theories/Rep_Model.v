(** * Model of transform_expr and replace, SeQuant/core/utility/expr.{hpp,cpp}

    Indices, labels of tensors, variables and scalars are parameters. Expressions are values: sharing and
    cloning are not modelled. [Product::append] and [Sum::append] put their argument at the end; that
    [Product] multiplies constants into its scalar and flattens is not modelled. Indices have no
    proto-indices; null slots are [None]. *)
From Coq Require Import List Arith Bool.
Import ListNotations.

Inductive rout (A : Type) := ROk (a : A) | RThrow.
Arguments ROk {A}. Arguments RThrow {A}.
Definition rbind {A B} (x : rout A) (f : A -> rout B) : rout B := match x with ROk a => f a | RThrow => RThrow end.

Section Rep.
  Context {I L V K : Type} (ieqb : I -> I -> bool) (keqb : K -> K -> bool) (kone : K) (kmul : K -> K -> K).

  Notation slot := (option I).
  Inductive atom := AConst (k : K) | AVar (v : V) | ATensor (l : L) (s : list slot).
  Inductive rex := RAtom (a : atom) | RProd (k : K) (fs : list rex) | RSum (l : list rex).

  (** [container::map<Index, Index>]; an index may be mapped to the null index. *)
  Notation imap := (list (I * slot)).
  Fixpoint find (i : I) (m : imap) : option slot :=
    match m with [] => None | (j, x) :: m' => if ieqb j i then Some x else find i m' end.
  (** [m[i] = x]. *)
  Fixpoint assign (i : I) (x : slot) (m : imap) : imap :=
    match m with
    | [] => [(i, x)]
    | (j, y) :: m' => if ieqb j i then (j, x) :: m' else (j, y) :: assign i x m'
    end.

  (** [Tensor::transform_indices], expressions/tensor.hpp:746-753, for one slot: every index that is not null
      is replaced once. *)
  Definition transform_slot (m : imap) (s : slot) : slot :=
    match s with
    | None => None
    | Some i => match find i m with Some x => x | None => Some i end
    end.

  (** The loop over the factors in [transform_product], utility/expr.cpp:441-449. *)
  Fixpoint transform_factors (m : imap) (fs : list rex) : rout (list rex) :=
    match fs with
    | [] => ROk []
    | RAtom (ATensor l s) :: fs' =>
        rbind (transform_factors m fs') (fun r => ROk (RAtom (ATensor l (map (transform_slot m) s)) :: r))
    | RAtom a :: fs' => rbind (transform_factors m fs') (fun r => ROk (RAtom a :: r))
    | _ :: _ => RThrow
    end.

  (** [transform_expr], utility/expr.cpp:417-472. The operator [*] makes a product. *)
  Fixpoint transform_expr (m : imap) (scale : K) (e : rex) : rout rex :=
    match e with
    | RAtom (ATensor l s) =>
        let t := RAtom (ATensor l (map (transform_slot m) s)) in
        ROk (if keqb scale kone then t else RProd kone [t; RAtom (AConst scale)])
    | RAtom _ => ROk (if keqb scale kone then e else RProd kone [RAtom (AConst scale); e])
    | RProd k fs => rbind (transform_factors m fs) (fun r => ROk (RProd (kmul k scale) r))
    | RSum l => rbind ((fix go (l : list rex) : rout (list rex) :=
                          match l with
                          | [] => ROk []
                          | x :: l' => rbind (transform_expr m scale x) (fun y => rbind (go l') (fun r => ROk (y :: r)))
                          end) l)
                      (fun r => ROk (RSum r))
    end.

  (** The indices of the tensors, [get_used_indices], utility/indices.hpp:302-380. *)
  Fixpoint used (e : rex) : list I :=
    match e with
    | RAtom (ATensor _ s) => flat_map (fun x => match x with Some i => [i] | None => [] end) s
    | RAtom _ => []
    | RProd _ fs => flat_map used fs
    | RSum l => flat_map used l
    end.

  (** [index_mapping], utility/expr.hpp:102-120: the positions of the slots of the target whose index is
      used in the replacement. *)
  Fixpoint mapping_from (p : nat) (s : list slot) (us : list I) : list nat :=
    match s with
    | [] => []
    | None :: s' => mapping_from (S p) s' us
    | Some i :: s' => if existsb (ieqb i) us then p :: mapping_from (S p) s' us else mapping_from (S p) s' us
    end.
  Definition index_mapping (target : atom) (replacement : rex) : list nat :=
    match target with
    | ATensor _ s => mapping_from 0 s (used replacement)
    | _ => []
    end.

  Definition slot_eqb (x y : slot) : bool :=
    match x, y with Some i, Some j => ieqb i j | None, None => true | _, _ => false end.

  (** The map for one match, utility/expr.hpp:146-151. *)
  Definition replacements (ts cs : list slot) (ps : list nat) : imap :=
    fold_left (fun m p => match nth p ts None with
                          | Some i => if slot_eqb (Some i) (nth p cs None) then m else assign i (nth p cs None) m
                          | None => m
                          end) ps [].

  (** The visitor, utility/expr.hpp:126-157; a false assertion throws. *)
  Definition replacement_for (target : atom) (replacement : rex) (current : atom) : rout rex :=
    match index_mapping target replacement with
    | [] => ROk replacement
    | ps => match current, target with
            | ATensor _ cs, ATensor _ ts =>
                if length cs =? length ts then transform_expr (replacements ts cs ps) kone replacement else RThrow
            | _, _ => RThrow
            end
    end.

  (** [Expr::visit] of the atoms, expressions/expr.hpp:397-422, with that visitor. *)
  Fixpoint visit (cmp : rex -> bool) (target : atom) (replacement : rex) (e : rex) : rout rex :=
    let each := fix each (l : list rex) : rout (list rex) :=
      match l with
      | [] => ROk []
      | RAtom a :: l' =>
          rbind (if cmp (RAtom a) then replacement_for target replacement a else ROk (RAtom a))
                (fun y => rbind (each l') (fun r => ROk (y :: r)))
      | x :: l' => rbind (visit cmp target replacement x) (fun y => rbind (each l') (fun r => ROk (y :: r)))
      end in
    match e with
    | RAtom a => ROk e
    | RProd k fs => rbind (each fs) (fun r => ROk (RProd k r))
    | RSum l => rbind (each l) (fun r => ROk (RSum r))
    end.

  (** [replace], utility/expr.hpp:93-165. [cmp e] is the comparison of [e] with the target. *)
  Definition replace (cmp : rex -> bool) (target replacement : rex) (e : rex) : rout rex :=
    match target with
    | RAtom t => if cmp e then ROk replacement else visit cmp t replacement e
    | _ => RThrow
    end.
End Rep.
Arguments atom : clear implicits.
Arguments rex : clear implicits.
