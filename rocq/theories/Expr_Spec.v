(** What the expression algebra is measured against: the value of an expression in an algebra.

    Scalars act on any ring (with one, not commutative) through a homomorphism with central image;
    every leaf has some value in the ring; a product is its scalar times the product of its factors
    in their order, a sum is the sum of its summands. *)
From Coq Require Import List Bool Arith.
From Verif Require Import Wick_Spec Expr_Model.
Import ListNotations.

Section Spec.
  Variable k : kops.
  Variable a : aops k.
  Notation E := (expr (K k) (A a)).

  Record interpretation := mkinterp {
    ir : ring;
    emb : K k -> car ir;
    val : A a -> car ir;
    keqb_iff : forall x y, keqb k x y = true <-> x = y;
    emb_0 : emb (k0 k) = r0 ir;
    emb_1 : emb (k1 k) = r1 ir;
    emb_add : forall x y, emb (kadd k x y) = radd ir (emb x) (emb y);
    emb_mul : forall x y, emb (kmul k x y) = rmul ir (emb x) (emb y);
    emb_opp : forall x, emb (kopp k x) = ropp ir (emb x);
    emb_central : forall x, central (emb x);
    (** a leaf that reports to be zero is zero *)
    azero_val : forall x, azero a x = true -> val x = r0 ir;
    (** folding a power does not change its value *)
    aflat_val : forall x, match aflat a x with
                          | Some (inl z) => val x = emb z
                          | Some (inr y) => val x = val y
                          | None => True
                          end }.

  Section Value.
    Variable i : interpretation.
    Fixpoint value (e : E) : car (ir i) :=
      match e with
      | EConst z => emb i z
      | EAtom x => val i x
      | EProd _ s fs => rmul (ir i) (emb i s) (rprod (map value fs))
      | ESum _ ss => rsum (map value ss)
      | EErr => r0 (ir i)
      end.
  End Value.

  (** An expression without failed operations in which the recorded position of the constant of a
      sum (if any) holds a constant. *)
  Fixpoint ok (e : E) : Prop :=
    match e with
    | EProd _ _ fs => fold_right (fun x P => ok x /\ P) True fs
    | ESum ci ss =>
        match ci with None => True | Some i => exists z, nth_error ss i = Some (EConst z) end /\
        fold_right (fun x P => ok x /\ P) True ss
    | EErr => False
    | _ => True
    end.

  (** Sum-free expressions, and what [expand] should return: a sum-free expression or a sum of
      sum-free expressions. *)
  Fixpoint sum_free (e : E) : Prop :=
    match e with
    | EProd _ _ fs => fold_right (fun x P => sum_free x /\ P) True fs
    | ESum _ _ => False
    | _ => True
    end.
  Definition expanded (e : E) : Prop :=
    sum_free e \/ exists ci ss, e = ESum ci ss /\ 2 <= length ss /\ forall x, In x ss -> sum_free x.

  (** No product directly inside a product, no sum directly inside a sum. *)
  Fixpoint unnested (e : E) : Prop :=
    match e with
    | EProd _ _ fs => fold_right (fun x P => (is_prod _ _ x = false /\ unnested x) /\ P) True fs
    | ESum _ ss => fold_right (fun x P => (is_sum _ _ x = false /\ unnested x) /\ P) True ss
    | _ => True
    end.

  (** What rapid_simplify should return: no factor is a product or a constant (or a power that
      folds), no product has the scalar 0, no factor, or just one factor and the scalar 1; no
      summand is a sum, at most one is a constant and that one is not 0, no sum has less than two
      summands. *)
  Definition count_const (l : list E) : nat := length (filter (is_const k a) l).
  Fixpoint simplified (e : E) : Prop :=
    match e with
    | EProd _ s fs =>
        s <> k0 k /\ fs <> [] /\ (s = k1 k -> 2 <= length fs) /\
        fold_right (fun x P => (is_prod _ _ x = false /\ is_const _ _ x = false /\ simplified x /\
          match x with EAtom y => aflat a y = None | _ => True end) /\ P) True fs
    | ESum _ ss =>
        2 <= length ss /\ count_const ss <= 1 /\
        fold_right (fun x P => (is_sum _ _ x = false /\ x <> EConst (k0 k) /\ simplified x) /\ P) True ss
    | EErr => False
    | _ => True
    end.

  (** No leaf reports to be zero, and a power that folds to another leaf folds to one that does not
      fold any further. *)
  Definition good_leaf (y : A a) : Prop :=
    azero a y = false /\ match aflat a y with Some (inr z) => azero a z = false /\ aflat a z = None | _ => True end.
  Fixpoint good_leaves (e : E) : Prop :=
    match e with
    | EAtom y => good_leaf y
    | EProd _ _ l | ESum _ l => fold_right (fun x P => good_leaves x /\ P) True l
    | _ => True
    end.

  (** The number of nodes, operations counted twice. *)
  Fixpoint size (e : E) : nat :=
    match e with
    | EProd _ _ l | ESum _ l => 2 + fold_right (fun x n => size x + n) 0 l
    | _ => 1
    end.
End Spec.
Arguments ir {k a}. Arguments emb {k a}. Arguments val {k a}. Arguments value {k a}.
Arguments ok {k a}. Arguments sum_free {k a}. Arguments expanded {k a}. Arguments unnested {k a}. Arguments simplified {k a}. Arguments good_leaf {k a}. Arguments good_leaves {k a}. Arguments size {k a}.

(** An adjoint on the algebra that the adjoints of scalars and leaves agree with. *)
Record star_interp {k : kops} {a : aops k} (i : interpretation k a) := mkstar {
  star : car (ir i) -> car (ir i);
  star_0 : star (r0 (ir i)) = r0 (ir i);
  star_1 : star (r1 (ir i)) = r1 (ir i);
  star_add : forall x y, star (radd _ x y) = radd _ (star x) (star y);
  star_mul : forall x y, star (rmul _ x y) = rmul _ (star y) (star x);
  star_emb : forall z, star (emb i z) = emb i (kconj k z);
  star_val : forall x, star (val i x) = val i (aadj a x) }.
Arguments star {k a i}. Arguments star_0 {k a i}. Arguments star_1 {k a i}. Arguments star_add {k a i}.
Arguments star_mul {k a i}. Arguments star_emb {k a i}. Arguments star_val {k a i}.

Section Tidy.
  Variable k : kops.
  Variable a : aops k.
  (** An expression exactly as the constructors would build it: products without product or
      constant factors, sums without sum or zero summands and with at most one constant, at the
      recorded position. *)
  Fixpoint tidy (e : expr (K k) (A a)) : Prop :=
    match e with
    | EProd kd _ fs =>
        kd = PPlain /\
        fold_right (fun x P => (is_prod _ _ x = false /\ is_const _ _ x = false /\ tidy x) /\ P) True fs
    | ESum ci ss =>
        (forall i, (exists z, nth_error ss i = Some (EConst z)) <-> ci = Some i) /\
        fold_right (fun x P => (is_sum _ _ x = false /\ is_zero _ _ x = false /\ tidy x) /\ P) True ss
    | EErr => False
    | _ => True
    end.
  (** The adjoint, read off the definition in a textbook. *)
  Fixpoint adjoint_of (e : expr (K k) (A a)) : expr (K k) (A a) :=
    match e with
    | EConst z => EConst (kconj k z)
    | EAtom x => EAtom (aadj a x)
    | EProd kd s fs => EProd kd (kconj k s) (rev (map adjoint_of fs))
    | ESum ci ss => ESum ci (map adjoint_of ss)
    | EErr => EErr
    end.
End Tidy.
Arguments tidy {k a}. Arguments adjoint_of {k a}.

Section Collect.
  Variable k : kops.
  Variable a : aops k.
  Notation E := (expr (K k) (A a)).
  (** The terms of a list of summands: with flattening, the sums among them are taken apart. *)
  Fixpoint terms_of (e : E) : list E := match e with ESum _ ss => flat_map terms_of ss | _ => [e] end.
  Definition terms (flat : bool) (xs : list E) : list E := if flat then flat_map terms_of xs else xs.
  (** What is known about the lookup in a hash set, whatever the hash function: if it finds an
      element, that element is in the set and equivalent to the one looked up. *)
  Definition lookup_spec (look : list E -> E -> option nat) : Prop :=
    forall acc x j, look acc x = Some j -> j < length acc /\ proportional k a (nth j acc EErr) x = true.
  (** What a term is a multiple of: terms with the same list are like terms. *)
  Definition factors_of (x : E) : list E := match x with EProd _ _ l => l | _ => [x] end.
  (** The lookup misses nothing: the hash function agrees with the equivalence. *)
  Definition lookup_complete (look : list E -> E -> option nat) : Prop :=
    forall acc x, look acc x = None -> Forall (fun y => proportional k a y x = false) acc.
End Collect.
Arguments terms_of {k a}. Arguments terms {k a}. Arguments lookup_spec {k a}. Arguments factors_of {k a}. Arguments lookup_complete {k a}.
