(** Specification of the value of expressions and of binary trees (binarize).

    Values are in a commutative semiring. A tensor is a function of the values of its indices; an
    index runs over the list [dom]. Repeated indices are summed over. *)
From Coq Require Import List Arith Bool Ring_theory.
From Verif Require Import Idx_Model Bin_Model.
Import ListNotations.

Section Values.
  Variable K : Type.
  Variables (zero one : K) (add mul : K -> K -> K).
  Variable dom : idx -> list nat.
  Variable var : nat -> K.
  Variable tens : tensor -> list nat -> K.

  Definition env := idx -> nat.
  Definition set (r : env) (x : idx) (v : nat) : env := fun y => if Nat.eqb y x then v else r y.
  Fixpoint ksum (l : list K) : K := match l with [] => zero | x :: l' => add x (ksum l') end.
  Fixpoint kprod (l : list K) : K := match l with [] => one | x :: l' => mul x (kprod l') end.
  (** the sum over all values of the indices [xs] *)
  Fixpoint sum_over (xs : list idx) (f : env -> K) (r : env) : K :=
    match xs with
    | [] => f r
    | x :: xs' => ksum (map (fun v => sum_over xs' f (set r x v)) (dom x))
    end.

  Definition union (l : list (list idx)) : list idx := nodup Nat.eq_dec (concat l).
  Definition has (x : idx) (l : list (list idx)) : nat := length (filter (mem x) l).

  (** The indices of the value of an expression, if the indices [keep] are not summed over: those of
      the tensor; those of the (first) summand; those that exactly one factor has or that are kept. *)
  Fixpoint open (keep : list idx) (e : bex K) : list idx :=
    match e with
    | Con _ | Var _ => []
    | Ten t => nodup Nat.eq_dec (tbra t ++ tket t ++ taux t)
    | Add [] => []
    | Add (x :: _) => open keep x
    | Mul _ l => let os := map (open []) l in
        filter (fun x => Nat.eqb (has x os) 1 || mem x keep) (union os)
    end.
  (** The indices that a product sums over. *)
  Definition summed (keep : list idx) (l : list (bex K)) : list idx :=
    let os := map (open []) l in
    filter (fun x => (2 <=? has x os) && negb (mem x keep)) (union os).

  Fixpoint den (keep : list idx) (e : bex K) (r : env) : K :=
    match e with
    | Con c => c
    | Var v => var v
    | Ten t => tens t (map r (tbra t ++ tket t ++ taux t))
    | Add l => ksum (map (fun x => den keep x r) l)
    | Mul c l => mul c (sum_over (summed keep l) (fun r => kprod (map (fun x => den [] x r) l)) r)
    end.

  (** The value of a binary tree: a product sums over the indices of its operands that its result
      does not have. *)
  Definition nidx (n : node K) : list idx := match nres K n with Some g => all_of_groups g | None => [] end.
  Definition contracted (l r : list idx) (res : list idx) : list idx :=
    filter (fun x => negb (mem x res)) (nodup Nat.eq_dec (l ++ r)).
  Fixpoint nval (n : node K) (r : env) : K :=
    match n with
    | Leaf (LCon c) => c
    | Leaf (LVar v) => var v
    | Leaf (LTen t) => tens t (map r (tbra t ++ tket t ++ taux t))
    | Node OSum _ a b => add (nval a r) (nval b r)
    | Node OProd _ a b =>
        sum_over (contracted (nidx a) (nidx b) (nidx n)) (fun r => mul (nval a r) (nval b r)) r
    end.

  Definition same_set (a b : list idx) : Prop := forall x, In x a <-> In x b.

  (** Well-formed expressions: tensors have indices and none twice and no empty slots; summands have
      the same indices; an index that is seen in two factors of a product is an index of the value of
      both (the indices summed inside a factor are not used by other factors). *)
  Fixpoint wf (e : bex K) : Prop :=
    match e with
    | Con _ | Var _ => True
    | Ten t => NoDup (tbra t ++ tket t ++ taux t) /\ tbra t ++ tket t ++ taux t <> [] /\
               ~ In null (tbra t ++ tket t ++ taux t)
    | Add l => l <> [] /\ (forall x y, In x l -> In y l -> same_set (open [] x) (open [] y)) /\
        (fix go l := match l with [] => True | x :: l' => wf x /\ go l' end) l
    | Mul _ l =>
        (forall i j x y k, nth_error l i = Some x -> nth_error l j = Some y -> i <> j ->
           In k (all_indices K x) -> In k (all_indices K y) -> In k (open [] x)) /\
        (fix go l := match l with [] => True | x :: l' => wf x /\ go l' end) l
    end.
  (** The indices to be kept are not summed inside a factor of a product, and all summands have the
      same of them. *)
  Fixpoint keepable (keep : list idx) (e : bex K) : Prop :=
    match e with
    | Con _ | Var _ | Ten _ => True
    | Add l => (forall x y, In x l -> In y l -> same_set (open keep x) (open keep y)) /\
        (fix go l := match l with [] => True | x :: l' => keepable keep x /\ go l' end) l
    | Mul _ l => forall x k, In x l -> In k keep -> In k (all_indices K x) -> In k (open [] x)
    end.

  (** *** Products inside products

      The same without the condition on repeated use: an index that is seen in two factors of a
      product is the same index there, so a factor that is itself a product (or a sum of products)
      does not sum over the indices that the other factors have. This is how a product has to be read
      after single-term optimization, if an index occurs in three or more tensors. *)
  Definition kept (keep : list idx) (l : list (bex K)) (x : bex K) : list idx :=
    filter (fun k => (1 <? has k (map (all_indices K) l)) || mem k keep) (nodup Nat.eq_dec (all_indices K x)).
  Fixpoint gopen (keep : list idx) (e : bex K) : list idx :=
    match e with
    | Con _ | Var _ => []
    | Ten t => nodup Nat.eq_dec (tbra t ++ tket t ++ taux t)
    | Add [] => []
    | Add (x :: _) => gopen keep x
    | Mul _ l => let os := map (fun x => gopen (kept keep l x) x) l in
        filter (fun x => Nat.eqb (has x os) 1 || mem x keep) (union os)
    end.
  Definition gsummed (keep : list idx) (l : list (bex K)) : list idx :=
    let os := map (fun x => gopen (kept keep l x) x) l in
    filter (fun x => (2 <=? has x os) && negb (mem x keep)) (union os).
  Fixpoint gden (keep : list idx) (e : bex K) (r : env) : K :=
    match e with
    | Con c => c
    | Var v => var v
    | Ten t => tens t (map r (tbra t ++ tket t ++ taux t))
    | Add l => ksum (map (fun x => gden keep x r) l)
    | Mul c l => mul c (sum_over (gsummed keep l) (fun r => kprod (map (fun x => gden (kept keep l x) x r) l)) r)
    end.
  (** Tensors have indices, none twice, and no empty slots; summands have the same indices. *)
  Fixpoint gok (keep : list idx) (e : bex K) : Prop :=
    match e with
    | Con _ | Var _ => True
    | Ten t => NoDup (tbra t ++ tket t ++ taux t) /\ tbra t ++ tket t ++ taux t <> [] /\
               ~ In null (tbra t ++ tket t ++ taux t)
    | Add l => l <> [] /\ (forall x y, In x l -> In y l -> same_set (gopen keep x) (gopen keep y)) /\
        (fix go l := match l with [] => True | x :: l' => gok keep x /\ go l' end) l
    | Mul _ l => (fix go l' := match l' with [] => True | x :: l'' => gok (kept keep l x) x /\ go l'' end) l
    end.
End Values.
