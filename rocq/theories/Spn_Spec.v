(** Specification of spin tracing: what tensors, products and permutation operators mean, and what
    the sum over spins is. *)
From Coq Require Import ZArith QArith Qcanon List Arith Bool Permutation Ring.
From Verif Require Import Spn_Model.
Import ListNotations.
Local Open Scope nat_scope.

(** ** Numbers

    The values of tensors: a commutative ring that contains the rational numbers. *)
Record qalg := QAlg
  { car :> Type;
    q0 : car; q1 : car;
    qadd : car -> car -> car; qmul : car -> car -> car; qopp : car -> car;
    qring : ring_theory q0 q1 qadd qmul (fun x y => qadd x (qopp y)) qopp eq;
    rat : Qc -> car;
    rat_1 : rat 1%Qc = q1;
    rat_add : forall x y, rat (x + y)%Qc = qadd (rat x) (rat y);
    rat_mul : forall x y, rat (x * y)%Qc = qmul (rat x) (rat y) }.
Arguments q0 {_}. Arguments q1 {_}. Arguments qadd {_}. Arguments qmul {_}. Arguments qopp {_}.
Arguments rat {_}.

Declare Scope q_scope.
Delimit Scope q_scope with q.
Infix "+" := qadd : q_scope.
Infix "*" := qmul : q_scope.
Notation "- x" := (qopp x) : q_scope.
Notation "0" := q0 : q_scope.
Notation "1" := q1 : q_scope.

Definition sum {K : qalg} {X : Type} (f : X -> K) (l : list X) : K :=
  fold_right (fun x s => f x + s)%q 0%q l.
Definition prod {K : qalg} {X : Type} (f : X -> K) (l : list X) : K :=
  fold_right (fun x s => f x * s)%q 1%q l.
Definition sgn {K : qalg} (odd : bool) : K := if odd then (- (1))%q else 1%q.

(** ** Permutations with signs *)

(** All ways to insert [x] into a list, with the parity of the number of elements it passes. *)
Fixpoint insertions {X} (x : X) (l : list X) : list (bool * list X) :=
  match l with
  | [] => [(false, [x])]
  | y :: l' => (false, x :: l) ::
               map (fun sm : bool * list X => (negb (fst sm), y :: snd sm)) (insertions x l')
  end.
(** All rearrangements of the positions of a list with their parities. *)
Fixpoint signed_perms {X} (l : list X) : list (bool * list X) :=
  match l with
  | [] => [(false, [])]
  | x :: l' => flat_map (fun sm : bool * list X =>
                 map (fun sm' : bool * list X => (xorb (fst sm) (fst sm'), snd sm'))
                     (insertions x (snd sm))) (signed_perms l')
  end.

(** ** The value of an expression

    [a] gives a value (a point of the range of the index) to every index. [T] gives the components
    of the tensors (without their antisymmetry), [vars] the variables. *)
Section Value.
  Context {K : qalg} {V : Type}.
  Variable T : nat -> list V -> list V -> list V -> K.
  Variable vars : nat -> K.
  Implicit Type a : index -> V.

  (** An antisymmetric tensor is the signed sum over the permutations of its bra indices. *)
  Definition tensor_value (n : nat) (t : tensor) a : K :=
    match t_symm t with
    | Antisymm => sum (fun sq : bool * list V =>
                    sgn (fst sq) * T n (snd sq) (map a (t_ket t)) (map a (t_aux t)))%q
                      (signed_perms (map a (t_bra t)))
    | _ => T n (map a (t_bra t)) (map a (t_ket t)) (map a (t_aux t))
    end.

  (** The numerical factors of a product. *)
  Definition factor_value (x : factor) a : K :=
    match x with
    | Var v => vars v
    | Ten t => match t_label t with
               | L_named n => tensor_value n t a
               | _ => 1%q
               end
    end.

  (** The index [from_k] gets the value of [to_k]. *)
  Definition image (from to : list index) (i : index) : index :=
    match find (fun p : index * index => index_eqb (fst p) i) (combine from to) with
    | Some p => snd p
    | None => i
    end.
  Definition reassign (from to : list index) a : index -> V := fun i => a (image from to i).

  Definition over_fact (n : nat) : Qc := (1 / Q2Qc (inject_Z (Z.of_nat (fact n))))%Qc.

  (** The antisymmetrizer: the signed average over the permutations of its bra indices and of its
      ket indices. *)
  Definition antisymmetrizer (b k : list index) (F : (index -> V) -> K) a : K :=
    (rat (over_fact (length b) * over_fact (length k))%Qc *
     sum (fun sq : bool * list index =>
       sum (fun sr : bool * list index =>
         sgn (fst sq) * sgn (fst sr) * F (reassign (b ++ k) (snd sq ++ snd sr) a))%q
         (signed_perms k)) (signed_perms b))%q.

  (** The symmetrizer: the average over the permutations of its columns. *)
  Definition symmetrizer (b k : list index) (F : (index -> V) -> K) a : K :=
    (rat (over_fact (length b)) *
     sum (fun sc : bool * list (index * index) =>
       F (reassign (b ++ k) (map fst (snd sc) ++ map snd (snd sc)) a))
       (signed_perms (combine b k)))%q.

  (** The transposition operator: the first index is exchanged with the second, the third with the
      fourth and so on, in the bra and in the ket. *)
  Fixpoint exchange_pairs (l : list index) : list index :=
    match l with
    | i :: j :: l' => j :: i :: exchange_pairs l'
    | _ => l
    end.
  Definition transposition (b k : list index) (F : (index -> V) -> K) a : K :=
    F (reassign (b ++ k) (exchange_pairs b ++ exchange_pairs k) a).

  (** The operators of a product act, the first one last, on the product of the other factors. *)
  Definition apply_operator (x : factor) (F : (index -> V) -> K) : (index -> V) -> K :=
    match x with
    | Ten t => match t_label t with
               | L_A => antisymmetrizer (t_bra t) (t_ket t) F
               | L_S => symmetrizer (t_bra t) (t_ket t) F
               | L_P => transposition (t_bra t) (t_ket t) F
               | L_named _ => F
               end
    | Var _ => F
    end.
  Definition product_value (fs : list factor) a : K := prod (fun x => factor_value x a) fs.
  Definition term_value (tm : term) a : K :=
    (rat (scalar tm) * fold_right apply_operator (product_value (factors tm)) (factors tm) a)%q.
  Definition expr_value (e : expr) a : K := sum (fun tm => term_value tm a) e.

  (** Permuting the columns of a tensor does not change its components. *)
  Definition column_symmetric : Prop := forall n (c d : list (V * V)) x, Permutation c d ->
    T n (map fst c) (map snd c) x = T n (map fst d) (map snd d) x.
End Value.

(** ** Spin *)

(** A spin orbital: an orbital and a spin ([true] is alpha). *)
Definition conserves_spin {O} (b k : list (O * bool)) : bool :=
  forallb (fun bk : (O * bool) * (O * bool) => Bool.eqb (snd (fst bk)) (snd (snd bk))) (combine b k).

(** The components of a spin-independent tensor over spin orbitals: the spin is conserved in each
    column; auxiliary indices have no spin. *)
Definition spin_independent {K : qalg} {O} (T : nat -> list O -> list O -> list O -> K)
  (n : nat) (b k x : list (O * bool)) : K :=
  if conserves_spin b k then T n (map fst b) (map fst k) (map fst x) else 0%q.

(** A tensor over spin orbitals vanishes unless the spin is conserved in each column. *)
Definition spin_conserving {K : qalg} {O} (T : nat -> list (O * bool) -> list (O * bool) -> list (O * bool) -> K) : Prop :=
  forall n b k x, conserves_spin b k = false -> T n b k x = 0%q.

Section Sums.
  Context {K : qalg} {O : Type}.

  Definition update {X} (b : nat -> X) (i : nat) (o : X) : nat -> X :=
    fun j => if Nat.eqb j i then o else b j.
  (** The sum over the values of some indices. *)
  Fixpoint index_sum {X} (range : nat -> list X) (is : list nat) (F : (nat -> X) -> K) (b : nat -> X) : K :=
    match is with
    | [] => F b
    | i :: is' => sum (fun o => index_sum range is' F (update b i o)) (range i)
    end.

  (** The sum over the spins of some groups of indices; the indices of a group have the same
      spin. *)
  Definition set_group (g : list nat) (v : bool) (s : nat -> bool) : nat -> bool :=
    fun i => if existsb (Nat.eqb i) g then v else s i.
  Fixpoint spin_sum (groups : list (list nat)) (F : (nat -> bool) -> K) (s : nat -> bool) : K :=
    match groups with
    | [] => F s
    | g :: gs => (spin_sum gs F (set_group g true s) + spin_sum gs F (set_group g false s))%q
    end.

  (** The indices of a product, and those that are not external. *)
  Definition orbital_indices (fs : list factor) : list nat :=
    flat_map (fun x => match x with Ten t => map fst (t_bra t ++ t_ket t) | Var _ => [] end) fs.
  Definition all_indices (fs : list factor) : list nat :=
    flat_map (fun x => match x with Ten t => map fst (t_bra t ++ t_ket t ++ t_aux t) | Var _ => [] end) fs.
  Definition summed (ext : list nat) (l : list nat) : list nat :=
    nodup Nat.eq_dec (filter (fun i => negb (existsb (Nat.eqb i) ext)) l).

  Variable range : nat -> list O.
  Variable vars : nat -> K.

  (** The value of a spin-free expression with given external indices: the sum over the orbitals of
      the internal indices. *)
  Definition spin_free_value (T : nat -> list O -> list O -> list O -> K) (ext : list nat)
    (e : expr) (b : nat -> O) : K :=
    sum (fun tm => index_sum range (summed ext (all_indices (factors tm)))
           (fun b' => term_value T vars tm (fun i => b' (fst i))) b) e.

  (** The spin trace of an expression over spin orbitals: the sum over the orbitals of the internal
      indices, over the spins of the internal indices, and over the spins of the groups of external
      indices. *)
  Definition spin_traced_value (T : nat -> list (O * bool) -> list (O * bool) -> list (O * bool) -> K)
    (groups : list (list nat))
    (e : expr) (b : nat -> O) : K :=
    sum (fun tm => index_sum range (summed (concat groups) (all_indices (factors tm)))
           (fun b' => spin_sum (map (fun i => [i]) (summed (concat groups) (orbital_indices (factors tm))) ++ groups)
             (fun s => term_value T vars tm (fun i => (b' (fst i), s (fst i))))
             (fun _ => true)) b) e.

  (** The value of an expression whose indices carry spins. *)
  Definition spin_value (s : spin) : bool := match s with beta => false | _ => true end.
  Definition spin_labelled_value (T : nat -> list (O * bool) -> list (O * bool) -> list (O * bool) -> K)
    (ext : list nat) (e : expr) (b : nat -> O) : K :=
    sum (fun tm => index_sum range (summed ext (all_indices (factors tm)))
           (fun b' => term_value T vars tm (fun i => (b' (fst i), spin_value (snd i)))) b) e.

  (** The value of an expression over spin orbitals with given spins of the external indices. *)
  Definition spin_orbital_value (T : nat -> list (O * bool) -> list (O * bool) -> list (O * bool) -> K)
    (ext : list nat) (e : expr) (b : nat -> O) (s0 : nat -> bool) : K :=
    sum (fun tm => index_sum range (summed ext (all_indices (factors tm)))
           (fun b' => spin_sum (map (fun i => [i]) (summed ext (orbital_indices (factors tm))))
             (fun s => term_value T vars tm (fun i => (b' (fst i), s (fst i)))) s0) b) e.
End Sums.

(** ** Well-formed expressions *)

(** [lt] orders the indices totally. *)
Definition total_order (lt : index -> index -> bool) : Prop :=
  (forall i, lt i i = false) /\
  (forall i j k, lt i j = true -> lt j k = true -> lt i k = true) /\
  (forall i j, i = j \/ lt i j = true \/ lt j i = true).

Definition spin_any (l : list index) : Prop := forall i, In i l -> snd i = any.

(** A tensor as many bra as ket indices, without repetitions in the bra or in the ket, and without
    spins. *)
Definition good_tensor (t : tensor) : Prop :=
  length (t_bra t) = length (t_ket t) /\ NoDup (t_bra t) /\ NoDup (t_ket t) /\
  spin_any (t_bra t ++ t_ket t ++ t_aux t).

(** An antisymmetrizer over external indices. *)
Definition good_antisymmetrizer (ext : list nat) (t : tensor) : Prop :=
  NoDup (t_bra t ++ t_ket t) /\ spin_any (t_bra t ++ t_ket t) /\ t_aux t = [] /\
  incl (map fst (t_bra t ++ t_ket t)) ext.

(** A product of tensors and variables with at most one operator, an antisymmetrizer. *)
Definition is_operator (x : factor) : bool :=
  match x with
  | Ten t => match t_label t with L_named _ => false | _ => true end
  | Var _ => false
  end.
Definition good_term (ext : list nat) (tm : term) : Prop :=
  (forall t, In (Ten t) (factors tm) -> forall n, t_label t = L_named n -> good_tensor t) /\
  (filter is_operator (factors tm) = [] \/
   exists t, filter is_operator (factors tm) = [Ten t] /\ t_label t = L_A /\ good_antisymmetrizer ext t).

(** The tensors and variables of a product, without the operators. *)
Definition nonops (fs : list factor) : list factor := filter (fun x => negb (is_operator x)) fs.

Definition no_aux (fs : list factor) : Prop := forall t, In (Ten t) fs -> t_aux t = [].

(** Groups of external indices: distinct, without spins. *)
Definition names (l : list index) : list nat := map fst l.
Definition good_groups (groups : list (list index)) : Prop :=
  NoDup (concat groups) /\ spin_any (concat groups).
Definition pairs (groups : list (list index)) : Prop := forall g, In g groups -> length g = 2.

(** The columns of an antisymmetrizer are groups of external indices. *)
Definition columns_are_groups (groups : list (list index)) (tm : term) : Prop :=
  forall A, In (Ten A) (factors tm) -> t_label A = L_A ->
    length (t_bra A) = length (t_ket A) /\ 1 <= length (t_bra A) /\
    forall i j, In (i, j) (combine (t_bra A) (t_ket A)) -> In [i; j] groups \/ In [j; i] groups.
