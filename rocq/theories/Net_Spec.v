(** What the canonicalization of tensor networks is measured against: the value of a network, and
    when two networks are the same. *)
From Coq Require Import ZArith List Arith Bool Permutation Ring.
From Verif Require Import Alg_Spec Tsr_Model Tsr_Spec.
Import ListNotations.

(** ** Networks *)

(** A network is a list of tensors; its indices are those in the slots. *)
Definition indices (N : list tensor) : list index := flat_map slots N.

(** An index of a registered space: no tag, no proto-indices, not null. *)
Definition plain (S : space -> Prop) (i : index) : Prop :=
  S (ix_space i) /\ ix_tag i = None /\ ix_protos i = [] /\ ix_null i = false.

(** The tensor with other names for its indices. *)
Definition renamed (f : index -> index) (t : tensor) : tensor :=
  mktensor (t_label t) (map f (t_bra t)) (map f (t_ket t)) (map f (t_aux t)) (t_symm t) (t_bk t) (t_col t) (t_bra_net t) (t_ket_net t).

(** Two networks that are the same up to what does not matter: the order of the tensors, the order of
    slots in symmetric tensors, the orientation of tensors with symmetric bra and ket, and the names of
    the indices that are not named. [sign] is true if they differ in sign. *)
Inductive equivalent (named : list index) : list tensor -> list tensor -> bool -> Prop :=
| eqv_refl N : equivalent named N N false
| eqv_trans N M P s s' : equivalent named N M s -> equivalent named M P s' -> equivalent named N P (xorb s s')
| eqv_sym N M s : equivalent named N M s -> equivalent named M N s
| eqv_order N M : Permutation N M -> equivalent named N M false
| eqv_slots t u s N : related t u s -> equivalent named (t :: N) (u :: N) s
| eqv_turn t u N : t_bk t = BKSymm -> mirror t u -> equivalent named (t :: N) (u :: N) false
| eqv_names f N :
    (forall i j, In i (indices N) -> In j (indices N) -> f i = f j -> i = j) ->
    (forall i, In i (indices N) -> ix_space (f i) = ix_space i /\ (In i named -> f i = i) /\ (~ In i named -> ~ In (f i) named)) ->
    equivalent named N (map (renamed f) N) false.

(** ** Values *)

(** The numbers: a commutative ring. *)
Record cring := CRing
  { carrier :> Type;
    r0 : carrier; r1 : carrier;
    radd : carrier -> carrier -> carrier; rmul : carrier -> carrier -> carrier; ropp : carrier -> carrier;
    rring : ring_theory r0 r1 radd rmul (fun x y => radd x (ropp y)) ropp eq }.
Arguments r0 {_}. Arguments r1 {_}. Arguments radd {_}. Arguments rmul {_}. Arguments ropp {_}.

Definition signed {K : cring} (s : bool) (x : K) : K := if s then ropp x else x.

Fixpoint index_eq_dec (i j : index) {struct i} : {i = j} + {i <> j}.
Proof.
  destruct i as [s o t ps], j as [s' o' t' ps'].
  destruct (list_eq_dec index_eq_dec ps ps') as [E|E]; [|right; intros [= H1 H2 H3 H4]; auto].
  assert (D : {(s, o, t) = (s', o', t')} + {(s, o, t) <> (s', o', t')}) by (repeat decide equality).
  destruct D as [D|D]; [left|right; intros [= H1 H2 H3 H4]; apply D; congruence].
  injection D as D1 D2 D3. exact (f_equal4 Idx D1 D2 D3 E).
Defined.

(** The indices that occur once, and the named indices: those given, otherwise those that occur
    once. *)
Definition externals (N : list tensor) : list index :=
  filter (fun i => count_occ index_eq_dec (indices N) i =? 1) (indices N).
Definition named_indices (given : option (list index)) (N : list tensor) : list index :=
  match given with Some l => l | None => externals N end.

Section Value.
  Context {K : cring} {D : Type}.
  (** The values over which an index of a space runs. *)
  Variable range : space -> list D.
  (** The elements of the tensors: for a label and the declared symmetries the number for given bra,
      ket and auxiliary values. *)
  Variable E : list Z -> symmetry -> bksymmetry -> colsymmetry -> list D -> list D -> list D -> K.

  (** The elements have the declared symmetries. *)
  Definition symmetric_elements : Prop :=
    (forall l bk x b b' k k', Permutation b b' -> Permutation k k' ->
       E l Symm bk ColSymm b k x = E l Symm bk ColSymm b' k' x) /\
    (forall l bk x b b' k k' n m, exchanges n b b' -> exchanges m k k' ->
       E l Antisymm bk ColSymm b k x = signed (Nat.odd (n + m)) (E l Antisymm bk ColSymm b' k' x)) /\
    (forall l bk x (c c' : list (D * D)) r r' q q', r = [] \/ q = [] ->
       Permutation c c' -> Permutation r r' -> Permutation q q' ->
       E l Nonsymm bk ColSymm (map fst c ++ r) (map snd c ++ q) x = E l Nonsymm bk ColSymm (map fst c' ++ r') (map snd c' ++ q') x) /\
    (forall l s c x b k, E l s BKSymm c b k x = E l s BKSymm c k b x).

  (** The element of a tensor when the indices have the values [a]. *)
  Definition element (a : index -> D) (t : tensor) : K :=
    E (t_label t) (t_symm t) (t_bk t) (t_col t) (map a (t_bra t)) (map a (t_ket t)) (map a (t_aux t)).
  Definition product (N : list tensor) (a : index -> D) : K := fold_right (fun t x => rmul (element a t) x) r1 N.

  (** The sum over all values of the indices [is]; the other indices have the values [a]. *)
  Definition update (a : index -> D) (i : index) (d : D) : index -> D := fun j => if index_eq_dec j i then d else a j.
  Fixpoint total (is : list index) (f : (index -> D) -> K) (a : index -> D) : K :=
    match is with
    | [] => f a
    | i :: is' => fold_right (fun d x => radd (total is' f (update a i d)) x) r0 (range (ix_space i))
    end.

  (** The indices that are summed over: those that are not named. *)
  Definition dummies (named : list index) (N : list tensor) (ds : list index) : Prop :=
    NoDup ds /\ forall i, In i ds <-> In i (indices N) /\ ~ In i named.
End Value.
