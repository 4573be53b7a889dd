(** * Specification for removing tensors: values of expressions and places of a tensor *)
From Coq Require Import List Bool Arith.
From Verif Require Import Num_Model Pop_Model.
Import ListNotations.

(** Value of an expression for given values of tensors and variables. *)
Section Value.
  Variable rho : nat -> list nat -> cplx.
  Variable sigma : nat -> cplx.
  Definition total (l : list cplx) : cplx := fold_right c_add c0 l.
  Definition prod (l : list cplx) : cplx := fold_right c_mul c1 l.
  Fixpoint val (e : expr) : cplx :=
    match e with
    | ETensor t => rho (t_label t) (t_idx t)
    | EConst c => c
    | EVar v => sigma v
    | EProd c fs => c_mul c (prod (map val fs))
    | ESum ts => total (map val ts)
    end.
End Value.

(** No tensor has the label, at any depth. *)
Fixpoint absent (l : nat) (e : expr) : Prop :=
  match e with
  | ETensor t => t_label t <> l
  | EConst _ | EVar _ => True
  | EProd _ fs => fold_right and True (map (absent l) fs)
  | ESum ts => fold_right and True (map (absent l) ts)
  end.

(** Products as the library builds them: constants are in the scalar; there is a factor. *)
Definition is_const (e : expr) : bool := match e with EConst _ => true | _ => false end.
Fixpoint normal (e : expr) : Prop :=
  match e with
  | EProd _ fs => fs <> [] /\ fold_right and True (map (fun f => is_const f = false /\ normal f) fs)
  | ESum ts => fold_right and True (map normal ts)
  | _ => True
  end.

(** Every term has the tensor [t] as a factor, exactly once and not as its only factor. *)
Inductive carries (t : tensor) : expr -> Prop :=
| carries_sum : forall ts, ts <> [] -> all_carry t ts -> carries t (ESum ts)
| carries_factor : forall c f1 f2, f1 ++ f2 <> [] -> Forall (absent (t_label t)) (f1 ++ f2) ->
    carries t (EProd c (f1 ++ ETensor t :: f2))
| carries_nested : forall c f1 f f2, carries t f -> Forall (absent (t_label t)) (f1 ++ f2) ->
    carries t (EProd c (f1 ++ f :: f2))
with all_carry (t : tensor) : list expr -> Prop :=
| all_carry_nil : all_carry t []
| all_carry_cons : forall e ts, carries t e -> all_carry t ts -> all_carry t (e :: ts).

(** A sum of products of tensors, variables and constants. *)
Definition is_atom (e : expr) : bool := match e with ETensor _ | EConst _ | EVar _ => true | _ => false end.
Definition flat_term (e : expr) : bool := match e with EProd _ fs => forallb is_atom fs | ESum _ => false | _ => true end.
Definition flat (e : expr) : bool := match e with ESum ts => forallb flat_term ts | _ => flat_term e end.

(** The label stands for one. *)
Definition set_one (l : nat) (rho : nat -> list nat -> cplx) : nat -> list nat -> cplx :=
  fun k ix => if Nat.eqb k l then c1 else rho k ix.
(** Indices stand for their replacements. *)
Definition renamed (m : list (nat * nat)) (rho : nat -> list nat -> cplx) : nat -> list nat -> cplx :=
  fun k ix => rho k (map (replace m) ix).
(** Products of atoms, in sums of any depth. *)
Fixpoint transformable (e : expr) : bool :=
  match e with
  | EProd _ fs => forallb is_atom fs
  | ESum ts => forallb transformable ts
  | _ => true
  end.
