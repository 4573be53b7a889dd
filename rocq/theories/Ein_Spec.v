(** * Specification for einsum statements: Python arithmetic, einsum, and the value of an expression

    Nothing here refers to the generator. *)
From Coq Require Import List Bool Arith ZArith QArith Qcanon Ascii String.
From Verif Require Import Num_Model Ein_Model.
Import ListNotations.

Definition ofN (n : N) : cplx := c_of (Q2Qc (inject_Z (Z.of_N n))).
Definition imagN (n : N) : cplx := mkc 0 (Q2Qc (inject_Z (Z.of_N n))).

(** ** Arithmetic expressions of Python

    expr: term (('+'|'-') term)*;  term: unary (('*'|'/') unary)*;  unary: '-' unary | atom;
    atom: number | imaginary number | name | call | '(' expr ')'.
    Operators group to the left. [None]: syntax error, division by zero or a failing call. *)
Section Python.
  Variable names : nat -> cplx.
  Variable calls : call -> option cplx.

  Fixpoint py_expr (n : nat) (ts : list tok) : option (cplx * list tok) :=
    match n with
    | O => None
    | S n => match py_term n ts with Some (v, r) => py_expr_loop n v r | None => None end
    end
  with py_expr_loop (n : nat) (v : cplx) (ts : list tok) : option (cplx * list tok) :=
    match n with
    | O => None
    | S n =>
        match ts with
        | TPlus :: r => match py_term n r with Some (w, r') => py_expr_loop n (c_add v w) r' | None => None end
        | TMinus :: r => match py_term n r with Some (w, r') => py_expr_loop n (c_sub v w) r' | None => None end
        | _ => Some (v, ts)
        end
    end
  with py_term (n : nat) (ts : list tok) : option (cplx * list tok) :=
    match n with
    | O => None
    | S n => match py_unary n ts with Some (v, r) => py_term_loop n v r | None => None end
    end
  with py_term_loop (n : nat) (v : cplx) (ts : list tok) : option (cplx * list tok) :=
    match n with
    | O => None
    | S n =>
        match ts with
        | TStar :: r => match py_unary n r with Some (w, r') => py_term_loop n (c_mul v w) r' | None => None end
        | TSlash :: r =>
            match py_unary n r with
            | Some (w, r') => match c_div v w with Some q => py_term_loop n q r' | None => None end
            | None => None
            end
        | _ => Some (v, ts)
        end
    end
  with py_unary (n : nat) (ts : list tok) : option (cplx * list tok) :=
    match n with
    | O => None
    | S n =>
        match ts with
        | TMinus :: r => match py_unary n r with Some (v, r') => Some (c_opp v, r') | None => None end
        | TInt k :: r => Some (ofN k, r)
        | TImag k :: r => Some (imagN k, r)
        | TName x :: r => Some (names x, r)
        | TCall c :: r => match calls c with Some v => Some (v, r) | None => None end
        | TLp :: r => match py_expr n r with Some (v, TRp :: r') => Some (v, r') | _ => None end
        | _ => None
        end
    end.

  (** The text evaluates to [v]. *)
  Definition py_value (ts : list tok) (v : cplx) : Prop :=
    exists n0 : nat, forall n, (n0 <= n)%nat -> py_expr n ts = Some (v, []).
End Python.

(** ** Contractions over labels of any kind *)
Section Contraction.
  Context {A : Type} (eqb : A -> A -> bool).
  Definition env := list (A * nat).
  Fixpoint value_of (e : env) (a : A) : nat :=
    match e with [] => 0%nat | (b, i) :: e' => if eqb b a then i else value_of e' a end.
  Definition memb (a : A) (l : list A) : bool := existsb (eqb a) l.
  (** Labels in order of first appearance. *)
  Fixpoint distinct (l : list A) : list A :=
    match l with [] => [] | a :: l' => a :: filter (fun b => negb (eqb a b)) (distinct l') end.

  Definition sum_range (n : nat) (f : nat -> cplx) : cplx := fold_right c_add c0 (map f (seq 0%nat n)).
  Fixpoint sum_labels (dim : A -> nat) (ls : list A) (e : env) (body : env -> cplx) : cplx :=
    match ls with
    | [] => body e
    | a :: ls' => sum_range (dim a) (fun i => sum_labels dim ls' ((a, i) :: e) body)
    end.
  Definition prod (l : list cplx) : cplx := fold_right c_mul c1 l.
End Contraction.

(** ** numpy.einsum

    The dimension of a letter is found in the shape of an operand; letters that are not in the
    output are summed over; a letter must not be repeated in the output and must be in an operand. *)
Section Einsum.
  Variable shape : tensor -> list nat.
  Variable array : nat -> list nat -> cplx.
  Definition letters (ops : list (list ascii * tensor)) : list ascii := List.concat (map fst ops).
  Definition letter_dim (ops : list (list ascii * tensor)) (c : ascii) : nat :=
    value_of Ascii.eqb (List.concat (map (fun o => combine (fst o) (shape (snd o))) ops)) c.
  Definition einsum (k : call) (at_ : list nat) : option cplx :=
    if forallb (fun c => memb Ascii.eqb c (letters (c_ops k))) (c_out k)
       && Nat.eqb (List.length (distinct Ascii.eqb (c_out k))) (List.length (c_out k))
    then Some (sum_labels (letter_dim (c_ops k))
                 (filter (fun c => negb (memb Ascii.eqb c (c_out k))) (distinct Ascii.eqb (letters (c_ops k))))
                 (combine (c_out k) at_)
                 (fun e => prod (map (fun o => array (t_name (snd o)) (map (value_of Ascii.eqb e) (fst o))) (c_ops k))))
    else None.
End Einsum.

(** ** Value of an expression: indices that are not in the result are summed over *)
Section Value.
  Variable dim : index -> nat.
  Variable array : nat -> list nat -> cplx.
  Variable var : nat -> cplx.
  Definition leaf_value (s : leaf) : cplx :=
    match s with LConst c => c | LVar v b => if b then c_conj (var v) else var v end.
  Fixpoint indices (e : expr) : list index :=
    match e with
    | ETensor t => t_idx t
    | ELeaf _ => []
    | EProduct _ fs => flat_map indices fs
    | ESum fs => flat_map indices fs
    end.
  Fixpoint at_env (e : expr) (v : env) : cplx :=
    match e with
    | ETensor t => array (t_name t) (map (value_of String.eqb v) (t_idx t))
    | ELeaf s => leaf_value s
    | EProduct c fs => c_mul c (prod (map (fun f => at_env f v) fs))
    | ESum fs => fold_right c_add c0 (map (fun f => at_env f v) fs)
    end.
  Definition expr_value (e : expr) (result : list index) (at_ : list nat) : cplx :=
    sum_labels dim (filter (fun i => negb (memb String.eqb i result)) (distinct String.eqb (indices e)))
      (combine result at_) (at_env e).
End Value.

(** The tensors of an expression. *)
Fixpoint tensors (e : expr) : list tensor :=
  match e with
  | ETensor t => [t]
  | ELeaf _ => []
  | EProduct _ fs | ESum fs => flat_map tensors fs
  end.

(** What the generator supports: products of tensors and scalars. *)
Fixpoint no_sum (e : expr) : Prop :=
  match e with
  | ETensor _ | ELeaf _ => True
  | EProduct _ fs => fold_right and True (map no_sum fs)
  | ESum _ => False
  end.

(** Conjugated variables and imaginary parts that are not integers are excluded. *)
Definition whole_imaginary (c : cplx) : Prop := denominator (im c) = 1%Z.
Fixpoint plain (e : expr) : Prop :=
  match e with
  | ETensor _ => True
  | ELeaf (LConst c) => whole_imaginary c
  | ELeaf (LVar _ b) => b = false
  | EProduct c fs => whole_imaginary c /\ fold_right and True (map plain fs)
  | ESum fs => fold_right and True (map plain fs)
  end.

(** A Python identifier: not empty, of letters, digits, underscores and bytes of other scripts, and
    not starting with a digit. *)
Definition identifier (s : string) : Prop :=
  match s with
  | EmptyString => False
  | String c _ => is_digit c = false
  end /\
  Forall (fun c => is_alnum c = true \/ c = "_"%char \/ (128 <= nat_of_ascii c)%nat) (list_ascii_of_string s).
