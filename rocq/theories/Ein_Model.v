(** * Model of the statements written by the Python einsum generators
    (SeQuant/core/export/python_einsum.hpp) *)
From Coq Require Import List Bool Arith ZArith QArith Qcanon Ascii String.
From Verif Require Import Num_Model.
Import ListNotations.

(** An index is given by its full label (the bytes of its UTF-8 form). *)
Definition index := string.

(** ** Einsum subscripts *)
(** [index_map]; [used_chars] always holds the characters in it. *)
Definition imap := list (index * ascii).
Fixpoint find_char (m : imap) (l : index) : option ascii :=
  match m with
  | [] => None
  | (k, c) :: m' => if String.eqb k l then Some c else find_char m' l
  end.
Definition used (m : imap) (c : ascii) : bool := existsb (Ascii.eqb c) (map snd m).
Definition base_char (l : index) : ascii :=
  match l with EmptyString => "i"%char | String c _ => c end.

(** [get_einsum_index], python_einsum.hpp:393-438. [None]: "Too many unique indices". *)
Definition get_einsum_index (chars : list ascii) (l : index) (m : imap) : option (ascii * imap) :=
  match find_char m l with
  | Some c => Some (c, m)
  | None =>
      let c := base_char l in
      if used m c then
        match find (fun d => negb (used m d)) chars with
        | Some d => Some (d, (l, d) :: m)
        | None => None
        end
      else Some (c, (l, c) :: m)
  end.

(** [tensor_to_einsum_subscript], 441-450. *)
Fixpoint subscript (chars : list ascii) (ls : list index) (m : imap) : option (list ascii * imap) :=
  match ls with
  | [] => Some ([], m)
  | l :: ls' =>
      match get_einsum_index chars l m with
      | None => None
      | Some (c, m') =>
          match subscript chars ls' m' with
          | None => None
          | Some (cs, m'') => Some (c :: cs, m'')
          end
      end
  end.

(** ** Expressions *)
Record tensor := mkT { t_name : nat; t_idx : list index }.
(** Scalar leaves: Constant and Variable (with its conjugation flag). Power is not modelled. *)
Inductive leaf := LConst (c : cplx) | LVar (label : nat) (conjugated : bool).
Inductive expr :=
| ETensor (t : tensor)
| ELeaf (s : leaf)
| EProduct (scalar : cplx) (factors : list expr)
| ESum (summands : list expr).

(** Tokens of a Python expression; [TCall] is a call of einsum. *)
Record call := mkCall { c_ops : list (list ascii * tensor); c_out : list ascii }.
Inductive tok :=
| TInt (n : N) | TImag (n : N) | TName (v : nat) | TCall (c : call)
| TPlus | TMinus | TStar | TSlash | TLp | TRp.

(** operator<< of a rational: the numerator, and the denominator unless it is one. [last] prints
    the last number: for the imaginary part it is followed by "j". *)
Definition print_rat (last : N -> tok) (q : Qc) : list tok :=
  let n := Z.abs_N (numerator q) in
  let d := Z.abs_N (denominator q) in
  (if Z.ltb (numerator q) 0 then [TMinus] else []) ++
  (if N.eqb d 1 then [last n] else [TInt n; TSlash; last d]).

(** [represent(Constant)], 174-192. *)
Definition print_const (c : cplx) : list tok :=
  if qeqb (im c) 0 then print_rat TInt (re c)
  else TLp :: print_rat TInt (re c) ++
       (if qltb (im c) 0 then print_rat TImag (im c) else TPlus :: print_rat TImag (im c)) ++ [TRp].

(** [stringify_scalar], 494-503; [represent(Variable)], 169-172, does not look at the conjugation. *)
Definition print_leaf (s : leaf) : list tok :=
  match s with LConst c => print_const c | LVar v _ => [TName v] end.

(** [scalar_factor += " * " + repr], 519-525. *)
Definition add_factor (f new : list tok) : list tok :=
  match f with [] => new | _ => f ++ TStar :: new end.

(** State of [extract_einsum_components]: subscripts and tensors, scalar factor, index map. *)
Record state := mkS { s_ops : list (list ascii * tensor); s_scalar : list tok; s_map : imap }.

(** [extract_einsum_components], 506-553. *)
Fixpoint extract (chars : list ascii) (e : expr) (s : state) : option state :=
  match e with
  | ETensor t =>
      match subscript chars (t_idx t) (s_map s) with
      | None => None
      | Some (cs, m) => Some (mkS (s_ops s ++ [(cs, t)]) (s_scalar s) m)
      end
  | ELeaf x => Some (mkS (s_ops s) (add_factor (s_scalar s) (print_leaf x)) (s_map s))
  | EProduct c fs =>
      let s1 := if c_is_identity c then s
                else mkS (s_ops s) (add_factor (s_scalar s) (print_const c)) (s_map s) in
      (fix go fs s := match fs with
                      | [] => Some s
                      | f :: fs' => match extract chars f s with None => None | Some s' => go fs' s' end
                      end) fs s1
  | ESum _ => None
  end.

Definition is_one (f : list tok) : bool :=
  match f with [TInt 1%N] => true | _ => false end.

(** [to_einsum_expr], 453-490, with the indices of the result tensor; [to_python_scalar_expr] for a
    Product, 557-600, is the case of no indices. *)
Definition to_einsum_expr (chars : list ascii) (e : expr) (result : list index) : option (list tok) :=
  match extract chars e (mkS [] [] []) with
  | None => None
  | Some s =>
      match subscript chars result (s_map s) with
      | None => None
      | Some (out, _) =>
          match s_ops s with
          | [] => Some (match s_scalar s with [] => [TInt 1%N] | f => f end)
          | _ => let c := TCall (mkCall (s_ops s) out) in
                 match s_scalar s with
                 | [] => Some [c]
                 | f => if is_one f then Some [c] else Some (f ++ [TStar; c])
                 end
          end
      end
  end.

(** The subscript characters of the two generators, 726-730 and 836-839. *)
Definition pytorch_chars : list ascii := list_ascii_of_string "abcdefghijklmnopqrstuvwxyz".
Definition numpy_chars : list ascii :=
  list_ascii_of_string "abcdefghijklmnopqrstuvwxyzABCDEFGHIJKLMNOPQRSTUVWXYZ".

(** [sanitize_python_name], 362-389. *)
Definition is_digit (c : ascii) : bool := (48 <=? nat_of_ascii c) && (nat_of_ascii c <=? 57).
Definition is_alnum (c : ascii) : bool :=
  is_digit c || ((65 <=? nat_of_ascii c) && (nat_of_ascii c <=? 90))
  || ((97 <=? nat_of_ascii c) && (nat_of_ascii c <=? 122)).
Definition sanitize_char (c : ascii) : ascii :=
  if (nat_of_ascii c <? 128) && negb (is_alnum c) && negb (Ascii.eqb c "_"%char) then "_"%char else c.
Fixpoint sanitize_chars (s : string) : string :=
  match s with EmptyString => EmptyString | String c s' => String (sanitize_char c) (sanitize_chars s') end.
Definition sanitize (s : string) : string :=
  match sanitize_chars s with
  | String c s' => if is_digit c then String "_"%char (String c s') else String c s'
  | EmptyString => EmptyString
  end.
