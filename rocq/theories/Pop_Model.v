(** * Model of removing a tensor from an expression and of transforming an expression
    (SeQuant/core/utility/expr.cpp, SeQuant/core/expressions/abstract_tensor.cpp)

    A tensor is its label and its indices (bra, ket and aux together); symmetries and tags are left
    out. Power and operators are not modelled. *)
From Coq Require Import List Bool Arith.
From Verif Require Import Num_Model.
Import ListNotations.

Record tensor := mkT { t_label : nat; t_idx : list nat }.
Inductive expr :=
| ETensor (t : tensor)
| EConst (c : cplx)
| EVar (v : nat)
| EProd (scalar : cplx) (factors : list expr)
| ESum (summands : list expr).

Fixpoint list_eqb (a b : list nat) : bool :=
  match a, b with
  | [], [] => true
  | x :: a', y :: b' => Nat.eqb x y && list_eqb a' b'
  | _, _ => false
  end.
Definition tensor_eqb (a b : tensor) : bool := Nat.eqb (t_label a) (t_label b) && list_eqb (t_idx a) (t_idx b).
(** operator== of std::optional<ExprPtr>, where the expressions are tensors. *)
Definition opt_eqb (a b : option tensor) : bool :=
  match a, b with
  | None, None => true
  | Some x, Some y => tensor_eqb x y
  | _, _ => false
  end.

(** Expr::is_zero: constant.hpp:115, product.hpp:274; false for the others. *)
Definition is_zero (e : expr) : bool :=
  match e with EConst c => c_is_zero c | EProd c _ => c_is_zero c | _ => false end.

(** [*(summands_[*constant_summand_idx_]) += *summand], sum.hpp:134-140: there is at most one
    constant summand. *)
Fixpoint add_const (acc : list expr) (c : cplx) : list expr :=
  match acc with
  | [] => [EConst c]
  | EConst d :: r => EConst (c_add d c) :: r
  | x :: r => x :: add_const r c
  end.
(** [Sum::append], sum.hpp:127-151. *)
Fixpoint sum_append (acc : list expr) (e : expr) : list expr :=
  match e with
  | ESum ts => (fix go acc ts := match ts with [] => acc | x :: r => go (sum_append acc x) r end) acc ts
  | EConst c => if c_is_zero c then acc else add_const acc c
  | _ => if is_zero e then acc else acc ++ [e]
  end.

(** [Product::append] with Flatten::No, product.hpp:152-184. *)
Definition prod_append (s : cplx) (acc : list expr) (e : expr) : cplx * list expr :=
  match e with EConst c => (c_mul s c, acc) | _ => (s, acc ++ [e]) end.
(** [Product::append] with Flatten::Yes. *)
Fixpoint prod_append_flat (s : cplx) (acc : list expr) (e : expr) : cplx * list expr :=
  match e with
  | EConst c => (c_mul s c, acc)
  | EProd c fs =>
      (fix go s acc fs := match fs with
                          | [] => (s, acc)
                          | x :: r => let '(s', acc') := prod_append_flat s acc x in go s' acc' r
                          end) (c_mul s c) acc fs
  | _ => (s, acc ++ [e])
  end.

Definition is_zero_const (e : expr) : bool := match e with EConst c => c_is_zero c | _ => false end.
Definition first_of (a b : option tensor) : option tensor := match a with None => b | Some _ => a end.

(** [pop_tensor], expr.cpp:474-540. [None]: an assertion fails. Otherwise the popped tensor, if any,
    and the changed expression. *)
Fixpoint pop (l : nat) (e : expr) : option (option tensor * expr) :=
  match e with
  | ETensor t => if Nat.eqb (t_label t) l then Some (Some t, EConst c0) else Some (None, e)
  | EConst _ | EVar _ => Some (None, e)
  | ESum ts =>
      (fix go ts acc tn :=
         match ts with
         | [] => Some (tn, ESum acc)
         | x :: r =>
             match pop l x with
             | None => None
             | Some (p, x') =>
                 let tn' := first_of tn p in
                 if opt_eqb tn' p then go r (sum_append acc x') tn' else None
             end
         end) ts [] None
  | EProd c fs =>
      (fix go fs s acc tn :=
         match fs with
         | [] => Some (tn, match acc with
                           | [] => EConst c0
                           | [f] => if c_is_identity s then f else EProd s acc
                           | _ => EProd s acc
                           end)
         | x :: r =>
             match pop l x with
             | None => None
             | Some (p, x') =>
                 let tn' := first_of tn p in
                 if match p with None => true | Some _ => opt_eqb tn' p end
                 then if is_zero_const x' then go r s acc tn'
                      else let '(s', acc') := prod_append s acc x' in go r s' acc' tn'
                 else None
             end
         end) fs c [] None
  end.

(** [has_tensor], abstract_tensor.cpp:14-32. *)
Definition is_labelled (l : nat) (e : expr) : bool :=
  match e with ETensor t => Nat.eqb (t_label t) l | _ => false end.
Fixpoint has_tensor (l : nat) (e : expr) : bool :=
  match e with
  | EConst _ | EVar _ => false
  | ETensor t => Nat.eqb (t_label t) l
  | EProd _ fs => existsb (is_labelled l) fs
  | ESum ts => existsb (has_tensor l) ts
  end.

(** [remove_tensor], abstract_tensor.cpp:35-63. *)
Fixpoint remove_factors (l : nat) (s : cplx) (acc : list expr) (fs : list expr) : cplx * list expr :=
  match fs with
  | [] => (s, acc)
  | x :: r =>
      if is_labelled l x then remove_factors l s acc r
      else let '(s', acc') := prod_append_flat s acc x in remove_factors l s' acc' r
  end.
Fixpoint remove_tensor (l : nat) (e : expr) : expr :=
  match e with
  | ESum ts => ESum ((fix go acc ts := match ts with [] => acc | x :: r => go (sum_append acc (remove_tensor l x)) r end) [] ts)
  | EProd c fs => let '(s, acc) := remove_factors l c [] fs in EProd s acc
  | ETensor t => if Nat.eqb (t_label t) l then EConst c1 else e
  | EConst _ | EVar _ => e
  end.

(** [transform_expr], expr.cpp:418-472. [None]: "Invalid Expr type". *)
Definition replace (m : list (nat * nat)) (i : nat) : nat :=
  match find (fun p => Nat.eqb (fst p) i) m with Some p => snd p | None => i end.
Definition transform_tensor (m : list (nat * nat)) (t : tensor) : tensor := mkT (t_label t) (map (replace m) (t_idx t)).
Fixpoint transform_factors (m : list (nat * nat)) (s : cplx) (acc : list expr) (fs : list expr) : option (cplx * list expr) :=
  match fs with
  | [] => Some (s, acc)
  | ETensor t :: r => transform_factors m s (acc ++ [ETensor (transform_tensor m t)]) r
  | EVar v :: r => transform_factors m s (acc ++ [EVar v]) r
  | EConst c :: r => transform_factors m (c_mul s c) acc r
  | _ :: _ => None
  end.
(** [ex<Constant>(scaling_factor) * expr] is a product with that scalar. *)
Fixpoint transform (m : list (nat * nat)) (k : cplx) (e : expr) : option expr :=
  match e with
  | EConst c => Some (if c_is_identity k then e else EProd (c_mul k c) [])
  | EVar v => Some (if c_is_identity k then e else EProd k [e])
  | ETensor t =>
      let t' := ETensor (transform_tensor m t) in
      Some (if c_is_identity k then t' else EProd k [t'])
  | EProd c fs =>
      match transform_factors m c [] fs with
      | None => None
      | Some (s, acc) => Some (EProd (c_mul s k) acc)
      end
  | ESum ts =>
      (fix go acc ts :=
         match ts with
         | [] => Some (ESum acc)
         | x :: r => match transform m k x with None => None | Some x' => go (sum_append acc x') r end
         end) [] ts
  end.
