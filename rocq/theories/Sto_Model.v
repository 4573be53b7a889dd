(** Model of optimize for products and sums (SeQuant/core/optimize/optimize.cpp:86-240,
    single_term.hpp:190-230): how the evaluation sequence of the single-term optimiser becomes an
    expression.

    The expressions are those of the binarization model. The evaluation sequence is a parameter: it is
    what detail::single_term_opt returns for the tensors of the product (modelled in Opt_Model).
    Not modelled: normal operators, adjoint flags, the identity of shared subexpressions. *)
From Coq Require Import List Arith Bool ZArith.
From Verif Require Import Idx_Model Bin_Model.
Import ListNotations.

Section Opt.
  Variable K : Type.
  Variable one : K.
  Variable mul : K -> K -> K.

  (** a Product object: scalar and factors *)
  Definition product := (K * list (bex K))%type.
  Definition to_bex (p : product) : bex K := Mul (fst p) (snd p).

  (** Expr::is<Tensor> *)
  Definition is_ten (e : bex K) : bool := match e with Ten _ => true | _ => false end.
  (** Expr::is_scalar (expr.hpp:170-176): constants and variables; sums and products that are not
      empty and have only scalar operands *)
  Fixpoint is_scalar (e : bex K) : bool :=
    match e with
    | Con _ | Var _ => true
    | Ten _ => false
    | Add [] | Mul _ [] => false
    | Add l | Mul _ l => (fix go l := match l with [] => true | x :: l' => is_scalar x && go l' end) l
    end.

  (** Product::append(1, factor, Flatten::No) (product.hpp:160-190, for values) *)
  Definition append_no (p : product) (e : bex K) : product :=
    match e with
    | Con z => (mul (fst p) z, snd p)
    | _ => (fst p, snd p ++ [e])
    end.
  (** Product(scalar, factors, Flatten::No) *)
  Definition mk_no (s : K) (l : list (bex K)) : product := fold_left append_no l (s, []).
  (** Product::prepend(1, factor, Flatten::No) (product.hpp:205-235): for a factor that is a product
      its scalar is multiplied in, and the factor itself (with its scalar) is put in front *)
  Definition prepend_no (e : bex K) (p : product) : product :=
    match e with
    | Con z => (mul (fst p) z, snd p)
    | Mul s l => (mul (fst p) s, e :: snd p)
    | _ => (fst p, e :: snd p)
    end.
  (** Product::scale *)
  Definition scale (s : K) (p : product) : product := (mul (fst p) s, snd p).

  (** the loop over the sequence (single_term.hpp:208-223): -1 combines the last two results, any
      other number is a position in the list of tensors (vector::at throws if there is none) *)
  Fixpoint build (ts : list (bex K)) (seq : list Z) (stack : list (bex K)) : res (list (bex K)) :=
    match seq with
    | [] => Ret stack
    | c :: seq' =>
        if Z.eqb c (-1) then
          match stack with
          | r :: l :: stack' => let p := mk_no one [l; r] in build ts seq' (to_bex (mk_no one (snd p)) :: stack')
          | _ => Undefined
          end
        else if Z.leb 0 c then
          match nth_error ts (Z.to_nat c) with
          | Some t => build ts seq' (t :: stack)
          | None => Threw
          end
        else Threw
    end.

  (** single_term_opt (single_term.hpp:191-230). Undefined: the last result is missing or not a
      product (as<Product> asserts that it is). *)
  Definition single_term_opt (seq_of : list (bex K) -> list Z) (p : product) : res product :=
    if length (snd p) <? 3 then Ret (mk_no (fst p) (snd p))
    else
      let ts := filter is_ten (snd p) in
      bind (build ts (seq_of ts) []) (fun stack =>
      match stack with
      | Mul s l :: _ => Ret (scale (fst p) (fold_right prepend_no (s, l) (filter is_scalar (snd p))))
      | _ => Undefined
      end).

  (** ** products with other factors (optimize.cpp:132-179) *)
  (** the label "@__opt_<i>" *)
  Variable placeholder : nat -> nat.
  Fixpoint to_ex (e : bex K) : ex :=
    match e with
    | Con _ | Var _ => Scal
    | Ten t => Tens t
    | Add l => Sum (map to_ex l)
    | Mul _ l => Prod (map to_ex l)
    end.
  (** the new factors *)
  Fixpoint stand_in (i : nat) (l : list (bex K)) : res (list (bex K)) :=
    match l with
    | [] => Ret []
    | f :: l' =>
        bind (if is_ten f || is_scalar f then Ret f
              else bind (get_unique_indices (to_ex f)) (fun g =>
                   Ret (Ten (mkt (Ordinary (placeholder i)) (gbra g) (gket g) (gaux g))))) (fun f' =>
        bind (stand_in (S i) l') (fun r => Ret (f' :: r)))
    end.
  (** the replacer: a tensor with a placeholder label is replaced by the original factor;
      [find_label] decodes the label. Undefined: no such factor (failed assertion). *)
  Variable find_label : nat -> option nat.
  Definition put_back_one (l : list (bex K)) (e : bex K) : res (bex K) :=
    match e with
    | Ten t =>
        match tkind t with
        | Ordinary lab =>
            match find_label lab with
            | Some i =>
                match nth_error l i with
                | Some f => if is_ten f || is_scalar f then Undefined else Ret f
                | None => Undefined
                end
            | None => Ret e
            end
        | _ => Ret e
        end
    | _ => Ret e
    end.
  (** Expr::visit(visitor, atoms_only) (expr.hpp): all atoms, recursively; an empty sum or product is
      an atom *)
  Fixpoint put_back (l : list (bex K)) (e : bex K) : res (bex K) :=
    match e with
    | Con _ | Var _ | Ten _ => put_back_one l e
    | Add m => bind ((fix go m := match m with [] => Ret [] | x :: m' => bind (put_back l x) (fun y => bind (go m') (fun r => Ret (y :: r))) end) m) (fun m' => Ret (Add m'))
    | Mul c m => bind ((fix go m := match m with [] => Ret [] | x :: m' => bind (put_back l x) (fun y => bind (go m') (fun r => Ret (y :: r))) end) m) (fun m' => Ret (Mul c m'))
    end.
  Definition opt_mixed (seq_of : list (bex K) -> list Z) (p : product) : res (bex K) :=
    bind (stand_in 0 (snd p)) (fun l =>
    bind (single_term_opt seq_of (mk_no (fst p) l)) (fun q => put_back (snd p) (to_bex q))).

  (** optimize_impl (184-240) without the reordering of a sum (see Clu_Model) *)
  Fixpoint optimize (seq_of : list (bex K) -> list Z) (e : bex K) : res (bex K) :=
    match e with
    | Mul c l =>
        if forallb (fun x => is_ten x || is_scalar x) l
        then bind (single_term_opt seq_of (c, l)) (fun q => Ret (to_bex q))
        else opt_mixed seq_of (c, l)
    | Add l =>
        bind ((fix go l := match l with
               | [] => Ret []
               | x :: l' => bind (optimize seq_of x) (fun y => bind (go l') (fun r => Ret (y :: r)))
               end) l) (fun l' => Ret (Add l'))
    | _ => Ret e
    end.
End Opt.
