(** Model of binarize (SeQuant/core/eval/eval_expr.cpp:345-640, eval_expr.hpp:392-470): the
    conversion of an expression to a binary tree of contractions and sums.

    Modelled: which nodes are built, and the slots of the result of every node. Not modelled: hash
    values, connectivity graphs, the canonical order and phase of the result's indices (a phase does
    not change the value that evaluate returns, see the evaluation model), the reordering of the slots
    of a leaf (see C94) and symmetries of results.
    Adjoint-marked tensors are leaves here (in the code: a node above the leaf). Powers are [Var]. *)
From Coq Require Import List Arith Bool.
From Verif Require Import Idx_Model.
Import ListNotations.

Section Binarize.
  (** the scalars *)
  Variable K : Type.
  Variable is_one : K -> bool.
  (** protoindices; BinarizationOptions::merge_indices *)
  Variable proto : idx -> list idx.
  Variable merge : bool.

  Inductive bex :=
  | Con (c : K)
  | Var (v : nat)
  | Ten (t : tensor)
  | Add (l : list bex)
  | Mul (c : K) (l : list bex).

  Inductive op := OSum | OProd.
  Inductive leaf := LCon (c : K) | LVar (v : nat) | LTen (t : tensor).
  (** The result of a node is a scalar (None) or a tensor with the given slots. *)
  Inductive node :=
  | Leaf (x : leaf)
  | Node (o : op) (r : option groups) (left right : node).

  Definition slots (t : tensor) : groups := mkg (tbra t) (tket t) (taux t).
  Definition nres (n : node) : option groups :=
    match n with
    | Leaf (LTen t) => Some (slots t)
    | Leaf _ => None
    | Node _ r _ _ => r
    end.
  Definition is_tensor (n : node) : bool := match nres n with Some _ => true | None => false end.

  (** detail::make_tensor (eval_expr.cpp:51-78); the sorting of each group is not modelled *)
  Definition make_tensor (g : groups) : groups :=
    if merge then mkg [] [] (gbra g ++ gket g ++ gaux g) else g.

  (** all_indices (345-359) *)
  Fixpoint all_indices (e : bex) : list idx :=
    match e with
    | Con _ | Var _ => []
    | Ten t => tbra t ++ tket t ++ taux t
    | Add [] => []
    | Add (x :: _) => all_indices x
    | Mul _ l => flat_map all_indices l
    end.

  (** collect_tensor_factors (365-383) *)
  Fixpoint collect (n : node) : list groups :=
    match n with
    | Leaf (LTen t) => [slots t]
    | Leaf _ => []
    | Node OSum (Some g) _ _ => [g]
    | Node OSum None _ _ => []
    | Node OProd _ l r => collect l ++ collect r
    end.

  (** target_indices (543-560) *)
  Definition nonproto (c : counters) : nat := cbra c + cket c + caux c.
  Definition counts_of (gs : list groups) : counts :=
    fold_left (fun m g => count_tensor proto (gbra g) (gket g) (gaux g) m) gs [].
  Definition single (kv : idx * counters) : bool := negb (Nat.eqb (nonproto (snd kv)) 0) && negb (1 <? total (snd kv)).
  Definition target_indices (gs : list groups) (uncontracted : list idx) : groups :=
    let m := counts_of gs in
    mkg (map fst (filter (fun kv => single kv && negb (Nat.eqb (cbra (snd kv)) 0)) m))
        (map fst (filter (fun kv => single kv && Nat.eqb (cbra (snd kv)) 0 && negb (Nat.eqb (cket (snd kv)) 0)) m))
        (map fst (filter (fun kv =>
           (single kv && Nat.eqb (cbra (snd kv)) 0 && Nat.eqb (cket (snd kv)) 0) ||
           (negb (Nat.eqb (nonproto (snd kv)) 0) && (1 <? total (snd kv)) && mem (fst kv) uncontracted)) m)).

  (** make_prod (513-592). The result is a scalar if there are no named indices: those that occur
      once and the uncontracted ones; modelled as: no target indices. *)
  Definition make_prod (uncontracted : list idx) (l r : node) : option groups :=
    match nres l, nres r with
    | None, None => None
    | Some g, None | None, Some g => Some (make_tensor g)
    | Some _, Some _ =>
        let g := target_indices (collect l ++ collect r) uncontracted in
        match all_of_groups g with
        | [] => None
        | _ => Some (make_tensor g)
        end
    end.
  Fixpoint fold_prod (acc : node) (imed : list (list idx)) (rest : list node) : node :=
    match rest with
    | [] => acc
    | n :: rest' =>
        match imed with
        | [] => acc
        | u :: imed' => fold_prod (Node OProd (make_prod u acc n) acc n) imed' rest'
        end
    end.

  (** make_sum (450-475) *)
  Definition fold_sum (tensors : bool) (n : node) (rest : list node) : node :=
    fold_left (fun acc m =>
      Node OSum (if tensors then option_map make_tensor (nres acc) else None) acc m) rest n.

  (** binarize (385-640). Undefined: failed assertions (a tensor without indices, an empty sum, a
      sum of tensors and scalars). *)
  Fixpoint binarize (e : bex) (uncontract : list idx) : res node :=
    match e with
    | Con c => Ret (Leaf (LCon c))
    | Var v => Ret (Leaf (LVar v))
    | Ten t => match tbra t ++ tket t ++ taux t with [] => Undefined | _ => Ret (Leaf (LTen t)) end
    | Add l =>
        bind ((fix go l := match l with
               | [] => Ret []
               | x :: l' => bind (binarize x uncontract) (fun n => bind (go l') (fun r => Ret (n :: r)))
               end) l) (fun ns =>
        match ns with
        | [] => Undefined
        | n :: rest =>
            if forallb is_tensor ns then Ret (fold_sum true n rest)
            else if forallb (fun n => negb (is_tensor n)) ns then Ret (fold_sum false n rest)
            else Undefined
        end)
    | Mul c [] => Ret (Leaf (LCon c))
    | Mul c l =>
        bind (ltr (map (fun x => nodup Nat.eq_dec (all_indices x)) l) uncontract) (fun u =>
        bind ((fix go l cs := match l with
               | [] => Ret []
               | x :: l' =>
                   match cs with
                   | [] => Undefined
                   | ch :: cs' => bind (binarize x ch) (fun n => bind (go l' cs') (fun r => Ret (n :: r)))
                   end
               end) l (fst u)) (fun ns =>
        match ns with
        | [] => Undefined
        | n :: rest =>
            let p := fold_prod n (tl (snd u)) rest in
            if is_one c then Ret p
            else Ret (Node OProd (option_map make_tensor (nres p)) p (Leaf (LCon c)))
        end))
    end.
End Binarize.

Arguments Con {K}. Arguments Var {K}. Arguments Ten {K}. Arguments Add {K}. Arguments Mul {K}.
Arguments LCon {K}. Arguments LVar {K}. Arguments LTen {K}.
Arguments Leaf {K}. Arguments Node {K}.
