(** * Model of SeQuant/domain/mbpt/antisymmetrizer.{hpp,cpp}

    [antisymm_element] (all distinct permutations of the indices of a product, with signs),
    [antisymmetrize] and [antisymm::num_closed_loops]. *)
From Coq Require Import List Arith Lia Bool ZArith Permutation.
From Verif Require Import Alg_Model.
Import ListNotations.

(** ** [gen_antisymm_unique], antisymmetrizer.cpp:125-229 *)

(** The [while (true)] loop of [swapcounting_tracking_next_permutation], cpp:147-167. As in
    [Alg_Model.next_perm_loop], [suffix] is [i1,last) and [before] is [first,i1) reversed. The
    third component is [nswaps]. [None]: an iterator leaves the range (undefined). *)
Fixpoint swapcount_loop (suffix before : list nat) : option (bool * list nat * nat) :=
  match before with
  | [] => None
  | x :: before' =>
      match suffix with
      | [] => None
      | y :: _ =>
          if Nat.ltb x y then
            match swap_pivot Nat.ltb x (rev suffix) with
            | None => None
            | Some (z, rsw) => Some (true, rev before' ++ z :: rsw, 1 + length suffix / 2)
            end
          else match before' with
               | [] => Some (false, rev (x :: suffix), S (length suffix) / 2)
               | _ => swapcount_loop (x :: suffix) before'
               end
      end
  end.

(** [swapcounting_tracking_next_permutation], cpp:139-168. *)
Definition swapcount_next (l : list nat) : option (bool * list nat * nat) :=
  match rev l with
  | [] => Some (false, l, 0)
  | [_] => Some (false, l, 0)
  | y :: before => swapcount_loop [y] before
  end.

(** [std::is_sorted] on a range of integers: no element is less than its predecessor. *)
Fixpoint is_sorted (l : list nat) : bool :=
  match l with
  | [] => true
  | x :: l' => match l' with
               | [] => true
               | y :: _ => negb (Nat.ltb y x) && is_sorted l'
               end
  end.

(** [is_canonical_sign], cpp:189-203, first component: every index group is sorted.
    A group is the pair of positions [first, last). *)
Definition is_canonical (groups : list (nat * nat)) (numbers : list nat) : bool :=
  forallb (fun g : nat * nat => is_sorted (firstn (snd g - fst g) (skipn (fst g) numbers))) groups.

(** The [while (do_next_perm)] loop, cpp:180-226: the appended entries as sign and numbers.
    [None]: fuel exhausted or undefined behaviour. [int] is unbounded. *)
Fixpoint gen_loop (groups : list (nat * nat)) (fuel : nat) (total_swaps : nat) (numbers : list nat)
  : option (list (Z * list nat)) :=
  match fuel with
  | O => None
  | S f =>
      match swapcount_next numbers with
      | None => None
      | Some (false, _, _) => Some []
      | Some (true, numbers', nswaps) =>
          let total := total_swaps + nswaps in
          match gen_loop groups f total numbers' with
          | None => None
          | Some r =>
              if is_canonical groups numbers'
              then Some ((if Nat.eqb (total mod 2) 0 then 1%Z else (-1)%Z, numbers') :: r)
              else Some r
          end
      end
  end.

(** [gen_antisymm_unique], cpp:125-229. The first entry is the given order with sign 1 (cpp:171).
    [d] is the value of a default-constructed element (cpp:208). *)
Definition gen_antisymm_unique {I : Type} (d : I) (groups : list (nat * nat)) (fuel : nat)
  (ordered : list I) : option (list (Z * list I)) :=
  match gen_loop groups fuel 0 (seq 0 (length ordered)) with
  | None => None
  | Some r => Some ((1%Z, ordered)
                    :: map (fun sn : Z * list nat => (fst sn, map (fun k => nth k ordered d) (snd sn))) r)
  end.

(** ** [antisymm_element] *)
Section Element.
  Variables (I C : Type) (d : I) (c1 : C) (cmul : C -> C -> C) (cneg : C -> C).

  (** The factors of a product the class accepts: tensors, constants, fermionic normal operators.
      Symmetries of tensors are not part of the model: the rebuilt tensors have default ones. *)
  Inductive factor :=
  | FTensor (label : nat) (bra ket : list I)
  | FConst (c : C)
  | FOp (cre ann : list I).

  (** A [Product]: its scalar and its factors. *)
  Record product := mkProduct { p_scalar : C; p_factors : list factor }.

  (** Lower and upper indices of a factor as collected at cpp:22-25 and cpp:37-40. *)
  Definition f_bra (f : factor) : list I :=
    match f with FTensor _ b _ => b | FConst _ => [] | FOp _ a => a end.
  Definition f_ket (f : factor) : list I :=
    match f with FTensor _ _ k => k | FConst _ => [] | FOp c _ => c end.
  Definition has_group (f : factor) : bool := match f with FConst _ => false | _ => true end.

  (** The assertions at cpp:21 and cpp:36. *)
  Definition ranks_ok (f : factor) : bool := Nat.eqb (length (f_bra f)) (length (f_ket f)).

  (** [index_group], cpp:15-20 and cpp:32-35. *)
  Fixpoint index_group (start : nat) (fs : list factor) : list (nat * nat) :=
    match fs with
    | [] => []
    | f :: fs' =>
        if has_group f
        then (start, start + length (f_bra f)) :: index_group (start + length (f_bra f)) fs'
        else index_group start fs'
    end.

  (** [starting_constant], cpp:13 and cpp:27. The scalar of the product is not a factor, so the
      loop does not see it. *)
  Definition starting_constant (fs : list factor) : C :=
    fold_left (fun acc f => match f with FConst c => cmul acc c | _ => acc end) fs c1.

  (** The factor loop, cpp:74-110: tensors are put in front, operators at the end. The running
      position is represented by what is left of both index lists. *)
  Fixpoint rebuild (fs : list factor) (bs ks : list I) (acc : list factor) : list factor :=
    match fs with
    | [] => acc
    | FConst _ :: fs' => rebuild fs' bs ks acc
    | FTensor lab b _ :: fs' =>
        rebuild fs' (skipn (length b) bs) (skipn (length b) ks)
                (FTensor lab (firstn (length b) bs) (firstn (length b) ks) :: acc)
    | FOp _ a :: fs' =>
        rebuild fs' (skipn (length a) bs) (skipn (length a) ks)
                (acc ++ [FOp (firstn (length a) ks) (firstn (length a) bs)])
    end.

  (** An integer sign times a constant. *)
  Definition signed (s : Z) (c : C) : C := if Z.eqb s 1 then c else cneg c.

  (** One product, cpp:69-111. The sign is read from entry [i] of the {e ket} list and entry [j]
      of the {e bra} list, the indices from entry [i] of the bra list and entry [j] of the ket
      list (cpp:70-71 and 82-83). [None]: index out of range. *)
  Definition one_term (fs : list factor) (bras kets : list (Z * list I)) (i j : nat) : option product :=
    match nth_error bras i, nth_error kets j, nth_error kets i, nth_error bras j with
    | Some bi, Some kj, Some ki, Some bj =>
        Some (mkProduct (signed (fst ki * fst bj) (starting_constant fs))
                        (rebuild fs (snd bi) (snd kj) []))
    | _, _, _, _ => None
    end.

  Fixpoint collect {A} (l : list (option A)) : option (list A) :=
    match l with
    | [] => Some []
    | None :: _ => None
    | Some a :: l' => option_map (cons a) (collect l')
    end.

  (** The two outer loops, cpp:66-67: all products before repeated ones are dropped. *)
  Definition all_terms (fuel : nat) (p : product) : option (list product) :=
    let fs := p_factors p in
    if forallb ranks_ok fs then
      match gen_antisymm_unique d (index_group 0 fs) fuel (concat (map f_bra fs)),
            gen_antisymm_unique d (index_group 0 fs) fuel (concat (map f_ket fs)) with
      | Some bras, Some kets =>
          collect (concat (map (fun i => map (fun j => one_term fs bras kets i j) (seq 0 (length kets)))
                               (seq 0 (length bras))))
      | _, _ => None
      end
    else None.

  (** [summand_exists] and the growing sum, cpp:47-64 and cpp:112-116. [same] is equality of the
      canonicalized products. *)
  Definition screen (same : product -> product -> bool) (ts : list product) : list product :=
    fold_left (fun acc t => if existsb (same t) acc then acc else acc ++ [t]) ts [].

  (** The constructor [antisymm_element], cpp:10-121: the summands of [result]. *)
  Definition antisymm_element (same : product -> product -> bool) (fuel : nat) (p : product)
    : option (list product) := option_map (screen same) (all_terms fuel p).

  (** Expressions [antisymmetrize] distinguishes, cpp:231-252. *)
  Inductive aexpr := AProd (p : product) | AOther (n : nat) | ASum (l : list (product + nat)).

  (** [antisymmetrize], cpp:231-252: the summands of the result. *)
  Definition antisymmetrize (same : product -> product -> bool) (fuel : nat) (e : aexpr)
    : option (list (product + nat)) :=
    let one p := option_map (map (@inl product nat)) (antisymm_element same fuel p) in
    match e with
    | AProd p => one p
    | AOther n => Some [inr n]
    | ASum l => option_map (@concat _) (collect (map (fun s => match s with
                                                             | inl p => one p
                                                             | inr n => Some [inr n]
                                                             end) l))
    end.
End Element.
Arguments FTensor {I C}. Arguments FConst {I C}. Arguments FOp {I C}.
Arguments mkProduct {I C}. Arguments p_scalar {I C}. Arguments p_factors {I C}.
Arguments f_bra {I C}. Arguments f_ket {I C}. Arguments has_group {I C}. Arguments ranks_ok {I C}.
Arguments index_group {I C}. Arguments rebuild {I C}. Arguments screen {I C}.
Arguments starting_constant {I C}. Arguments signed {C}. Arguments one_term {I C}.
Arguments all_terms {I C}. Arguments antisymm_element {I C}. Arguments antisymmetrize {I C}.
Arguments AProd {I C}. Arguments AOther {I C}. Arguments ASum {I C}.

(** ** [antisymm::num_closed_loops], antisymmetrizer.cpp:256-313

    Indices are compared by label: an index is its label, a number. *)
Inductive outcome (A : Type) :=
| Ok (a : A)
| AssertFailed      (* a SEQUANT_ASSERT fails *)
| Undefined         (* a vector is accessed out of range *)
| NoFuel.
Arguments Ok {A}. Arguments AssertFailed {A}. Arguments Undefined {A}. Arguments NoFuel {A}.

Definition obind {A B} (x : outcome A) (f : A -> outcome B) : outcome B :=
  match x with Ok a => f a | AssertFailed => AssertFailed | Undefined => Undefined | NoFuel => NoFuel end.

(** [v[i]] with [i = -1] (here [None]) or too large being undefined. *)
Definition at_ (v : list nat) (i : option nat) : outcome nat :=
  match i with
  | Some k => match nth_error v k with Some x => Ok x | None => Undefined end
  | None => Undefined
  end.

(** Position of the last element equal to [x] (cpp:268-274), [None] for the initial value -1. *)
Fixpoint last_pos (x : nat) (v : list nat) : option nat :=
  match v with
  | [] => None
  | y :: v' => match last_pos x v' with
               | Some k => Some (S k)
               | None => if Nat.eqb x y then Some 0 else None
               end
  end.

(** [where_same_ele], cpp:264-278. [chk]: assertions are enabled. *)
Definition where_same_ele (chk : bool) (x : nat) (v : list nat) : outcome (option nat) :=
  if chk && (2 <=? length (filter (Nat.eqb x) v)) then AssertFailed else Ok (last_pos x v).

Section Loops.
  Variables (chk : bool) (init_upper init_lower new_upper new_lower : list nat).

  (** The [while (!closed)] loop, cpp:289-307: whether the chain closed, and [in_loop]. *)
  Fixpoint chain (fuel : nat) (chain_end lower : nat) (in_loop : list nat) : outcome (bool * list nat) :=
    if Nat.eqb chain_end lower then Ok (true, in_loop)
    else match fuel with
         | O => NoFuel
         | S f =>
             obind (where_same_ele chk lower init_lower) (fun w =>
             obind (at_ init_upper w) (fun u =>
             obind (where_same_ele chk u new_upper) (fun e =>
             match e with
             | None => Ok (false, in_loop)
             | Some k => obind (at_ new_lower (Some k)) (fun lower' =>
                           chain f chain_end lower' (in_loop ++ [lower']))
             end)))
         end.

  (** The [for] loop over the new pairs, cpp:281-312. *)
  Fixpoint loops (fuel : nat) (is : list nat) (result : nat) (in_loop : list nat)
    : outcome (nat * list nat) :=
    match is with
    | [] => Ok (result, in_loop)
    | i :: is' =>
        if chk && negb (Nat.eqb (length new_upper) (length new_lower)) then AssertFailed
        else
          obind (at_ new_lower (Some i)) (fun low =>
          obind (where_same_ele chk low in_loop) (fun e =>
          match e with
          | Some _ => loops fuel is' result in_loop
          | None =>
              obind (at_ new_upper (Some i)) (fun up =>
              obind (where_same_ele chk up init_upper) (fun sp =>
              obind (at_ init_lower sp) (fun chain_end =>
              obind (chain fuel chain_end low in_loop) (fun ci =>
              loops fuel is' (if fst ci then S result else result) (snd ci ++ [low])))))
          end))
    end.

  (** [num_closed_loops], cpp:256-318. *)
  Definition num_closed_loops (fuel : nat) : outcome nat :=
    obind (loops fuel (seq 0 (length new_upper)) 0 []) (fun ri =>
    if chk && negb ((length (snd ri) <=? length init_lower) && (fst ri <=? length init_lower))
    then AssertFailed else Ok (fst ri)).
End Loops.
