(** * Model of SeQuant/core/export/reordering_context.{hpp,cpp} and of the integral rules of
    SeQuant/core/export/itf.cpp *)
From Coq Require Import List Arith Lia Bool Permutation.
Import ListNotations.

(** An [Index]: its space and its ordinal. Spaces are numbers; protoindices are not modelled. *)
Record idx := mkIdx { i_space : nat; i_ord : nat }.

Inductive layout := RowMajor | ColumnMajor | Unspecified.
Inductive symmetry := Symm | Antisymm | Nonsymm.
Inductive braket_symmetry := BKSymm | BKConjugate | BKNonsymm.
Inductive column_symmetry := ColSymm | ColNonsymm.

Record tensor := mkTensor {
  t_label : nat; t_bra : list idx; t_ket : list idx; t_aux : list idx;
  t_symm : symmetry; t_bksymm : braket_symmetry; t_colsymm : column_symmetry }.

Section Reorder.
  (** [IndexSpace::approximate_size] of the spaces. *)
  Variable asize : nat -> nat.
  Variable lay : layout.
  (** [std::sort] and [ranges::sort]: any sorting functions. *)
  Variable isort : (idx -> idx -> bool) -> list idx -> list idx.
  Variable psort : (idx * idx -> idx * idx -> bool) -> list (idx * idx) -> list (idx * idx).

  (** A space that may be the default-constructed one ([None], of size 0: space.hpp:550). *)
  Definition osize (s : option nat) : nat := match s with Some x => asize x | None => 0 end.
  Definition oeqb (s t : option nat) : bool :=
    match s, t with Some x, Some y => Nat.eqb x y | None, None => true | _, _ => false end.

  (** [is_less], reordering_context.cpp:226-240. *)
  Definition is_less (l r : option nat) : bool :=
    match lay with
    | RowMajor => osize l <? osize r
    | ColumnMajor => osize r <? osize l
    | Unspecified => false
    end.

  (** [is_ordered], cpp:242-245. *)
  Definition is_ordered (l r : option nat) : bool := is_less l r || Nat.eqb (osize l) (osize r).

  (** [needs_swap], cpp:247-250. *)
  Definition needs_swap (l r : option nat) : bool := negb (oeqb l r) && negb (is_ordered l r).

  (** [max_space_size_idx], cpp:15-28. *)
  Definition max_space (l : list idx) : option nat :=
    fold_left (fun m i => if osize m <? asize (i_space i) then Some (i_space i) else m) l None.

  (** [relevant_space], cpp:30-50. *)
  Definition relevant_space (l : list idx) : option nat :=
    match l with
    | [] => None
    | x :: l' => match lay with
                 | RowMajor => Some (i_space (last l' x))
                 | ColumnMajor => Some (i_space x)
                 | Unspecified => None
                 end
    end.

  (** The lambda [comparator], cpp:104-106. *)
  Definition cmp (l r : idx) : bool := is_less (Some (i_space l)) (Some (i_space r)).

  (** [PairComparator], cpp:52-94. *)
  Definition pair_cmp (first : bool) (l r : idx * idx) : bool :=
    let (l1, l2) := l in let (r1, r2) := r in
    if first then
      if cmp l1 r1 then true
      else if negb (cmp r1 l1) then (if cmp l2 r2 then true else false) else false
    else
      if cmp l2 r2 then true
      else if negb (cmp r2 l2) then (if cmp l1 r1 then true else false) else false.

  (** [std::ranges::is_sorted]: no element less than its predecessor. *)
  Fixpoint sortedb {A} (lt : A -> A -> bool) (l : list A) : bool :=
    match l with
    | [] => true
    | x :: l' => match l' with [] => true | y :: _ => negb (lt y x) && sortedb lt l' end
    end.

  (** [std::stable_sort], whose result is unique, as insertion sort. *)
  Fixpoint sinsert (x : idx) (l : list idx) : list idx :=
    match l with
    | [] => [x]
    | y :: l' => if cmp y x then y :: sinsert x l' else x :: y :: l'
    end.
  Fixpoint stable_sort (l : list idx) : list idx :=
    match l with [] => [] | x :: l' => sinsert x (stable_sort l') end.

  Definition nonempty {A} (l : list A) : bool := match l with [] => false | _ => true end.
  Definition is_Symm (t : tensor) : bool := match t_symm t with Symm => true | _ => false end.
  Definition is_BKSymm (t : tensor) : bool := match t_bksymm t with BKSymm => true | _ => false end.
  Definition is_ColSymm (t : tensor) : bool := match t_colsymm t with ColSymm => true | _ => false end.

  (** The decisions at cpp:108-152. *)
  Definition bra_over_ket (t : tensor) : bool := osize (max_space (t_ket t)) <=? osize (max_space (t_bra t)).
  Definition sort_bra (t : tensor) : bool := is_Symm t && negb (sortedb cmp (t_bra t)).
  Definition sort_ket (t : tensor) : bool := is_Symm t && negb (sortedb cmp (t_ket t)).
  Definition sort_particles (t : tensor) : bool :=
    negb (sort_bra t) && negb (sort_ket t) && nonempty (t_bra t)
    && Nat.eqb (length (t_bra t)) (length (t_ket t)) && is_ColSymm t
    && negb (sortedb (pair_cmp (bra_over_ket t)) (combine (t_bra t) (t_ket t))).
  Definition relevant_bra (t : tensor) : option nat :=
    if sort_bra t || (sort_particles t && bra_over_ket t) then max_space (t_bra t) else relevant_space (t_bra t).
  Definition relevant_ket (t : tensor) : option nat :=
    if sort_ket t || (sort_particles t && negb (bra_over_ket t)) then max_space (t_ket t) else relevant_space (t_ket t).
  Definition swap_braket (t : tensor) : bool :=
    nonempty (t_bra t) && nonempty (t_ket t) && is_BKSymm t && needs_swap (relevant_bra t) (relevant_ket t).
  Definition prioritize_aux (t : tensor) : bool :=
    nonempty (t_aux t)
    && needs_swap (if swap_braket t then relevant_ket t else relevant_bra t) (relevant_space (t_aux t)).

  (** [bra] and [ket] after the sorting steps, cpp:199-212. *)
  Definition sorted_braket (t : tensor) : list idx * list idx :=
    let b := if sort_bra t then isort cmp (t_bra t) else t_bra t in
    let k := if sort_ket t then isort cmp (t_ket t) else t_ket t in
    if sort_particles t then
      let ps := psort (pair_cmp (bra_over_ket t)) (combine b k) in (map fst ps, map snd ps)
    else (b, k).

  (** [ReorderingContext::rewrite], cpp:96-224. [None]: the tensor is left as it is and [false] is
      returned. [on] is [m_rewrite]. *)
  Definition rewrite_tensor (on : bool) (t : tensor) : option tensor :=
    if negb on then None
    else if negb (sort_bra t) && negb (sort_ket t) && negb (swap_braket t) && negb (prioritize_aux t)
            && negb (sort_particles t) then None
    else
      let (b, k) := sorted_braket t in
      let body := if swap_braket t then k ++ b else b ++ k in
      let x := stable_sort (t_aux t) in
      Some (mkTensor (t_label t) [] [] (if prioritize_aux t then x ++ body else body ++ x)
                     Nonsymm BKNonsymm ColNonsymm).

  (** The order in which the generators print the indices of a tensor. *)
  Definition all_indices (t : tensor) : list idx := t_bra t ++ t_ket t ++ t_aux t.
  Definition storage_order (on : bool) (t : tensor) : list idx :=
    match rewrite_tensor on t with Some t' => all_indices t' | None => all_indices t end.

  (** ** Two-electron integrals, ItfContext::rewrite, itf.cpp:108-203 *)
  Inductive integral := JInt (b0 b1 k0 k1 : idx) | KInt (b0 b1 k0 k1 : idx).

  Definition sp (i : idx) : option nat := Some (i_space i).
  Definition same_space (i j : idx) : bool := Nat.eqb (i_space i) (i_space j).

  (** [is_exceptional_J], itf.cpp:206-227. *)
  Definition is_exceptional_J (b0 b1 k0 k1 : idx) : bool :=
    same_space b0 b1 && negb (same_space k0 k1) && is_ordered (sp k0) (sp k1) && same_space k0 b0.

  (** The exchanges at itf.cpp:126-145: in each column, then of the columns. *)
  Definition order_pair (b k : idx) : idx * idx := if needs_swap (sp b) (sp k) then (k, b) else (b, k).
  Definition swap_cols (b0 b1 k0 k1 : idx) : bool :=
    if negb (same_space b0 b1) then needs_swap (sp b0) (sp b1)
    else if negb (same_space k0 k1) then needs_swap (sp k0) (sp k1)
    else false.

  (** [*p < *q] is only evaluated for indices of one space, where it compares ordinals. *)
  Definition iless (i j : idx) : bool := i_ord i <? i_ord j.
  Definition ieqb (i j : idx) : bool := same_space i j && Nat.eqb (i_ord i) (i_ord j).

  (** The cosmetic exchanges, itf.cpp:181-192: particles (p11,p12) and (p21,p22). *)
  Definition cosmetic (p11 p12 p21 p22 : idx) : idx * idx * (idx * idx) :=
    let '(p11, p12) := if same_space p11 p12 && iless p12 p11 then (p12, p11) else (p11, p12) in
    let '(p21, p22) := if same_space p21 p22 && iless p22 p21 then (p22, p21) else (p21, p22) in
    if same_space p11 p21 && same_space p12 p22 && (iless p21 p11 || (ieqb p11 p21 && iless p22 p12))
    then (p21, p22, (p11, p12)) else (p11, p12, (p21, p22)).

  (** The new tensor before [ReorderingContext::rewrite] is applied to it. *)
  Definition rewrite_integral (b0 b1 k0 k1 : idx) : integral :=
    let '(b0, k0) := order_pair b0 k0 in
    let '(b1, k1) := order_pair b1 k1 in
    let '(b0, b1, k0, k1) := if swap_cols b0 b1 k0 k1 then (b1, b0, k1, k0) else (b0, b1, k0, k1) in
    if is_exceptional_J b0 b1 k0 k1 || needs_swap (sp b1) (sp k0) then
      let '(b1, k0) := (k0, b1) in
      (* particle 1 is (b0, b1), particle 2 is (k0, k1) *)
      let '(b0, b1, (k0, k1)) := cosmetic b0 b1 k0 k1 in JInt b0 b1 k0 k1
    else
      (* particle 1 is (b0, k0), particle 2 is (b1, k1) *)
      let '(b0, k0, (b1, k1)) := cosmetic b0 k0 b1 k1 in KInt b0 b1 k0 k1.

  (** [ItfContext::rewrite], itf.cpp:108-203. [glab], [jlab], [klab]: the label of the integrals
      ([m_integral_label]) and the labels J and K. *)
  Definition is_integral (glab : nat) (t : tensor) : bool :=
    Nat.eqb (t_label t) glab && Nat.eqb (length (all_indices t)) 4
    && Nat.eqb (length (t_bra t)) 2 && Nat.eqb (length (t_ket t)) 2.

  Definition to_integral (jlab klab : nat) (t : tensor) : tensor :=
    match t_bra t, t_ket t with
    | [b0; b1], [k0; k1] =>
        match rewrite_integral b0 b1 k0 k1 with
        | JInt c0 c1 l0 l1 => mkTensor jlab [c0; c1] [l0; l1] (t_aux t) (t_symm t) (t_bksymm t) (t_colsymm t)
        | KInt c0 c1 l0 l1 => mkTensor klab [c0; c1] [l0; l1] (t_aux t) (t_symm t) (t_bksymm t) (t_colsymm t)
        end
    | _, _ => t
    end.

  Definition itf_rewrite (glab jlab klab : nat) (on : bool) (t : tensor) : tensor :=
    let t1 := if is_integral glab t then to_integral jlab klab t else t in
    match rewrite_tensor on t1 with Some t2 => t2 | None => t1 end.
End Reorder.
