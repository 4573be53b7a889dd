(** Model of index comparison, of the slots of a tensor and of the canonicalizers of one tensor:
    SeQuant/core/index.hpp, SeQuant/core/space.hpp, SeQuant/core/tag.hpp,
    SeQuant/core/expressions/tensor.hpp, SeQuant/core/expressions/tensor.cpp,
    SeQuant/core/tensor_canonicalizer.hpp, SeQuant/core/tensor_canonicalizer.cpp. *)
From Coq Require Import ZArith List Arith Bool.
From Verif Require Import Alg_Model.
Import ListNotations.

(** ** Spaces and indices *)

(** [IndexSpace], space.hpp:378-552: the attribute (quantum numbers and type, both read as
    [to_int32()]) and the base key. Keys are strings in the code; here they are numbers ordered as
    the strings are. [approximate_size_] and [field_] take no part in any comparison. *)
Record space := mkspace { sp_qns : Z; sp_type : Z; sp_key : Z }.

(** [bitset::reserved], fwd.hpp:16 ([0x80000000] read as [int32_t]). *)
Definition reserved_bits : Z := (-2147483648)%Z.

(** [Attr::operator==], space.hpp:354-356. *)
Definition attr_eqb (a b : space) : bool := (sp_type a =? sp_type b)%Z && (sp_qns a =? sp_qns b)%Z.

(** [Attr::operator<], space.hpp:360-366. *)
Definition attr_ltb (a b : space) : bool :=
  if (sp_qns a =? sp_qns b)%Z then (sp_type a <? sp_type b)%Z else (sp_qns a <? sp_qns b)%Z.

(** [attr() == Attr::reserved], space.hpp:593. *)
Definition attr_reserved (a : space) : bool := (sp_type a =? reserved_bits)%Z && (sp_qns a =? reserved_bits)%Z.

(** [operator<=>(IndexSpace, IndexSpace)], space.hpp:586-598. *)
Definition space_cmp (a b : space) : comparison :=
  if negb (attr_eqb a b) then (if attr_ltb a b then Lt else Gt)
  else if attr_reserved a && negb (sp_key a =? sp_key b)%Z then (if (sp_key a <? sp_key b)%Z then Lt else Gt)
  else Eq.

(** [operator==(IndexSpace, IndexSpace)], space.hpp:604-608. *)
Definition space_eqb (a b : space) : bool := attr_eqb a b && (sp_key a =? sp_key b)%Z.

(** [operator<(IndexSpace, IndexSpace)]: the rewritten [(a <=> b) < 0]. *)
Definition space_ltb (a b : space) : bool := match space_cmp a b with Lt => true | _ => false end.

(** [Index], index.hpp:75-1000: the space, the ordinal (none for an index that is only its space),
    the tag (tag.hpp:249-310; tags are [int] here, as [TensorCanonicalizer] assigns them) and the
    proto-indices. [symmetric_proto_indices_] and the memoized labels take no part in any
    comparison. *)
Inductive index := Idx (sp : space) (ord : option nat) (tag : option Z) (protos : list index).

Definition ix_space (i : index) : space := match i with Idx s _ _ _ => s end.
Definition ix_ord (i : index) : option nat := match i with Idx _ o _ _ => o end.
Definition ix_tag (i : index) : option Z := match i with Idx _ _ t _ => t end.
Definition ix_protos (i : index) : list index := match i with Idx _ _ _ p => p end.

(** [IndexSpace::null] and [Index::null], space.hpp:554, index.hpp:1064. *)
Definition null_space : space := mkspace 0 0 0.
Definition null_index : index := Idx null_space None None [].

(** [std::optional]: [==] and [<]; no value is less than every value. *)
Definition opt_eqb (a b : option nat) : bool :=
  match a, b with None, None => true | Some x, Some y => Nat.eqb x y | _, _ => false end.
Definition opt_ltb (a b : option nat) : bool :=
  match a, b with _, None => false | None, Some _ => true | Some x, Some y => Nat.ltb x y end.

(** [operator==(Index, Index)], index.hpp:1004-1010. Comparing two [std::vector]s compares their
    sizes and their elements in order. *)
Fixpoint ix_eqb (i j : index) {struct i} : bool :=
  match i, j with
  | Idx s o _ ps, Idx s' o' _ ps' =>
      space_eqb s s' && (negb (attr_reserved s) || (sp_key s =? sp_key s')%Z) && opt_eqb o o' &&
      (fix all2 (l l' : list index) {struct l} : bool :=
         match l, l' with
         | [], [] => true
         | x :: m, y :: m' => ix_eqb x y && all2 m m'
         | _, _ => false
         end) ps ps'
  end.

(** Comparing two [std::vector]s of indices with [==]. *)
Fixpoint list_eqb (l m : list index) : bool :=
  match l, m with
  | [], [] => true
  | x :: l', y :: m' => ix_eqb x y && list_eqb l' m'
  | _, _ => false
  end.

(** [operator<=>(Index, Index)], index.hpp:1020-1052. The proto-indices are in a [std::vector],
    which compares them lexicographically with this same operator. *)
Fixpoint ix_cmp (i j : index) {struct i} : comparison :=
  match i, j with
  | Idx s o t ps, Idx s' o' t' ps' =>
      let sans_tag :=
        match space_cmp s s' with
        | Eq =>
            if negb (opt_eqb o o') then (if opt_ltb o o' then Lt else Gt)
            else if list_eqb ps ps' then Eq
            else match (fix lex (l l' : list index) {struct l} : comparison :=
                          match l, l' with
                          | [], [] => Eq
                          | [], _ :: _ => Lt
                          | _ :: _, [] => Gt
                          | x :: m, y :: m' => match ix_cmp x y with Eq => lex m m' | c => c end
                          end) ps ps' with Lt => Lt | _ => Gt end
        | c => c
        end in
      if (sp_qns s =? sp_qns s')%Z then
        match t, t' with
        | Some a, Some b => if (a =? b)%Z then sans_tag else if (a <? b)%Z then Lt else Gt
        | _, _ => sans_tag
        end
      else if (sp_qns s <? sp_qns s')%Z then Lt else Gt
  end.

(** [operator<(Index, Index)]. *)
Definition ix_ltb (i j : index) : bool := match ix_cmp i j with Lt => true | _ => false end.

(** [Index::nonnull], index.hpp:449-452. *)
Definition ix_null (i : index) : bool := ix_eqb i null_index.

(** [ranges::lexicographical_compare] with a "less" predicate: at the first position where one
    element is less than the other, that decides; otherwise the shorter range is less. *)
Fixpoint lex_less {A} (lt : A -> A -> bool) (l m : list A) : bool :=
  match l, m with
  | _, [] => false
  | [], _ :: _ => true
  | x :: l', y :: m' => if lt x y then true else if lt y x then false else lex_less lt l' m'
  end.

(** [Index::LabelCompare], index.hpp:881-888. *)
Definition label_less (i j : index) : bool :=
  if negb (space_eqb (ix_space i) (ix_space j)) then space_ltb (ix_space i) (ix_space j)
  else opt_ltb (ix_ord i) (ix_ord j).

(** [Index::FullLabelCompare], index.hpp:895-905: [(i less than j, j less than i)]. Both directions
    are computed together because [lexicographical_compare] asks for both and Coq accepts recursion
    on one argument only. [C77_full_label_recursion] proves the equation of the code. *)
Fixpoint full_label_less2 (i j : index) {struct i} : bool * bool :=
  match i, j with
  | Idx s o _ ps, Idx s' o' _ ps' =>
      if negb (space_eqb s s') then (space_ltb s s', space_ltb s' s)
      else if negb (opt_eqb o o') then (opt_ltb o o', opt_ltb o' o)
      else (fix lex2 (l l' : list index) {struct l} : bool * bool :=
              match l, l' with
              | [], [] => (false, false)
              | [], _ :: _ => (true, false)
              | _ :: _, [] => (false, true)
              | x :: m, y :: m' =>
                  let '(a, b) := full_label_less2 x y in
                  (if a then true else if b then false else fst (lex2 m m'),
                   if b then true else if a then false else snd (lex2 m m'))
              end) ps ps'
  end.
Definition full_label_less (i j : index) : bool := fst (full_label_less2 i j).

(** ** Comparers of the canonicalizers *)

(** [TensorBlockIndexComparer::compare_spaces], tensor_canonicalizer.cpp:92-117. *)
Fixpoint compare_spaces (i j : index) {struct i} : Z :=
  match i, j with
  | Idx s _ _ ps, Idx s' _ _ ps' =>
      if negb (space_eqb s s') then (if space_ltb s s' then (-1)%Z else 1%Z)
      else match ps, ps' with
           | [], _ :: _ => 1%Z
           | _ :: _, [] => (-1)%Z
           | _, _ =>
               if negb (length ps =? length ps') then (if length ps <? length ps' then (-1)%Z else 1%Z)
               else (fix go (l l' : list index) {struct l} : Z :=
                       match l, l' with
                       | x :: m, y :: m' => if (compare_spaces x y =? 0)%Z then go m m' else compare_spaces x y
                       | _, _ => 0%Z
                       end) ps ps'
           end
  end.

(** [TensorBlockIndexComparer::compare_tags], tensor_canonicalizer.cpp:119-133. *)
Definition compare_tags (i j : index) : Z :=
  match ix_tag i, ix_tag j with
  | Some a, Some b => if (a =? b)%Z then 0%Z else if (a <? b)%Z then (-1)%Z else 1%Z
  | _, _ => 0%Z
  end.

(** [TensorBlockIndexComparer::compare] of two indices, tensor_canonicalizer.cpp:79-89. *)
Definition block_compare (i j : index) : Z :=
  if (compare_spaces i j =? 0)%Z then compare_tags i j else compare_spaces i j.

(** [TensorBlockIndexComparer::compare] of two (bra, ket) pairs, tensor_canonicalizer.cpp:40-78. *)
Definition block_compare_pair (p q : index * index) : Z :=
  if negb (compare_spaces (fst p) (fst q) =? 0)%Z then compare_spaces (fst p) (fst q)
  else if negb (compare_spaces (snd p) (snd q) =? 0)%Z then compare_spaces (snd p) (snd q)
  else if negb (compare_tags (fst p) (fst q) =? 0)%Z then compare_tags (fst p) (fst q)
  else compare_tags (snd p) (snd q).

(** [TensorBlockIndexComparer::operator()], tensor_canonicalizer.cpp:34-38. *)
Definition block_less (i j : index) : bool := (block_compare i j <? 0)%Z.
Definition block_less_pair (p q : index * index) : bool := (block_compare_pair p q <? 0)%Z.

(** [TensorIndexComparer::operator()], tensor_canonicalizer.cpp:136-165. *)
Definition tensor_less (i j : index) : bool :=
  if negb (block_compare i j =? 0)%Z then (block_compare i j <? 0)%Z else ix_ltb i j.
Definition tensor_less_pair (p q : index * index) : bool :=
  if negb (block_compare_pair p q =? 0)%Z then (block_compare_pair p q <? 0)%Z
  else if negb (ix_eqb (fst p) (fst q)) then ix_ltb (fst p) (fst q)
  else ix_ltb (snd p) (snd q).

(** ** Tensors *)

Inductive symmetry := Symm | Antisymm | Nonsymm.
Inductive bksymmetry := BKSymm | BKConjugate | BKNonsymm.
Inductive colsymmetry := ColSymm | ColNonsymm.

(** [Tensor], tensor.hpp:779-799: label (as characters), slots, symmetries, net ranks. Hash values
    and [hermiticity_] are not modelled. *)
Record tensor := mktensor {
  t_label : list Z;
  t_bra : list index; t_ket : list index; t_aux : list index;
  t_symm : symmetry; t_bk : bksymmetry; t_col : colsymmetry;
  t_bra_net : nat; t_ket_net : nat }.

(** The number of indices in a bundle, tensor.hpp:291-294: slots that are not null. *)
Definition net_rank (l : list index) : nat := length (filter (fun i => negb (ix_null i)) l).

Definition is_nonsymm (s : symmetry) : bool := match s with Nonsymm => true | _ => false end.
Definition is_antisymm (s : symmetry) : bool := match s with Antisymm => true | _ => false end.
Definition is_colsymm (c : colsymmetry) : bool := match c with ColSymm => true | ColNonsymm => false end.

(** Is there a duplicate among the indices that are not null? tensor.hpp:166-192. The code sorts
    pointers to the indices and looks for equal neighbours; the model looks for an equal index
    anywhere later. *)
Fixpoint has_duplicates (l : list index) : bool :=
  match l with
  | [] => false
  | i :: l' => negb (ix_null i) && existsb (fun j => ix_eqb i j) l' || has_duplicates l'
  end.

(** [Tensor::validate_indices], tensor.hpp:118-194: [false] when an assertion fails. *)
Fixpoint no_empty_column (bra ket : list index) : bool :=
  match bra, ket with
  | b :: bra', k :: ket' => negb (ix_null b && ix_null k) && no_empty_column bra' ket'
  | _, _ => true
  end.
Definition validate_indices (t : tensor) : bool :=
  (if negb (is_nonsymm (t_symm t))
   then negb (existsb ix_null (t_bra t)) && negb (existsb ix_null (t_ket t))
   else no_empty_column (t_bra t) (t_ket t) &&
        (let r := Nat.min (length (t_bra t)) (length (t_ket t)) in
         let longer := if length (t_bra t) =? length (t_ket t) then []
                       else if length (t_ket t) <? length (t_bra t) then t_bra t else t_ket t in
         negb (existsb ix_null (skipn r longer)))) &&
  negb (existsb ix_null (t_aux t)) &&
  negb (has_duplicates (t_bra t)) && negb (has_duplicates (t_ket t)) && negb (has_duplicates (t_aux t)).

(** The first loop of [canonicalize_slots], tensor.hpp:216-228: the paired columns, and what is
    left in the two bundles (an index that has been moved out is null, index.hpp:155-171). *)
Fixpoint take_pairs (bra ket : list index) : list index * list index * (list index * list index) :=
  match bra, ket with
  | b :: bra', k :: ket' =>
      let '(cb, ck, (rb, rk)) := take_pairs bra' ket' in
      if negb (ix_null b) && negb (ix_null k)
      then (b :: cb, k :: ck, (null_index :: rb, null_index :: rk))
      else (cb, ck, (b :: rb, k :: rk))
  | _, _ => ([], [], (bra, ket))
  end.

(** [Tensor::canonicalize_slots], tensor.hpp:200-253. *)
Definition canonicalize_slots (t : tensor) : tensor :=
  if is_nonsymm (t_symm t) && is_colsymm (t_col t) &&
     (negb (length (t_bra t) =? t_bra_net t) || negb (length (t_ket t) =? t_ket_net t))
  then
    let '(cb, ck, (rb, rk)) := take_pairs (t_bra t) (t_ket t) in
    let bra_only := filter (fun i => negb (ix_null i)) rb in
    let ket_only := filter (fun i => negb (ix_null i)) rk in
    mktensor (t_label t)
             (cb ++ bra_only) (ck ++ map (fun _ => null_index) bra_only ++ ket_only) (t_aux t)
             (t_symm t) (t_bk t) (t_col t)
             (length cb + length bra_only) (length ck + length ket_only)
  else t.

(** The constructor of [Tensor] with explicit symmetries, tensor.hpp:256-312: net ranks are
    counted, the indices and symmetries are validated ([None] when an assertion fails,
    tensor.hpp:801-806), the slots are canonicalized. The special treatment of the
    (anti)symmetrizer labels (tensor.hpp:295-308) is not modelled. *)
Definition make_tensor (label : list Z) (bra ket aux : list index)
    (s : symmetry) (bk : bksymmetry) (c : colsymmetry) : option tensor :=
  let t := mktensor label bra ket aux s bk c (net_rank bra) (net_rank ket) in
  if validate_indices t && (is_nonsymm s || is_colsymm c) then Some (canonicalize_slots t) else None.

(** [Tensor::_swap_bra_ket], tensor.hpp:965-972; [None] when [validate_indices] asserts. *)
Definition swap_bra_ket (t : tensor) : option tensor :=
  let t' := mktensor (t_label t) (t_ket t) (t_bra t) (t_aux t) (t_symm t) (t_bk t) (t_col t)
                     (t_ket_net t) (t_bra_net t) in
  if validate_indices t' then Some (canonicalize_slots t') else None.

(** [adjoint_label], the character appended to the label, tensor.cpp:36-39. *)
Definition adjoint_char : Z := 8314.
Definition toggle_adjoint (l : list Z) : list Z :=
  match rev l with
  | c :: r => if (c =? adjoint_char)%Z then rev r else l ++ [adjoint_char]
  | [] => l ++ [adjoint_char]
  end.

(** [Tensor::adjoint], tensor.cpp:26-43. *)
Definition adjoint (t : tensor) : option tensor :=
  match swap_bra_ket t with
  | None => None
  | Some t' =>
      Some (match t_bk t' with
            | BKNonsymm => mktensor (toggle_adjoint (t_label t')) (t_bra t') (t_ket t') (t_aux t')
                                    (t_symm t') (t_bk t') (t_col t') (t_bra_net t') (t_ket_net t')
            | _ => t'
            end)
  end.

(** [Tensor::set_bra] and [Tensor::set_ket], tensor.hpp:553-563: the net ranks stay as they were. *)
Definition set_bra (t : tensor) (l : list index) : tensor :=
  mktensor (t_label t) l (t_ket t) (t_aux t) (t_symm t) (t_bk t) (t_col t) (t_bra_net t) (t_ket_net t).
Definition set_ket (t : tensor) (l : list index) : tensor :=
  mktensor (t_label t) (t_bra t) l (t_aux t) (t_symm t) (t_bk t) (t_col t) (t_bra_net t) (t_ket_net t).

(** ** Canonicalizers *)

(** replace the bra and ket slots in place (the mutable ranges, tensor.hpp:948-962) *)
Definition with_slots (t : tensor) (bra ket : list index) : tensor :=
  mktensor (t_label t) bra ket (t_aux t) (t_symm t) (t_bk t) (t_col t) (t_bra_net t) (t_ket_net t).

(** [DefaultTensorCanonicalizer::apply(t, idxcmp, paircmp)], tensor_canonicalizer.hpp:177-241: the
    tensor and whether a factor -1 is returned; [None] if a sort does not end. The counter of swaps
    of indices (utility/swap.hpp) is the sum of the swaps of the two sorts. *)
Definition canon_core (idxcmp : index -> index -> bool) (paircmp : index * index -> index * index -> bool)
    (t : tensor) : option (tensor * bool) :=
  match t_col t with
  | ColNonsymm => Some (t, false)
  | ColSymm =>
      if (length (t_bra t) =? 1) && (length (t_ket t) =? 1) then Some (t, false)
      else
        match t_symm t with
        | Nonsymm =>
            let r := Nat.min (length (t_bra t)) (length (t_ket t)) in
            match bubble_sort paircmp (combine (firstn r (t_bra t)) (firstn r (t_ket t))) with
            | None => None
            | Some (pairs, _) =>
                let bra_rest := skipn r (t_bra t) in
                let ket_rest := skipn r (t_ket t) in
                if r <? length (t_bra t) then
                  match bubble_sort idxcmp bra_rest with
                  | None => None
                  | Some (br, _) => Some (with_slots t (map fst pairs ++ br) (map snd pairs ++ ket_rest), false)
                  end
                else if r <? length (t_ket t) then
                  match bubble_sort idxcmp ket_rest with
                  | None => None
                  | Some (kr, _) => Some (with_slots t (map fst pairs ++ bra_rest) (map snd pairs ++ kr), false)
                  end
                else Some (with_slots t (map fst pairs ++ bra_rest) (map snd pairs ++ ket_rest), false)
            end
        | s =>
            match bubble_sort idxcmp (t_bra t), bubble_sort idxcmp (t_ket t) with
            | Some (b, n), Some (k, m) => Some (with_slots t b k, is_antisymm s && Nat.odd (n + m))
            | _, _ => None
            end
        end
  end.

(** [external_indices_.find(idx) != end()], tensor_canonicalizer.cpp:313-314: the set is ordered by
    [operator<]; an index is found if one in the set is equivalent to it. *)
Definition in_set (ext : list index) (i : index) : bool :=
  existsb (fun e => negb (ix_ltb e i) && negb (ix_ltb i e)) ext.

Definition with_tag (i : index) (t : option Z) : index := match i with Idx s o _ p => Idx s o t p end.

(** [DefaultTensorCanonicalizer::tag_indices], tensor_canonicalizer.cpp:310-318. *)
Definition tag_index (ext : list index) (i : index) : index :=
  with_tag i (Some (if in_set ext i then 0%Z else 1%Z)).
Definition tag_indices (ext : list index) (t : tensor) : tensor :=
  mktensor (t_label t) (map (tag_index ext) (t_bra t)) (map (tag_index ext) (t_ket t))
           (map (tag_index ext) (t_aux t)) (t_symm t) (t_bk t) (t_col t) (t_bra_net t) (t_ket_net t).

(** [Tensor::reset_tags], tensor.hpp:759-761. *)
Definition untag (i : index) : index := with_tag i None.
Definition reset_tags (t : tensor) : tensor :=
  mktensor (t_label t) (map untag (t_bra t)) (map untag (t_ket t)) (map untag (t_aux t))
           (t_symm t) (t_bk t) (t_col t) (t_bra_net t) (t_ket_net t).

(** [Taggable::assign] requires that the index has no tag, tag.hpp:266-272. *)
Definition untagged_slots (t : tensor) : bool :=
  forallb (fun i => match ix_tag i with None => true | Some _ => false end) (t_bra t ++ t_ket t ++ t_aux t).

(** [DefaultTensorCanonicalizer::apply(t)] with the default comparers,
    tensor_canonicalizer.cpp:320-329 and 284-288. [None] when an assertion fails. *)
Definition default_apply (ext : list index) (t : tensor) : option (tensor * bool) :=
  if negb (untagged_slots t) then None
  else option_map (fun r : tensor * bool => (reset_tags (fst r), snd r))
                  (canon_core tensor_less tensor_less_pair (tag_indices ext t)).

(** The choice of orientation in [TensorBlockCanonicalizer::apply], tensor_canonicalizer.cpp:345-367.
    [sort] is [ranges::sort] with the predicate of line 347. *)
Definition space_less (i j : index) : bool := (compare_spaces i j <? 0)%Z.
Definition wants_swap (sort : list index -> list index) (t : tensor) : bool :=
  lex_less space_less (sort (t_bra t)) (sort (t_ket t)).

(** [TensorBlockCanonicalizer::apply], tensor_canonicalizer.cpp:334-375. *)
Definition block_apply (sort : list index -> list index) (ext : list index) (t : tensor) : option (tensor * bool) :=
  if negb (untagged_slots t) then None
  else
    let t1 := tag_indices ext t in
    let t2 := match t_bk t with
              | BKSymm => if wants_swap sort t1 then swap_bra_ket t1 else Some t1
              | _ => Some t1
              end in
    match t2 with
    | None => None
    | Some t3 => option_map (fun r : tensor * bool => (reset_tags (fst r), snd r))
                            (canon_core block_less block_less_pair t3)
    end.

(** [Tensor::static_equal], tensor.hpp:835-853 (the hash values are compared first; equal tensors
    have equal hash values). *)
Definition symm_eqb (a b : symmetry) : bool :=
  match a, b with Symm, Symm | Antisymm, Antisymm | Nonsymm, Nonsymm => true | _, _ => false end.
Definition bk_eqb (a b : bksymmetry) : bool :=
  match a, b with BKSymm, BKSymm | BKConjugate, BKConjugate | BKNonsymm, BKNonsymm => true | _, _ => false end.
Definition col_eqb (a b : colsymmetry) : bool :=
  match a, b with ColSymm, ColSymm | ColNonsymm, ColNonsymm => true | _, _ => false end.
Fixpoint str_eqb (l m : list Z) : bool :=
  match l, m with
  | [], [] => true
  | x :: l', y :: m' => Z.eqb x y && str_eqb l' m'
  | _, _ => false
  end.
Definition tensor_eqb (t u : tensor) : bool :=
  str_eqb (t_label t) (t_label u) && symm_eqb (t_symm t) (t_symm u) && bk_eqb (t_bk t) (t_bk u) &&
  col_eqb (t_col t) (t_col u) &&
  list_eqb (t_bra t) (t_bra u) && list_eqb (t_ket t) (t_ket u) && list_eqb (t_aux t) (t_aux u).

(** [Tensor::static_less_than], tensor.hpp:855-892. [hash] is the hash value of a bra. *)
Definition tensor_ltb (hash : list index -> Z) (t u : tensor) : bool :=
  if negb (str_eqb (t_label t) (t_label u)) then lex_less Z.ltb (t_label t) (t_label u)
  else if negb (length (t_bra t) =? length (t_bra u)) then length (t_bra t) <? length (t_bra u)
  else if negb (length (t_ket t) =? length (t_ket u)) then length (t_ket t) <? length (t_ket u)
  else if negb (length (t_aux t) =? length (t_aux u)) then length (t_aux t) <? length (t_aux u)
  else if negb (hash (t_bra t) =? hash (t_bra u))%Z then lex_less ix_ltb (t_bra t) (t_bra u)
  else if negb (list_eqb (t_ket t) (t_ket u)) then lex_less ix_ltb (t_ket t) (t_ket u)
  else lex_less ix_ltb (t_aux t) (t_aux u).
