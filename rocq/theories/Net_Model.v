(** Model of the canonicalization of tensor networks:
    SeQuant/core/tensor_network/v3.hpp, SeQuant/core/tensor_network/v3.cpp,
    SeQuant/core/tensor_network/utils.hpp, SeQuant/core/tensor_network/vertex_painter.cpp,
    SeQuant/core/expressions/abstract_tensor.hpp and the index factory of SeQuant/core/index.hpp.

    Networks of [Tensor]s are modelled; all of them commute ([Tensor::_is_cnumber],
    tensor.hpp:939), so that [tensors_commute] (utils.hpp:32-37) is true. Networks with normal
    operators are not modelled. Non-default canonicalizers registered for a label are looked up but not
    used by the code (v3.cpp:1592-1597). The check [assert_strict_braket_symmetry] (v3.cpp:1269-1316),
    which can be switched off, is not modelled. Vertices of the graph have names here instead of the numbers that the
    code computes from offsets. [None] is an exception or a failed assertion. *)
From Coq Require Import ZArith List Arith Bool.
From Verif Require Import Alg_Model Tsr_Model.
Import ListNotations.

(** ** Edges *)

(** [TensorIndexSlotType], slot.hpp:13-20, in the order of the enumerators. *)
Inductive origin := OBra | OKet | OAux.
Definition origin_nat (o : origin) : nat := match o with OBra => 0 | OKet => 1 | OAux => 2 end.

(** [TensorNetworkV3::Vertex], v3.hpp:48-73. *)
Record vref := mkvref { vr_origin : origin; vr_tensor : nat; vr_slot : nat; vr_symm : symmetry }.

(** [Vertex::operator<], v3.cpp:72-92. *)
Definition vref_ltb (a b : vref) : bool :=
  if negb (vr_tensor a =? vr_tensor b) then vr_tensor a <? vr_tensor b
  else if negb (origin_nat (vr_origin a) =? origin_nat (vr_origin b)) then origin_nat (vr_origin a) <? origin_nat (vr_origin b)
  else if is_nonsymm (vr_symm a) then vr_slot a <? vr_slot b else false.

(** [Vertex::operator==], v3.cpp:94-108. *)
Definition vref_eqb (a b : vref) : bool :=
  (vr_tensor a =? vr_tensor b) &&
  ((if is_nonsymm (vr_symm a) then vr_slot a else 0) =? (if is_nonsymm (vr_symm b) then vr_slot b else 0)) &&
  (origin_nat (vr_origin a) =? origin_nat (vr_origin b)).

(** [container::set<Vertex>::emplace], v3.hpp:147-153: a sorted sequence; [None] is the exception
    that the vertex is already there. *)
Fixpoint set_emplace (v : vref) (l : list vref) : option (list vref) :=
  match l with
  | [] => Some [v]
  | w :: l' => if vref_ltb w v then option_map (cons w) (set_emplace v l')
               else if vref_ltb v w then Some (v :: l) else None
  end.

(** [TensorNetworkV3::Edge], v3.hpp:82-156. *)
Record edge := mkedge { e_idx : index; e_vs : list vref }.

(** Comparing two [container::set]s with [==] and [<]. *)
Fixpoint vrefs_eqb (l m : list vref) : bool :=
  match l, m with
  | [], [] => true
  | x :: l', y :: m' => vref_eqb x y && vrefs_eqb l' m'
  | _, _ => false
  end.

(** [Edge::operator<], v3.hpp:114-127. *)
Definition edge_ltb (a b : edge) : bool :=
  if negb (length (e_vs a) =? length (e_vs b)) then length (e_vs a) <? length (e_vs b)
  else if negb (vrefs_eqb (e_vs a) (e_vs b)) then lex_less vref_ltb (e_vs a) (e_vs b)
  else space_ltb (ix_space (e_idx a)) (ix_space (e_idx b)).

(** [idx_insert] in [init_edges], v3.cpp:1432-1453: [edges_] is sorted by [FullLabelCompare];
    [lower_bound] finds the first edge that is not less. *)
Fixpoint idx_insert (i : index) (v : vref) (es : list edge) : option (list edge) :=
  match es with
  | [] => Some [mkedge i [v]]
  | e :: es' =>
      if full_label_less (e_idx e) i then option_map (cons e) (idx_insert i v es')
      else if negb (ix_eqb (e_idx e) i) then Some (mkedge i [v] :: es)
      else option_map (fun vs => mkedge (e_idx e) vs :: es') (set_emplace v (e_vs e))
  end.

(** The loops over the slots of a bundle, v3.cpp:1466-1500; null indices are skipped. *)
Fixpoint insert_bundle (o : origin) (t : nat) (s : symmetry) (k : nat) (l : list index) (es : list edge) : option (list edge) :=
  match l with
  | [] => Some es
  | i :: l' =>
      match (if ix_null i then Some es else idx_insert i (mkvref o t k s) es) with
      | None => None
      | Some es' => insert_bundle o t s (S k) l' es'
      end
  end.
Definition insert_tensor (n : nat) (t : tensor) (es : list edge) : option (list edge) :=
  match insert_bundle OBra n (t_symm t) 0 (t_bra t) es with
  | None => None
  | Some es1 =>
      match insert_bundle OKet n (t_symm t) 0 (t_ket t) es1 with
      | None => None
      | Some es2 => insert_bundle OAux n Nonsymm 0 (t_aux t) es2
      end
  end.
Fixpoint insert_tensors (n : nat) (ts : list tensor) (es : list edge) : option (list edge) :=
  match ts with
  | [] => Some es
  | t :: ts' => match insert_tensor n t es with None => None | Some es' => insert_tensors (S n) ts' es' end
  end.

(** [NamedIndexSet] = [container::set<Index, Index::FullLabelCompare>], v3.hpp:232: lookup and
    insertion. *)
Definition named_in (s : list index) (i : index) : bool :=
  existsb (fun n => negb (full_label_less n i) && negb (full_label_less i n)) s.
Fixpoint named_add (s : list index) (i : index) : list index :=
  match s with
  | [] => [i]
  | n :: s' => if full_label_less n i then n :: named_add s' i else if full_label_less i n then i :: s else s
  end.

(** [init_edges], v3.cpp:1426-1561: the edges, the external indices and the pure proto-indices. *)
Record edges_info := mkinfo { ei_edges : list edge; ei_ext : list index; ei_pure : list index }.
Definition init_edges (ts : list tensor) : option edges_info :=
  match insert_tensors 0 ts [] with
  | None => None
  | Some es =>
      let ext := fold_left (fun s e => if length (e_vs e) =? 1 then named_add s (e_idx e) else s) es [] in
      let protos := flat_map (fun e => ix_protos (e_idx e)) es in
      if existsb (fun p => negb (length (ix_protos p) =? 0)) protos then None
      else
        let pure := filter (fun p => negb (named_in (map e_idx es) p)) (fold_left named_add protos []) in
        let ext_protos := filter (fun p => negb (named_in pure p)) (flat_map ix_protos ext) in
        Some (mkinfo es (fold_left named_add pure (fold_left named_add ext_protos ext)) pure)
  end.

(** ** The graph *)

(** The vertices that [create_graph] makes, v3.cpp:895-1424: for a tensor the core, the bundle of bra
    and ket, the columns (if it is not symmetric), the bra and ket bundles, and the slots; for an index
    one vertex; for a bundle of proto-indices one vertex. *)
Inductive vtx :=
| VCore (t : nat) | VBraKet (t : nat) | VColumn (t k : nat) | VBundle (t : nat) (bra : bool)
| VSlot (t : nat) (o : origin) (k : nat)
| VIndex (i : index) | VProto (ps : list index).

(** What a colour is computed from, vertex_painter.cpp: [VertexPainter] makes different colours of
    different data ([ensure_uniqueness], vertex_painter.hpp:135-157). The shade of a tensor is its
    label, ranks and symmetries (vertex_painter.cpp:16-43). *)
Record shade := mkshade { sh_label : list Z; sh_bra : nat; sh_ket : nat; sh_aux : nat;
                          sh_symm : symmetry; sh_col : colsymmetry; sh_bk : bksymmetry }.
Inductive color :=
| CCore (s : shade) | CColumn (s : shade) (id : nat) | CBra (s : shade) (id : nat) | CKet (s : shade) (id : nat)
| CAux (s : shade) (id : nat)
| CNamed (pos : nat) | CNamedKind (type qns : Z) (protos : list (Z * Z)) | CAnon (type qns : Z) (protos : list (Z * Z))
| CProto (protos : list (Z * Z)).

Definition is_bksymm (b : bksymmetry) : bool := match b with BKSymm => true | _ => false end.

(** [VertexPainterImpl::to_hash_value(AbstractTensor)], vertex_painter.cpp:16-43. *)
Definition shade_of (t : tensor) : shade :=
  let b := length (t_bra t) in
  let k := length (t_ket t) in
  let swap := is_bksymm (t_bk t) && (k <? b) in
  mkshade (t_label t) (if swap then k else b) (if swap then b else k) (length (t_aux t)) (t_symm t) (t_col t) (t_bk t).

(** [Index::color], [Index::proto_indices_color], index.hpp:757-787. *)
Definition attr_of (i : index) : Z * Z := (sp_type (ix_space i), sp_qns (ix_space i)).
Definition protos_color (ps : list index) : list (Z * Z) := map attr_of ps.

(** [std::distance(named_indices_.begin(), it)], vertex_painter.cpp:96-98: the position in the set. *)
Fixpoint named_pos (s : list index) (i : index) : nat :=
  match s with
  | [] => 0
  | n :: s' => if negb (full_label_less n i) && negb (full_label_less i n) then 0 else S (named_pos s' i)
  end.

(** [VertexPainterImpl::operator()(Index)], vertex_painter.cpp:86-107. *)
Definition index_color (named : list index) (distinct : bool) (i : index) : color :=
  if named_in named i
  then if distinct then CNamed (named_pos named i) else CNamedKind (fst (attr_of i)) (snd (attr_of i)) (protos_color (ix_protos i))
  else CAnon (fst (attr_of i)) (snd (attr_of i)) (protos_color (ix_protos i)).

Record graph := mkgraph { g_verts : list vtx; g_color : vtx -> color; g_edges : list (vtx * vtx) }.

Definition bundle_of (t : tensor) (o : origin) : list index :=
  match o with OBra => t_bra t | OKet => t_ket t | OAux => t_aux t end.
Definition num_cols (t : tensor) : nat := Nat.max (length (t_bra t)) (length (t_ket t)).
(** [num_paired_cols], v3.cpp:1018-1021: the maximum, as for [num_cols]; the comment says the
    minimum. *)
Definition num_paired_cols (t : tensor) : nat := Nat.max (length (t_bra t)) (length (t_ket t)).

(** The vertices of a tensor, v3.cpp:990-1194. *)
Definition column_verts (n : nat) (t : tensor) : list vtx :=
  if is_nonsymm (t_symm t) then map (VColumn n) (seq 0 (num_cols t)) else [].
Definition slot_verts (n : nat) (t : tensor) (o : origin) : list vtx := map (VSlot n o) (seq 0 (length (bundle_of t o))).
Definition tensor_verts (n : nat) (t : tensor) : list vtx :=
  VCore n :: VBraKet n :: column_verts n t ++ VBundle n true :: VBundle n false ::
  slot_verts n t OBra ++ slot_verts n t OKet ++ slot_verts n t OAux.

(** [color_id] of a slot, v3.cpp:1130-1139. *)
Definition slot_color_id (t : tensor) (k : nat) : nat :=
  if negb (is_nonsymm (t_symm t)) then 0
  else if is_colsymm (t_col t) then (if k <? num_paired_cols t then 0 else 1)
  else k.

(** The colours of the vertices of a tensor, v3.cpp:1004-1007, 1058-1067, 1093-1100, 1148-1153,
    1191. *)
Definition tensor_color (t : tensor) (v : vtx) : color :=
  let s := shade_of t in
  match v with
  | VCore _ => CCore s
  | VBraKet _ => CColumn s 0
  | VColumn _ k => CColumn s (if is_colsymm (t_col t) then 1 else S k)
  | VBundle _ bra => if bra then CBra s (length (t_bra t))
                     else if is_bksymm (t_bk t) then CBra s (length (t_ket t)) else CKet s (length (t_ket t))
  | VSlot _ OBra k => CBra s (slot_color_id t k)
  | VSlot _ OKet k => if is_bksymm (t_bk t) then CBra s (slot_color_id t k) else CKet s (slot_color_id t k)
  | VSlot _ OAux k => CAux s k
  | _ => CCore s
  end.

(** The edges among the vertices of a tensor, v3.cpp:1069, 1102-1103, 1155-1175, 1192. *)
Definition tensor_edges (n : nat) (t : tensor) : list (vtx * vtx) :=
  (VCore n, VBraKet n) :: map (fun v => (VCore n, v)) (column_verts n t) ++
  (VBraKet n, VBundle n true) :: (VBraKet n, VBundle n false) ::
  flat_map (fun k => (VBundle n true, VSlot n OBra k) :: (if is_nonsymm (t_symm t) then [(VColumn n k, VSlot n OBra k)] else []))
           (seq 0 (length (t_bra t))) ++
  flat_map (fun k => (VBundle n false, VSlot n OKet k) :: (if is_nonsymm (t_symm t) then [(VColumn n k, VSlot n OKet k)] else []))
           (seq 0 (length (t_ket t))) ++
  map (fun v => (VCore n, v)) (slot_verts n t OAux).

(** Proto-index bundles in the order in which they are first seen, v3.cpp:1221-1266. *)
Definition add_bundle (l : list (list index)) (ps : list index) : list (list index) :=
  if existsb (list_eqb ps) l then l else l ++ [ps].
Definition bundles (es : list edge) : list (list index) :=
  fold_left (fun l e => match ix_protos (e_idx e) with [] => l | ps => add_bundle l ps end) es [].

Definition number {A} (l : list A) : list (nat * A) := combine (seq 0 (length l)) l.

(** [create_graph], v3.cpp:895-1424. The number of a vertex is its position in [g_verts] up to the order
    in which proto-index bundles and indices alternate, which plays no role. *)
Definition create_graph (named : list index) (distinct : bool) (ts : list tensor) (info : edges_info) : graph :=
  let es := ei_edges info in
  mkgraph
    (flat_map (fun nt => tensor_verts (fst nt) (snd nt)) (number ts) ++
     map (fun e => VIndex (e_idx e)) es ++ map VProto (bundles es) ++ map VIndex (ei_pure info))
    (fun v => match v with
              | VCore n | VBraKet n | VColumn n _ | VBundle n _ | VSlot n _ _ =>
                  match nth_error ts n with Some t => tensor_color t v | None => CProto [] end
              | VIndex i => index_color named distinct i
              | VProto ps => CProto (protos_color ps)
              end)
    (flat_map (fun nt => tensor_edges (fst nt) (snd nt)) (number ts) ++
     flat_map (fun e => (match ix_protos (e_idx e) with [] => [] | ps => [(VIndex (e_idx e), VProto ps)] end) ++
                        map (fun v => (VIndex (e_idx e), VSlot (vr_tensor v) (vr_origin v) (vr_slot v))) (e_vs e)) es ++
     flat_map (fun ps => map (fun p => (VIndex p, VProto ps)) ps) (bundles es)).

(** ** Sorting and renaming *)

(** [std::stable_sort], and [std::sort] where the order of equal elements plays no role. *)
Fixpoint insert_sorted {A} (lt : A -> A -> bool) (x : A) (l : list A) : list A :=
  match l with
  | [] => [x]
  | y :: l' => if lt y x then y :: insert_sorted lt x l' else x :: l
  end.
Definition stable_sort {A} (lt : A -> A -> bool) (l : list A) : list A := fold_right (insert_sorted lt) [] l.

(** [sort_then_replace_by_ordinals], utils.hpp:184-205: the ordinals, and whether the number of swaps is
    odd. *)
Definition sort_ordinals (keys : list nat) : option (list nat * bool) :=
  option_map (fun r : list nat * nat => (fst r, Nat.odd (snd r)))
             (bubble_sort (fun a b => nth a keys 0 <? nth b keys 0) (seq 0 (length keys))).

(** The loop at the end of [sort_via_ordinals], utils.hpp:238-257. [None] when there is no [k] with
    [input_ordinals[k] == i] (the code would then use [input_ordinals[seq.size()]]). *)
Fixpoint set_nth {A} (l : list A) (k : nat) (x : A) : list A :=
  match l, k with
  | [], _ => []
  | _ :: l', 0 => x :: l'
  | y :: l', S k' => y :: set_nth l' k' x
  end.
Fixpoint find_from (ords : list nat) (k i : nat) : option nat :=
  match ords with
  | [] => None
  | o :: ords' => if o =? i then Some k else find_from ords' (S k) i
  end.
Definition swap_at {A} (d : A) (l : list A) (i j : nat) : list A := set_nth (set_nth l i (nth j l d)) j (nth i l d).
Definition reorder_step {A} (d : A) (i : nat) (s : list A * list nat) : option (list A * list nat) :=
  let '(l, ords) := s in
  if nth i ords 0 =? i then Some s
  else match find_from (skipn (S i) ords) (S i) i with
       | None => None
       | Some k => Some (swap_at d l i (nth i ords 0), swap_at 0 ords i k)
       end.
Fixpoint reorder_loop {A} (d : A) (is : list nat) (s : list A * list nat) : option (list A * list nat) :=
  match is with
  | [] => Some s
  | i :: is' => match reorder_step d i s with None => None | Some s' => reorder_loop d is' s' end
  end.

(** [sort_via_ordinals<OrderType::Weak>], utils.hpp:218-260. *)
Definition sort_via_ordinals {A} (d : A) (less : nat -> nat -> bool) (l : list A) : option (list A * list nat) :=
  match bubble_sort less (seq 0 (length l)) with
  | None => None
  | Some (ords, _) => reorder_loop d (seq 0 (length l)) (l, ords)
  end.

(** [IndexFactory::make(Index)], index.hpp:1155-1178, with the validator [is_anonymous_index] and
    [min_index_] 1. [counters] is the map of spaces to counters. *)
Fixpoint counter (cs : list (space * nat)) (s : space) : nat :=
  match cs with
  | [] => 0
  | (s', n) :: cs' => match space_cmp s' s with Eq => n | _ => counter cs' s end
  end.
Fixpoint factory_make (fuel : nat) (named : list index) (cs : list (space * nat)) (i : index) : option (index * list (space * nat)) :=
  match fuel with
  | 0 => None
  | S f =>
      let n := S (counter cs (ix_space i)) in
      let cs' := (ix_space i, n) :: cs in
      let r := Idx (ix_space i) (Some n) None (ix_protos i) in
      if named_in named r then factory_make f named cs' i else Some (r, cs')
  end.

(** The loops that compute [idxrepl], v3.cpp:325-354 and 597-610: for each of the indices the
    replacement; only those that change are in the map. *)
Fixpoint make_replacements (named : list index) (cs : list (space * nat)) (is : list index) : option (list (index * index)) :=
  match is with
  | [] => Some []
  | i :: is' =>
      match factory_make (S (length named)) named cs i with
      | None => None
      | Some (r, cs') => option_map (fun m => if ix_eqb i r then m else (i, r) :: m) (make_replacements named cs' is')
      end
  end.

(** [container::map<Index, Index>::find]. *)
Definition map_find (m : list (index * index)) (i : index) : option index :=
  option_map snd (find (fun p => negb (ix_ltb (fst p) i) && negb (ix_ltb i (fst p))) m).

Definition is_tagged (i : index) : bool := match ix_tag i with Some _ => true | None => false end.

(** [Index::transform], index.hpp:821-872, for an index without proto-indices. *)
Definition transform_proto (m : list (index * index)) (i : index) : index * bool :=
  if is_tagged i then (i, false)
  else match map_find m i with Some r => (with_tag r (Some 0%Z), true) | None => (i, false) end.
(** [Index::transform]. *)
Definition transform_index (m : list (index * index)) (i : index) : index * bool :=
  match (if is_tagged i then None else map_find m i) with
  | Some r => (with_tag r (Some 0%Z), true)
  | None =>
      let ps := map (transform_proto m) (ix_protos i) in
      if existsb snd ps then
        let i2 := Idx (ix_space i) (ix_ord i) (ix_tag i) (stable_sort ix_ltb (map fst ps)) in
        match (if is_tagged i then None else map_find m i2) with
        | Some r => (with_tag r (Some 0%Z), true)
        | None => (i2, true)
        end
      else (i, false)
  end.

(** [Tensor::transform_indices], tensor.hpp:744-753: empty slots are skipped. *)
Definition transform_slot (m : list (index * index)) (i : index) : index * bool :=
  if ix_null i then (i, false) else transform_index m i.
Definition transform_tensor (m : list (index * index)) (t : tensor) : tensor * bool :=
  let f := fun l => map fst (map (transform_slot m) l) in
  (mktensor (t_label t) (f (t_bra t)) (f (t_ket t)) (f (t_aux t)) (t_symm t) (t_bk t) (t_col t) (t_bra_net t) (t_ket_net t),
   existsb (fun i => snd (transform_slot m i)) (t_bra t ++ t_ket t ++ t_aux t)).

(** [Index::reset_tag], index.hpp:476-480: also of the proto-indices. *)
Definition untag_all (i : index) : index := match i with Idx s o _ ps => Idx s o None (map untag ps) end.

(** [apply_index_replacements] with [self_consistent], utils.hpp:149-165. Three passes change
    something at most; [None] when the fuel is exhausted or an index is tagged. *)
Fixpoint transform_loop (fuel : nat) (m : list (index * index)) (t : tensor) : option tensor :=
  match fuel with
  | 0 => None
  | S f => let '(t', mutated) := transform_tensor m t in if mutated then transform_loop f m t' else Some t'
  end.
Definition map_tensor (f : index -> index) (t : tensor) : tensor :=
  mktensor (t_label t) (map f (t_bra t)) (map f (t_ket t)) (map f (t_aux t)) (t_symm t) (t_bk t) (t_col t) (t_bra_net t) (t_ket_net t).
Definition apply_replacements (m : list (index * index)) (t : tensor) : option tensor :=
  if negb (untagged_slots t) then None
  else option_map (map_tensor untag_all) (transform_loop 4 m t).

Fixpoint map_opt {A B} (f : A -> option B) (l : list A) : option (list B) :=
  match l with
  | [] => Some []
  | x :: l' => match f x, map_opt f l' with Some y, Some m => Some (y :: m) | _, _ => None end
  end.

(** ** Canonicalization by the graph *)

(** [AbstractTensor::permute_impl], abstract_tensor.hpp:315-326. *)
Definition permute (perm : list nat) (l : list index) : list index := map (fun k => nth k l null_index) perm.

(** [AbstractTensor::permute_columns_impl], abstract_tensor.hpp:328-390. *)
Fixpoint count_columns (p : index -> index -> bool) (bra ket : list index) : nat :=
  match bra, ket with
  | b :: bra', k :: ket' => (if p b k then 1 else 0) + count_columns p bra' ket'
  | _, _ => 0
  end.
Definition column_type (npaired nbra k : nat) : nat := if k <? npaired then 0 else if k <? npaired + nbra then 1 else 2.
Definition permute_columns (perm : list nat) (bra ket : list index) : option (list index * list index) :=
  let npaired := count_columns (fun b k => negb (ix_null b) && negb (ix_null k)) bra ket in
  let nbra := count_columns (fun b k => negb (ix_null b) && ix_null k) bra ket +
              (if length ket <? length bra then length bra - length ket else 0) in
  if (length ket <? length bra) && negb (length ket =? npaired) then None
  else
    let p := stable_sort (fun a b => column_type npaired nbra a <? column_type npaired nbra b) perm in
    let pb := firstn (length bra) p in
    let pk := firstn (length ket) p in
    if (length perm =? Nat.max (length bra) (length ket)) &&
       forallb (fun k => k <? length bra) pb && forallb (fun k => k <? length ket) pk
    then Some (permute pb bra, permute pk ket)
    else None.

(** The loop that permutes slots, v3.cpp:370-430; the canonical order of slots and columns comes from
    the positions of their vertices, v3.cpp:237-323. The result says whether the sign changes. *)
Definition permute_tensor (p : vtx -> nat) (n : nat) (t : tensor) : option (tensor * bool) :=
  if negb (is_colsymm (t_col t)) then Some (t, false)
  else
    let permuted :=
      if is_nonsymm (t_symm t) then
        if num_cols t =? 0 then None
        else match sort_ordinals (map (fun k => p (VColumn n k)) (seq 0 (num_cols t))) with
             | None => Some None
             | Some (perm, _) =>
                 Some (option_map (fun bk : list index * list index => (with_slots t (fst bk) (snd bk), false))
                                  (permute_columns perm (t_bra t) (t_ket t)))
             end
      else
        if (length (t_bra t) + length (t_ket t)) =? 0 then None
        else match sort_ordinals (map (fun k => p (VSlot n OBra k)) (seq 0 (length (t_bra t)))),
                   sort_ordinals (map (fun k => p (VSlot n OKet k)) (seq 0 (length (t_ket t)))) with
             | Some (pb, sb), Some (pk, sk) =>
                 Some (Some (with_slots t (permute pb (t_bra t)) (permute pk (t_ket t)), is_antisymm (t_symm t) && xorb sb sk))
             | _, _ => Some None
             end in
    match permuted with
    | None => Some (t, false)        (* the [continue] when there are no slots *)
    | Some None => None
    | Some (Some (t', sg)) =>
        if is_bksymm (t_bk t') && (p (VBundle n false) <? p (VBundle n true))
        then option_map (fun u => (u, sg)) (swap_bra_ket t')
        else Some (t', sg)
    end.

Definition no_tensor : tensor := mktensor [] [] [] [] Nonsymm BKNonsymm ColNonsymm 0 0.

(** [canonicalize_graph], v3.cpp:143-470. [bliss] is the canonical labelling that the bliss library
    computes. The result: the tensors, [tensor_input_ordinals_], whether the sign changes. *)
Definition canonicalize_graph (bliss : graph -> vtx -> nat) (named : list index) (ignore_labels : bool) (ts : list tensor)
    : option (list tensor * list nat * bool) :=
  match init_edges ts with
  | None => None
  | Some info =>
      let p := bliss (create_graph named (negb ignore_labels) ts info) in
      let order := stable_sort (fun a b => p (VIndex a) <? p (VIndex b)) (map e_idx (ei_edges info)) in
      match make_replacements named [] (filter (fun i => negb (named_in named i)) order) with
      | None => None
      | Some m =>
          match map_opt (apply_replacements m) ts with
          | None => None
          | Some ts1 =>
              match map_opt (fun nt => permute_tensor p (fst nt) (snd nt)) (number ts1) with
              | None => None
              | Some r =>
                  match sort_via_ordinals no_tensor (fun a b => p (VCore a) <? p (VCore b)) (map fst r) with
                  | None => None
                  | Some (ts2, ords) => Some (ts2, ords, fold_right xorb false (map snd r))
                  end
              end
          end
      end
  end.

(** ** Lexicographic canonicalization *)

(** [TensorBlockCompare], utils.hpp:39-77. *)
Fixpoint spaces_cmp (l m : list index) (otherwise : bool) : bool :=
  match l, m with
  | i :: l', j :: m' =>
      if negb (space_eqb (ix_space i) (ix_space j)) then space_ltb (ix_space i) (ix_space j) else spaces_cmp l' m' otherwise
  | _, _ => otherwise
  end.
Definition block_cmp (t u : tensor) : bool :=
  if negb (str_eqb (t_label t) (t_label u)) then lex_less Z.ltb (t_label t) (t_label u)
  else if negb (length (t_bra t) =? length (t_bra u)) then length (t_bra t) <? length (t_bra u)
  else if negb (length (t_ket t) =? length (t_ket u)) then length (t_ket t) <? length (t_ket u)
  else if negb (length (t_aux t) =? length (t_aux u)) then length (t_aux t) <? length (t_aux u)
  else spaces_cmp (t_bra t) (t_bra u) (spaces_cmp (t_ket t) (t_ket u) (spaces_cmp (t_aux t) (t_aux u) false)).

(** [CanonicalTensorCompare], utils.hpp:79-138. [less] is [AbstractTensor::operator<]. *)
Definition base_label (l : list Z) : list Z :=
  match rev l with c :: r => if (c =? adjoint_char)%Z then rev r else l | [] => l end.
Fixpoint label_pos (labels : list (list Z)) (l : list Z) : nat :=
  match labels with
  | [] => 0
  | x :: ls => if str_eqb x l then 0 else S (label_pos ls l)
  end.
Definition canonical_less (labels : list (list Z)) (less : tensor -> tensor -> bool) (t u : tensor) : bool :=
  let a := label_pos labels (base_label (t_label t)) in
  let b := label_pos labels (base_label (t_label u)) in
  if negb (a =? b) then a <? b else less t u.

(** [do_individual_canonicalization], v3.cpp:1587-1607. *)
Definition individually (f : tensor -> option (tensor * bool)) (ts : list tensor) : option (list tensor * bool) :=
  option_map (fun l => (map fst l, fold_right xorb false (map snd l))) (map_opt f ts).

(** [std::is_sorted] *)
Fixpoint is_sorted {A} (lt : A -> A -> bool) (l : list A) : bool :=
  match l with
  | x :: ((y :: _) as l') => negb (lt y x) && is_sorted lt l'
  | _ => true
  end.

(** The named indices, v3.cpp:516-524. By default [named_indices] is a reference to the external
    indices, which every call of [init_edges] computes anew. *)
Definition named_of (given : option (list index)) (info : edges_info) : list index :=
  match given with Some l => fold_left named_add l [] | None => ei_ext info end.

(** The lexicographic part of [canonicalize], v3.cpp:543-634. [sort] is [ranges::sort] in
    [TensorBlockCanonicalizer]; [hash] is the hash of a bra, used to compare tensors. *)
Definition canonicalize_lex (sort : list index -> list index) (hash : list index -> Z) (labels : list (list Z))
    (given : option (list index)) (named0 : list index) (st : list tensor * list nat) : option (list tensor * list nat * bool) :=
  match individually (block_apply sort named0) (fst st) with
  | None => None
  | Some (ts1, s1) =>
      match bubble_sort (fun a b : tensor * nat => canonical_less labels block_cmp (fst a) (fst b)) (combine ts1 (snd st)) with
      | None => None
      | Some (sorted, _) =>
          let ts2 := map fst sorted in
          match init_edges ts2 with
          | None => None
          | Some info =>
              let named := named_of given info in
              let is_named := named_in named in
              let es := stable_sort (fun a b => if Bool.eqb (is_named (e_idx a)) (is_named (e_idx b)) then edge_ltb a b
                                                else is_named (e_idx a)) (ei_edges info) in
              let anon := map e_idx (skipn (length named) es) in
              if existsb is_named anon then None
              else
                match make_replacements named [] anon with
                | None => None
                | Some m =>
                    match map_opt (apply_replacements m) ts2 with
                    | None => None
                    | Some ts3 =>
                        match individually (default_apply named) ts3 with
                        | None => None
                        | Some (ts4, s4) =>
                            if negb (is_sorted (canonical_less labels block_cmp) ts4) then None
                            else Some (stable_sort (canonical_less labels (tensor_ltb hash)) ts4, map snd sorted, xorb s1 s4)
                        end
                    end
                end
          end
      end
  end.

(** [CanonicalizationMethod] and [CanonicalizeOptions], options.hpp:12-82: topological and lexicographic are two bits. *)
Record options := mkopts { o_topological : bool; o_lexicographic : bool; o_named : option (list index); o_ignore_labels : bool }.
(** The defaults, options.hpp:46-68. *)
Definition default_options : options := mkopts true true None true.

(** [TensorNetworkV3::canonicalize], v3.cpp:493-645. *)
Definition canonicalize (bliss : graph -> vtx -> nat) (sort : list index -> list index) (hash : list index -> Z)
    (labels : list (list Z)) (opts : options) (ts : list tensor) : option (list tensor * list nat * bool) :=
  match init_edges ts with
  | None => None
  | Some info =>
      let named := named_of (o_named opts) info in
      match (if o_topological opts then canonicalize_graph bliss named (o_ignore_labels opts) ts
             else Some (ts, seq 0 (length ts), false)) with
      | None => None
      | Some (ts1, ords, s) =>
          if o_lexicographic opts
          then option_map (fun r : list tensor * list nat * bool => (fst r, xorb s (snd r))) (canonicalize_lex sort hash labels (o_named opts) named (ts1, ords))
          else Some (ts1, ords, s)
      end
  end.
