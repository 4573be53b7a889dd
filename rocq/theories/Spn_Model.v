(** Model of spin tracing: SeQuant/domain/mbpt/spin.cpp (append_spin, remove_spin,
    ms_conserving_columns, ms_uniform_tensor, can_expand, expand_antisymm, A_maps, expand_A_op,
    symmetrize_expr, P_maps, expand_P_op, S_replacement_maps, S_maps, closed_shell_spintrace,
    open_shell_spintrace, spintrace, the loop of wrap_trace).

    Simplifications that apply throughout.
    - An expression is a sum of products of tensors and variables with a rational prefactor. This
      is the form that the functions accept (a nested sum or product makes them throw). A lone
      tensor, variable or constant is a product with one or no factor, except where the code
      treats it differently.
    - The calls of expand, simplify, rapid_simplify and canonicalize only rearrange sums of
      products (claims C27 to C30); here a product of sums is distributed and nothing else.
    - Indices have no proto-indices and no tags. Null slots are left out.
    - [None] is a failed assertion, a thrown exception or an exhausted fuel. *)
From Coq Require Import ZArith NArith QArith Qcanon List Arith Bool.
From Verif Require Import Alg_Model.
Import ListNotations.
Local Open Scope nat_scope.

(** [mbpt::Spin], space_qns.hpp:52-66: the two projections and the union of both. *)
Inductive spin := any | alpha | beta.
Definition spin_eqb (s t : spin) : bool :=
  match s, t with any, any | alpha, alpha | beta, beta => true | _, _ => false end.

(** An [Index]: the number stands for the label without spin annotation and for the space; the spin
    is what [to_spin(space().qns())] returns. [make_spinalpha], [make_spinbeta] and [make_spinfree]
    (spin.cpp:55-83, 220-230) keep the former and replace the latter. *)
Definition index : Type := nat * spin.
Definition index_eqb (i j : index) : bool := Nat.eqb (fst i) (fst j) && spin_eqb (snd i) (snd j).
Definition with_spin (s : spin) (i : index) : index := (fst i, s).

(** Labels of tensors: the reserved labels of the antisymmetrizer, the symmetrizer and the
    transposition operator (core/reserved.hpp), and all others. *)
Inductive label := L_A | L_S | L_P | L_named (n : nat).
Definition label_eqb (l m : label) : bool :=
  match l, m with
  | L_A, L_A | L_S, L_S | L_P, L_P => true
  | L_named n, L_named k => Nat.eqb n k
  | _, _ => false
  end.

(** [Symmetry], tensor.hpp. The braket and column symmetries are not modelled. *)
Inductive symmetry := Nonsymm | Symm | Antisymm.

(** [Tensor], tensor.hpp:778-790. *)
Record tensor := Tensor
  { t_label : label; t_bra : list index; t_ket : list index; t_aux : list index; t_symm : symmetry }.

(** A factor of a product: a tensor or a variable. *)
Inductive factor := Ten (t : tensor) | Var (v : nat).

(** A [Product] of such factors, and a [Sum] of such products. *)
Record term := Term { scalar : Qc; factors : list factor }.
Definition expr := list term.

(** Every step of a loop must succeed. *)
Fixpoint mapM {A B} (f : A -> option B) (l : list A) : option (list B) :=
  match l with
  | [] => Some []
  | x :: l' => match f x, mapM f l' with
               | Some y, Some ys => Some (y :: ys)
               | _, _ => None
               end
  end.
Definition concat_mapM {A B} (f : A -> option (list B)) (l : list A) : option (list B) :=
  option_map (@concat B) (mapM f l).

(** ** Ordered containers

    [lt] is [Index::operator<]. *)
Section Order.
  Variable lt : index -> index -> bool.

  (** [container::set<Index>]: insertion keeps the order and ignores an element that is there. *)
  Fixpoint set_insert (x : index) (l : list index) : list index :=
    match l with
    | [] => [x]
    | y :: l' => if lt x y then x :: l else if lt y x then y :: set_insert x l' else l
    end.
  Definition set_of (l : list index) : list index := fold_left (fun s x => set_insert x s) l [].

  (** [container::map<Index, Index>::emplace]: an existing key is left alone. *)
  Fixpoint map_emplace (k v : index) (m : list (index * index)) : list (index * index) :=
    match m with
    | [] => [(k, v)]
    | (k', v') :: m' => if lt k k' then (k, v) :: m
                        else if lt k' k then (k', v') :: map_emplace k v m' else m
    end.
  Definition map_of (kvs : list (index * index)) : list (index * index) :=
    fold_left (fun m kv => map_emplace (fst kv) (snd kv) m) kvs [].

  (** The value found under a key; the index itself if there is none ([Index::transform]). *)
  Fixpoint lookup (m : list (index * index)) (i : index) : index :=
    match m with
    | [] => i
    | (k, v) :: m' => if index_eqb i k then v else lookup m' i
    end.

  (** [Tensor::transform_indices], tensor.hpp:746-753. *)
  Definition rename_tensor (f : index -> index) (t : tensor) : tensor :=
    Tensor (t_label t) (map f (t_bra t)) (map f (t_ket t)) (map f (t_aux t)) (t_symm t).
  Definition rename_factor (f : index -> index) (x : factor) : factor :=
    match x with Ten t => Ten (rename_tensor f t) | Var v => Var v end.
  (** [append_spin] on a product, spin.cpp:275-315 (with a replacement map, like every other use of
      [transform_indices]). *)
  Definition rename_term (f : index -> index) (tm : term) : term :=
    Term (scalar tm) (map (rename_factor f) (factors tm)).

  (** Whether sorting takes an odd number of swaps: [bubble_sort] and [ts_swap_counter_is_even]. *)
  Definition sort_parity (l : list index) : option bool :=
    option_map (fun r : list index * nat => Nat.odd (snd r)) (bubble_sort lt l).

  (** [get_phase] of a tensor, spin.cpp:447-454: [true] is the phase -1. *)
  Definition tensor_phase (b k : list index) : option bool :=
    match sort_parity b, sort_parity k with
    | Some p, Some q => Some (xorb p q)
    | _, _ => None
    end.

  (** The contents of a sorted range at each iteration of [do ... while (std::next_permutation)].
      [std::next_permutation] is [next_permutation_parity] without the counter. *)
  Definition permutation_loop {A} (ltA : A -> A -> bool) (l : list A) : option (list (list A)) :=
    option_map (fun r : list (list A * Z) * list A => map fst (fst r))
               (antisym_loop ltA (fact (length l)) 0%Z l).

  (** [ms_conserving_columns], spin.cpp:366-378. *)
  Definition ms_conserving_columns (b k : list index) : bool :=
    forallb (fun bk : index * index => spin_eqb (snd (fst bk)) (snd (snd bk))) (combine b k).

  (** [ms_uniform_tensor], spin.cpp:380-396. *)
  Definition ms_uniform (t : tensor) : option bool :=
    match t_bra t ++ t_ket t with
    | [] => None
    | i :: l => Some (forallb (fun j => spin_eqb (snd j) (snd i)) l)
    end.

  Definition is_alpha (i : index) : bool := spin_eqb (snd i) alpha.
  Definition has_spin (i : index) : bool := negb (spin_eqb (snd i) any).

  (** [can_expand], spin.cpp:398-426. *)
  Definition can_expand (t : tensor) : option bool :=
    if Nat.eqb (length (t_bra t)) (length (t_ket t)) && forallb has_spin (t_bra t ++ t_ket t)
    then Some (Nat.eqb (length (filter is_alpha (t_bra t))) (length (filter is_alpha (t_ket t))))
    else None.

  (** A sum of tensors with prefactors 1 (false) or -1 (true). *)
  Definition signed_tensors := list (bool * tensor).

  (** [expand_antisymm] of a tensor, spin.cpp:428-482. *)
  Definition expand_antisymm_tensor (skip_spinsymm : bool) (t : tensor) : option signed_tensors :=
    if negb (Nat.eqb (length (t_bra t)) (length (t_ket t))) then None
    else if Nat.leb (length (t_bra t)) 1
    then Some [(false, Tensor (t_label t) (t_bra t) (t_ket t) (t_aux t) Nonsymm)]
    else
      match (if skip_spinsymm then ms_uniform t else Some false) with
      | None => None
      | Some true => Some [(false, t)]
      | Some false =>
          match t_symm t with
          | Antisymm =>
              let kl := set_of (t_ket t) in
              match tensor_phase (t_bra t) (t_ket t), permutation_loop lt (set_of (t_bra t)) with
              | Some prefactor, Some bls =>
                  concat_mapM (fun bl =>
                    if ms_conserving_columns bl kl
                    then option_map (fun ph => [(xorb ph prefactor,
                                                 Tensor (t_label t) bl kl (t_aux t) Nonsymm)])
                                    (tensor_phase bl kl)
                    else Some []) bls
              | _, _ => None
              end
          | _ => Some [(false, t)]
          end
      end.

  Definition sgnQ (b : bool) : Qc := if b then (- (1))%Qc else 1%Qc.

  (** A product of sums of tensors, distributed. *)
  Definition times (x : factor) (e : expr) : expr :=
    map (fun tm => Term (scalar tm) (x :: factors tm)) e.
  Definition times_sum (s : signed_tensors) (e : expr) : expr :=
    flat_map (fun bt : bool * tensor =>
      map (fun tm => Term (sgnQ (fst bt) * scalar tm)%Qc (Ten (snd bt) :: factors tm)) e) s.

  (** The loop over the factors of a product, spin.cpp:491-510 and 1718-1741, followed by
      [expand]. [f] is what is done with a tensor. *)
  Fixpoint expand_factors (f : tensor -> option signed_tensors) (fs : list factor) : option expr :=
    match fs with
    | [] => Some [Term 1%Qc []]
    | x :: fs' =>
        match expand_factors f fs' with
        | None => None
        | Some e => match x with
                    | Var v => Some (times (Var v) e)
                    | Ten t => option_map (fun s => times_sum s e) (f t)
                    end
        end
    end.
  Definition rescale (c : Qc) (e : expr) : expr :=
    map (fun tm => Term (c * scalar tm)%Qc (factors tm)) e.

  (** [expand_antisymm] of an expression, spin.cpp:484-523. *)
  Definition expand_antisymm_term (skip : bool) (tm : term) : option expr :=
    option_map (rescale (scalar tm)) (expand_factors (expand_antisymm_tensor skip) (factors tm)).
  Definition expand_antisymm (skip : bool) (e : expr) : option expr :=
    concat_mapM (expand_antisymm_term skip) e.

  (** ** Permutation operators *)

  Definition has_label (l : label) (x : factor) : bool :=
    match x with Ten t => label_eqb (t_label t) l | Var _ => false end.
  (** [has_tensor] and [remove_tensor] of a product, abstract_tensor.cpp:14-63. *)
  Definition has_tensor (l : label) (tm : term) : bool := existsb (has_label l) (factors tm).
  Definition remove_tensor (l : label) (tm : term) : term :=
    Term (scalar tm) (filter (fun x => negb (has_label l x)) (factors tm)).
  (** The first tensor with a label. *)
  Fixpoint find_tensor (l : label) (fs : list factor) : option tensor :=
    match fs with
    | [] => None
    | Ten t :: fs' => if label_eqb (t_label t) l then Some t else find_tensor l fs'
    | Var _ :: fs' => find_tensor l fs'
    end.

  (** The entries of a list at the given positions. *)
  Definition pick (l : list index) (ps : list nat) : list index :=
    map (fun p => nth p l (0, any)) ps.

  (** [A_maps], spin.cpp:525-551: the inner loop runs over the permutations of the bra. *)
  Definition A_maps (A : tensor) : option (list (list (index * index))) :=
    match permutation_loop Nat.ltb (seq 0 (length (t_bra A))),
          permutation_loop Nat.ltb (seq 0 (length (t_ket A))) with
    | Some pbs, Some pks =>
        Some (flat_map (fun pk => map (fun pb =>
                map_of (combine (t_bra A) (pick (t_bra A) pb) ++
                        combine (t_ket A) (pick (t_ket A) pk))) pbs) pks)
    | _, _ => None
    end.

  Definition inv_fact (n : nat) : Qc := (/ Q2Qc (inject_Z (Z.of_nat (fact n))))%Qc.

  (** The phase of a replacement map, spin.cpp:580-589, 674-681: the values in the order of the
      keys are sorted. *)
  Definition map_phase (m : list (index * index)) : option bool := sort_parity (map snd m).

  (** [expand_A_op] of a product, spin.cpp:553-611. *)
  Definition expand_A_term (tm : term) : option expr :=
    match find_tensor L_A (factors tm) with
    | None => Some [tm]
    | Some A =>
        if Nat.leb (length (t_bra A)) 1 && Nat.leb (length (t_ket A)) 1
        then Some [remove_tensor L_A tm]
        else
          match A_maps A with
          | None => None
          | Some maps =>
              mapM (fun m => option_map (fun ph =>
                let tm' := rename_term (lookup m) (remove_tensor L_A tm) in
                Term (scalar tm * (sgnQ ph * (inv_fact (length (t_bra A)) *
                                              inv_fact (length (t_ket A)))))%Qc (factors tm'))
                (map_phase m)) maps
          end
    end.
  Definition expand_A_op (e : expr) : option expr := concat_mapM expand_A_term e.

  (** [maps_from_list], spin.cpp:653-669. *)
  Definition maps_from_list (l : list index) : option (list (list (index * index))) :=
    option_map (map (fun ps => map_of (combine l (pick l ps))))
               (permutation_loop Nat.ltb (seq 0 (length l))).

  (** [symmetrize_expr] of a product, spin.cpp:613-711. [A_tensor.rank()] throws when the ranks
      differ (tensor.hpp:664-669), so the particle-non-conserving branch is never reached. *)
  Definition symmetrize_term (tm : term) : option expr :=
    match find_tensor L_A (factors tm) with
    | None => Some [tm]
    | Some A =>
        if negb (Nat.eqb (length (t_bra A)) (length (t_ket A))) then None
        else if Nat.eqb (length (t_bra A)) 1 then Some [remove_tensor L_A tm]
        else if Nat.leb (length (t_bra A)) 1 then None
        else
          let Sy := Tensor L_S (t_bra A) (t_ket A) (t_aux A) Nonsymm in
          match maps_from_list (t_bra A) with
          | None => None
          | Some maps =>
              mapM (fun m => option_map (fun ph =>
                let tm' := rename_term (lookup m) (remove_tensor L_A tm) in
                Term (scalar tm * inv_fact (length (t_ket A)) * sgnQ ph)%Qc
                     (Ten Sy :: factors tm')) (map_phase m)) maps
          end
    end.
  Definition symmetrize_expr (e : expr) : option expr := concat_mapM symmetrize_term e.

  (** [P_maps], spin.cpp:748-770: the transpositions of successive pairs of indices of bra and
      ket. [None]: an odd rank (assertion). *)
  Fixpoint pairs_of (l : list index) : option (list (index * index)) :=
    match l with
    | [] => Some []
    | i :: j :: l' => option_map (fun m => (i, j) :: (j, i) :: m) (pairs_of l')
    | [_] => None
    end.
  Definition P_map (P : tensor) : option (list (index * index)) :=
    if Nat.even (length (t_bra P)) && Nat.even (length (t_ket P))
    then option_map map_of (pairs_of (t_bra P ++ t_ket P))
    else None.

  (** The P operators of a product, in order, up to one of rank one by one (spin.cpp:779-796). The
      flag tells that such an operator was met. *)
  Fixpoint P_scan (fs : list factor) : option (list (list (index * index)) * bool) :=
    match fs with
    | [] => Some ([], false)
    | Ten t :: fs' =>
        if label_eqb (t_label t) L_P then
          if Nat.ltb 1 (length (t_bra t)) || Nat.ltb 1 (length (t_ket t)) then
            match P_map t, P_scan fs' with
            | Some m, Some (ms, r) => Some (m :: ms, r)
            | _, _ => None
            end
          else if Nat.eqb (length (t_bra t)) 1 && Nat.eqb (length (t_ket t)) 1 then Some ([], true)
          else P_scan fs'
        else P_scan fs'
    | Var _ :: fs' => P_scan fs'
    end.

  (** [expand_P_op] of a product, spin.cpp:772-815. *)
  Definition expand_P_term (tm : term) : option expr :=
    match P_scan (factors tm) with
    | None => None
    | Some (_, true) => Some [remove_tensor L_P tm]
    | Some ([], false) => Some [tm]
    | Some (ms, false) =>
        Some (map (fun m => rename_term (lookup m) (remove_tensor L_P tm)) ms)
    end.

  (** [S_replacement_maps], spin.cpp:835-858. *)
  Definition S_replacement_maps (Sy : tensor) : option (list (list (index * index))) :=
    if Nat.ltb 1 (length (t_bra Sy)) && Nat.eqb (length (t_bra Sy)) (length (t_ket Sy)) then
      option_map (map (fun ps =>
        map_of (flat_map (fun bk => bk)
          (map (fun c : (index * index) * (index * index) => [fst c; snd c])
               (combine (combine (t_bra Sy) (pick (t_bra Sy) ps))
                        (combine (t_ket Sy) (pick (t_ket Sy) ps)))))))
        (permutation_loop Nat.ltb (seq 0 (length (t_bra Sy))))
    else None.

  (** [expand_S_product], spin.cpp:872-911. *)
  Definition expand_S_term (tm : term) : option expr :=
    match find_tensor L_S (factors tm) with
    | None => Some [tm]
    | Some Sy =>
        match S_replacement_maps Sy with
        | None => None
        | Some maps =>
            Some (map (fun m => rename_term (lookup m)
                    (Term (scalar tm * inv_fact (length (t_ket Sy)))%Qc
                          (factors (remove_tensor L_S tm)))) maps)
        end
    end.

  (** A summand as it is stored in a [Sum]: a product, or a lone tensor, variable or constant. *)
  Inductive summand := S_product (tm : term) | S_tensor (t : tensor) | S_variable (v : nat) | S_constant (c : Qc).
  Definition as_term (s : summand) : term :=
    match s with
    | S_product tm => tm
    | S_tensor t => Term 1%Qc [Ten t]
    | S_variable v => Term 1%Qc [Var v]
    | S_constant c => Term c []
    end.

  (** [S_maps] of a sum, spin.cpp:860-928. The test for a variable inspects the sum, not the
      summand ([expr->is<Variable>()]), so a lone variable is not appended. A lone S tensor is
      appended as it is. *)
  Definition S_maps (e : list summand) : option expr :=
    if negb (existsb (fun s => has_tensor L_S (as_term s)) e) then Some (map as_term e)
    else concat_mapM (fun s =>
      match s with
      | S_product tm => expand_S_term tm
      | S_tensor t => Some [as_term s]
      | S_constant c => Some [as_term s]
      | S_variable v => Some []
      end) e.

  (** ** Closed-shell spin tracing *)

  Definition is_symmetrizer (x : factor) : bool := has_label L_S x.
  Definition bra_indices (fs : list factor) : list index :=
    flat_map (fun x => match x with Ten t => t_bra t | Var _ => [] end) fs.
  Definition ket_indices (fs : list factor) : list index :=
    flat_map (fun x => match x with Ten t => t_ket t | Var _ => [] end) fs.

  (** [substitute_ext_idx], spin.cpp:1011-1022: the bra index of an external pair is replaced by
      the ket index. [None]: a group that is not a pair (assertion). *)
  Definition replace_one (w v i : index) : index := if index_eqb i w then v else i.
  Fixpoint substitute_ext (groups : list (list index)) (l : list index) : option (list index) :=
    match groups with
    | [] => Some l
    | [w; v] :: gs => substitute_ext gs (map (replace_one w v) l)
    | _ :: _ => None
    end.

  (** [trace_product] of closed_shell_spintrace, spin.cpp:966-1031. Without external groups the
      indices of an antisymmetrizer would be collected too; there is none left. [count_cycles]
      sees the indices through an injection into the natural numbers. *)
  Variable code : index -> nat.
  Definition closed_shell_term (groups : list (list index)) (tm : term) : option term :=
    let fs := filter (fun x => negb (is_symmetrizer x)) (factors tm) in
    let fs' := match groups with
               | [] => fs
               | _ => filter (fun x => negb (has_label L_A x)) fs
               end in
    match substitute_ext groups (ket_indices fs'), substitute_ext groups (bra_indices fs') with
    | Some k, Some b =>
        match count_cycles (map code k) (map code b) with
        | Some n => Some (Term (scalar tm * Q2Qc (inject_Z (2 ^ Z.of_nat n)))%Qc (factors tm))
        | None => None
        end
    | _, _ => None
    end.

  (** [closed_shell_spintrace], spin.cpp:930-1066. *)
  Definition closed_shell_spintrace (full_expansion : bool) (groups : list (list index)) (e : expr)
    : option expr :=
    match (if existsb (has_tensor L_A) e
           then (if full_expansion then expand_A_op e else symmetrize_expr e) else Some e) with
    | None => None
    | Some e1 =>
        match expand_antisymm false e1 with
        | None => None
        | Some e2 => mapM (closed_shell_term groups) e2
        end
    end.

  (** ** Spin tracing by summation over spin cases *)

  (** [get_used_indices], core/utility/indices.hpp:299-380, in the order of occurrence. *)
  Definition used_indices (fs : list factor) : list index :=
    flat_map (fun x => match x with Ten t => t_bra t ++ t_ket t ++ t_aux t | Var _ => [] end) fs.
  Definition mem (i : index) (l : list index) : bool := existsb (index_eqb i) l.
  (** [int_idxlist], spin.cpp:1726-1748 and 1393-1409. *)
  Definition internal_indices (groups : list (list index)) (used : list index) : list index :=
    set_of (filter (fun i => negb (mem i (concat groups))) used).

  (** [(spincase << (64 - j - 1)) >> 63] on 64-bit words, spin.cpp:1781 and 1430. *)
  Definition spin_bit (spincase : N) (j : nat) : N :=
    N.shiftr ((N.shiftl spincase (N.of_nat (64 - j - 1))) mod 2 ^ 64)%N 63.

  (** The replacement map of one spin case, spin.cpp:1775-1794 and 1423-1441. *)
  Fixpoint spincase_entries (spincase : N) (j : nat) (groups : list (list index)) : list (index * index) :=
    match groups with
    | [] => []
    | g :: gs => map (fun i => (i, with_spin (if N.eqb (spin_bit spincase j) 0 then alpha else beta) i)) g
                 ++ spincase_entries spincase (S j) gs
    end.
  (** All spin cases; [pow2] asserts that the exponent is at most 63 (math.hpp:16-19). *)
  Definition spincases (groups : list (list index)) : option (list (list (index * index))) :=
    if Nat.leb (length groups) 63
    then Some (map (fun c => map_of (spincase_entries (N.of_nat c) 0 groups)) (seq 0 (2 ^ length groups)))
    else None.

  (** [remove_spin], spin.cpp:317-364: the auxiliary indices are passed on as they are. *)
  Definition remove_spin_tensor (t : tensor) : tensor :=
    Tensor (t_label t) (map (with_spin any) (t_bra t)) (map (with_spin any) (t_ket t)) (t_aux t) (t_symm t).
  Definition remove_spin_factor (x : factor) : factor :=
    match x with Ten t => Ten (remove_spin_tensor t) | Var v => Var v end.
  Definition remove_spin (tm : term) : term :=
    Term (scalar tm) (map remove_spin_factor (factors tm)).

  (** [spintrace_tensor], spin.cpp:1680-1682. *)
  Definition spintrace_tensor (t : tensor) : option signed_tensors :=
    match can_expand t with
    | Some true => expand_antisymm_tensor false t
    | Some false => Some []
    | None => None
    end.

  (** [spintrace_product], spin.cpp:1687-1733. The check that all tensors can be expanded comes
      first. *)
  Definition tensors_of (fs : list factor) : list tensor :=
    flat_map (fun x => match x with Ten t => [t] | Var _ => [] end) fs.
  Fixpoint all_expandable (ts : list tensor) : option bool :=
    match ts with
    | [] => Some true
    | t :: ts' => match can_expand t with
                  | Some true => all_expandable ts'
                  | r => r
                  end
    end.
  Definition spintrace_product (tm : term) : option expr :=
    match all_expandable (tensors_of (factors tm)) with
    | None => None
    | Some false => Some []
    | Some true => option_map (rescale (scalar tm)) (expand_factors spintrace_tensor (factors tm))
    end.

  (** [trace_product] of spintrace, spin.cpp:1717-1829. *)
  Definition trace_product (spinfree : bool) (groups : list (list index)) (tm : term) : option expr :=
    let ints := internal_indices groups (used_indices (factors tm)) in
    match spincases (map (fun i => [i]) ints ++ groups) with
    | None => None
    | Some cases =>
        concat_mapM (fun m =>
          option_map (fun e => if spinfree then map remove_spin e else e)
                     (spintrace_product (rename_term (lookup m) tm))) cases
    end.

  (** [spintrace], spin.cpp:1650-1859. The debug check of the number of external indices is left
      out. A sum without terms has no result object; here it is the empty sum. *)
  Definition spintrace (spinfree : bool) (groups : list (list index)) (e : expr) : option expr :=
    match expand_A_op e with
    | None => None
    | Some e1 => concat_mapM (trace_product spinfree groups) e1
    end.

  (** ** Open-shell spin tracing *)

  (** The spins of the external groups, spin.cpp:1449-1466: the last [i] groups are beta. *)
  Definition ext_spincase (groups : list (list index)) (i : nat) : list (index * index) :=
    let n := length groups in
    map_of (flat_map (fun jg : nat * list index =>
      map (fun x => (x, with_spin (if Nat.leb (n - i) (fst jg) then beta else alpha) x)) (snd jg))
      (combine (seq 0 n) groups)).

  (** [spin_symm_product], spin.cpp:1487-1509. [None]: different numbers of bra and ket indices
      (assertion). *)
  Definition spin_symm_product (tm : term) : option bool :=
    let b := bra_indices (factors tm) in
    let k := ket_indices (factors tm) in
    if Nat.eqb (length b) (length k) then Some (ms_conserving_columns b k) else None.

  (** One internal spin case of one external spin case, spin.cpp:1524-1552. Each term of the
      expanded sum is kept if it conserves the spin in every column. (A result that consists of a
      lone tensor is appended without this test; such a tensor that does not conserve the spin has
      the value zero.) *)
  Definition open_shell_case (e : expr) (m : list (index * index)) : option expr :=
    match expand_antisymm true (map (rename_term (lookup m)) e) with
    | None => None
    | Some e' => concat_mapM (fun tm => option_map (fun b : bool => if b then [tm] else [])
                                                   (spin_symm_product tm)) e'
    end.

  (** [open_shell_spintrace] for the external spin case [c], spin.cpp:1370-1553. The internal
      indices are those of the whole expression. *)
  Definition open_shell_spintrace (groups : list (list index)) (c : nat) (e : expr) : option expr :=
    let ints := internal_indices groups (flat_map (fun tm => used_indices (factors tm)) e) in
    match spincases (map (fun i => [i]) ints), expand_A_op e with
    | Some cases, Some e1 =>
        let e2 := map (rename_term (lookup (ext_spincase groups c))) e1 in
        concat_mapM (open_shell_case e2) cases
    | _, _ => None
    end.

  (** ** Spin tracing of a result *)

  (** The signs and index lists of the loop of [wrap_trace], spin.cpp:148-211: the indices start
      sorted, the sign alternates. [idxPairings] stays empty, so no pairing is skipped. The
      assertion that the sign is right (line 166) is in debug builds only and is not modelled. *)
  Definition wrap_trace_signs (l : list index) : option (list (bool * list index)) :=
    match sort_parity l, permutation_loop lt (set_of l) with
    | Some s, Some ps =>
        Some (map (fun jp : nat * list index => (xorb s (Nat.odd (fst jp)), snd jp))
                  (combine (seq 0 (length ps)) ps))
    | _, _ => None
    end.

  (** [swap_bra_ket] of a tensor, spin.cpp:232-273: the auxiliary indices are not passed on. *)
  Definition swap_bra_ket (t : tensor) : tensor :=
    Tensor (t_label t) (t_ket t) (t_bra t) [] (t_symm t).
End Order.
