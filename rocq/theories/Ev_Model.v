(** Model of the evaluation cache (SeQuant/core/eval/cache_manager.hpp) and of the evaluator
    (SeQuant/core/eval/eval.hpp).

    Trees are plain trees ([BT_Model.tree], shown in BT_Props to be what the node objects hold).
    Keys of the hash maps are trees compared with [node_eq]; hash values are part of the payload
    comparison, and buckets are not modelled: a map is the list of its elements.
    Not modelled: logging (the EvalTrace branches), timing, and working_set_hwmark_. *)
From Coq Require Import List ZArith Bool Arith.
From Verif Require Import BT_Model.
Import ListNotations.
Local Open Scope Z_scope.

(** ** TreeNodeEqualityComparator (eval_node_compare.hpp:54-125). [peq] is the comparison of the
    payloads: hash value, type id, scalar expression, tensor block, connectivity graph. *)
Section NodeEq.
  Context {D : Type}.
  Variable peq : D -> D -> bool.

  Fixpoint node_eq (a b : tree D) : bool :=
    if negb (Bool.eqb (is_leaf a) (is_leaf b)) then false
    else if negb (Nat.eqb (size a) (size b)) then false
    else if negb (peq (data a) (data b)) then false
    else match a, b with
         | Node _ la ra, Node _ lb rb => if node_eq la lb then node_eq ra rb else false
         | _, _ => true
         end.
End NodeEq.

(** ** CacheManager::entry (cache_manager.hpp:76-149). [P] is the type of non-null pointers; a
    ResultPtr is an [option P]. *)
Record entry (P : Type) := mkentry {
  max_life : Z;               (* size_t *)
  life_c : Z;                 (* size_t *)
  data_p : option P;
  size_bytes : option Z;      (* memoized size *)
  persistent_ : bool }.
Arguments mkentry {P}. Arguments max_life {P}. Arguments life_c {P}. Arguments data_p {P}.
Arguments size_bytes {P}. Arguments persistent_ {P}.

(** static_cast<int> of a size_t: the residue modulo 2^32 of the right sign. *)
Definition to_int (z : Z) : Z :=
  let r := z mod 4294967296 in if r <? 2147483648 then r else r - 4294967296.

Section Entry.
  Context {P : Type}.
  Variable sizeof : P -> Z.

  (** cache_manager.hpp:101-105 *)
  Definition new_entry (count : Z) (persistent : bool) : entry P :=
    mkentry count count None None persistent.

  (** cache_manager.hpp:146-148 *)
  Definition decay (e : entry P) : Z * entry P :=
    if 0 <? life_c e
    then (to_int (life_c e - 1), mkentry (max_life e) (life_c e - 1) (data_p e) (size_bytes e) (persistent_ e))
    else (0, e).

  (** cache_manager.hpp:107-115 *)
  Definition entry_access (e : entry P) : option P * entry P :=
    match data_p e with
    | None => (None, e)
    | Some p =>
        if persistent_ e then (Some p, e)
        else let '(d, e1) := decay e in
             if d =? 0 then (Some p, mkentry (max_life e1) (life_c e1) None None (persistent_ e1))
             else (Some p, e1)
    end.

  (** cache_manager.hpp:117-121 *)
  Definition entry_store (e : entry P) (d : option P) : entry P :=
    mkentry (max_life e) (life_c e) d None (persistent_ e).

  (** cache_manager.hpp:123-129 *)
  Definition entry_reset (e : entry P) : entry P :=
    if persistent_ e then mkentry (max_life e) (max_life e) (data_p e) (size_bytes e) true
    else mkentry (max_life e) (max_life e) None None false.

  (** cache_manager.hpp:137-142; the memo is written through a mutable member. *)
  Definition entry_size (e : entry P) : Z * entry P :=
    match data_p e with
    | None => (0, e)
    | Some p =>
        match size_bytes e with
        | Some n => (n, e)
        | None => (sizeof p, mkentry (max_life e) (life_c e) (data_p e) (Some (sizeof p)) (persistent_ e))
        end
    end.

  (** cache_manager.hpp:144 *)
  Definition entry_alive (e : entry P) : bool := match data_p e with Some _ => true | None => false end.
End Entry.

(** ** CacheManager *)
Section Cache.
  Context {D P : Type}.
  Variable peq : D -> D -> bool.
  Variable sizeof : P -> Z.

  Notation key := (tree D).
  Notation cmap := (list (key * entry P)).

  (** std::unordered_map::find: the element whose key compares equal. *)
  Fixpoint find {X} (m : list (key * X)) (k : key) : option X :=
    match m with
    | [] => None
    | (k', e) :: m' => if node_eq peq k' k then Some e else find m' k
    end.

  (** Assignment through the iterator returned by find. *)
  Fixpoint assign {X} (m : list (key * X)) (k : key) (e : X) : list (key * X) :=
    match m with
    | [] => []
    | (k', e') :: m' => if node_eq peq k' k then (k', e) :: m' else (k', e') :: assign m' k e
    end.

  (** cache_manager.hpp:213-219: try_emplace keeps the first of several equal keys. *)
  Definition try_emplace {X} (m : list (key * X)) (k : key) (e : X) : list (key * X) :=
    match find m k with Some _ => m | None => m ++ [(k, e)] end.

  Definition cache_ctor (decaying : list (key * Z)) (is_persistent : key -> bool) : cmap :=
    fold_left (fun m kc => try_emplace m (fst kc) (new_entry (snd kc) (is_persistent (fst kc)))) decaying [].

  (** cache_manager.hpp:224-227 *)
  Definition cache_reset (c : cmap) : cmap := map (fun ke => (fst ke, entry_reset (snd ke))) c.

  (** cache_manager.hpp:243-247 *)
  Definition cache_access (c : cmap) (k : key) : option P * cmap :=
    match find c k with
    | Some e => let '(p, e') := entry_access e in (p, assign c k e')
    | None => (None, c)
    end.

  (** cache_manager.hpp:151-154 and 257-261 *)
  Definition cache_store (c : cmap) (k : key) (d : option P) : option P * cmap :=
    match find c k with
    | Some e => let '(p, e') := entry_access (entry_store e d) in (p, assign c k e')
    | None => (d, c)
    end.

  (** cache_manager.hpp:267-269 *)
  Definition cache_exists (c : cmap) (k : key) : bool :=
    match find c k with Some _ => true | None => false end.

  (** cache_manager.hpp:304-307, 311-314 *)
  Definition cache_alive (c : cmap) (k : key) : bool :=
    match find c k with Some e => entry_alive e | None => false end.
  Definition cache_persistent (c : cmap) (k : key) : bool :=
    match find c k with Some e => persistent_ e | None => false end.

  (** cache_manager.hpp:287-291 *)
  Definition cache_life (c : cmap) (k : key) : Z :=
    match find c k with Some e => to_int (life_c e) | None => -1 end.

  (** cache_manager.hpp:318-321 *)
  Definition cache_size (c : cmap) (k : key) : Z * cmap :=
    match find c k with
    | Some e => let '(n, e') := entry_size sizeof e in (n, assign c k e')
    | None => (0, c)
    end.

  (** cache_manager.hpp:326-335: the sum of the life counts of the entries holding data. *)
  Definition alive_count (c : cmap) : Z :=
    fold_left (fun acc ke => acc + (if entry_alive (snd ke) then life_c (snd ke) else 0)) c 0.
End Cache.

(** ** cache_manager (cache_manager.hpp:376-411) *)
Section Build.
  Context {D : Type}.
  Variable peq : D -> D -> bool.
  Notation counts := (list (tree D * Z)).

  (** imed_visitor, lines 387-394: [true] means go on with the children. *)
  Definition imed_visitor (m : counts) (n : tree D) : counts * bool :=
    match find peq m n with
    | Some c => (assign peq m n (c + 1), false)
    | None => (m ++ [(n, 1)], true)
    end.

  (** tree.visit_internal(imed_visitor), pre-order. The loop of visit is modelled in BT_Model;
      here the recursive form, which C16_visit_const shows to be the same. *)
  Fixpoint count_visit (m : counts) (n : tree D) : counts :=
    match n with
    | Leaf _ => m
    | Node _ l r =>
        let '(m1, go) := imed_visitor m n in
        if go then count_visit (count_visit m1 l) r else m1
    end.

  Definition imed_counts (nodes : list (tree D)) : counts := fold_left count_visit nodes [].

  (** lines 401-404 *)
  Definition filtered (nodes : list (tree D)) (min_repeats : Z) : counts :=
    filter (fun kc => min_repeats <=? snd kc) (imed_counts nodes).

  (** The persistence-aware overload, lines 484-523: counts, volatile_of and persistent. *)
  Variable is_volatile : tree D -> bool.
  Record pstate := mkp { p_counts : counts; p_vol : list (tree D * bool); p_pers : list (tree D) }.

  Definition bump (m : counts) (n : tree D) : counts :=
    match find peq m n with Some c => assign peq m n (c + 1) | None => m ++ [(n, 1)] end.
  Definition mem (s : list (tree D)) (n : tree D) : bool := existsb (fun k => node_eq peq k n) s.
  Definition insert (s : list (tree D)) (n : tree D) : list (tree D) := if mem s n then s else s ++ [n].

  Fixpoint p_visit (s : pstate) (n : tree D) : pstate * bool :=
    let s0 := if is_leaf n then s else mkp (bump (p_counts s) n) (p_vol s) (p_pers s) in
    match find peq (p_vol s) n with
    | Some v => (s0, v)
    | None =>
        match n with
        | Leaf _ =>
            let v := is_volatile n in
            (mkp (p_counts s0) (try_emplace peq (p_vol s0) n v) (p_pers s0), v)
        | Node _ l r =>
            let '(s1, vl) := p_visit s0 l in
            let '(s2, vr) := p_visit s1 r in
            let v := is_volatile n || vl || vr in
            let s3 := if v && negb vl && negb (is_leaf l)
                      then mkp (p_counts s2) (p_vol s2) (insert (p_pers s2) l) else s2 in
            let s4 := if v && negb vr && negb (is_leaf r)
                      then mkp (p_counts s3) (p_vol s3) (insert (p_pers s3) r) else s3 in
            (mkp (p_counts s4) (try_emplace peq (p_vol s4) n v) (p_pers s4), v)
        end
    end.

  Definition p_visit_all (nodes : list (tree D)) : pstate :=
    fold_left (fun s n => fst (p_visit s n)) nodes (mkp [] [] []).

  (** lines 535-553. [vetoed n] stands for the two reasons not to cache: a free batchable index
      and the footprint gate. *)
  Variable vetoed : tree D -> bool.
  Definition p_filtered (nodes : list (tree D)) (min_repeats : Z) : counts :=
    let s := p_visit_all nodes in
    filter (fun kc => ((min_repeats <=? snd kc) || mem (p_pers s) (fst kc)) && negb (vetoed (fst kc)))
           (p_counts s).
  (** persistent after the erasures of line 550 *)
  Definition p_persistent (nodes : list (tree D)) (min_repeats : Z) : list (tree D) :=
    let s := p_visit_all nodes in
    filter (fun k => negb (existsb (fun kc => ((min_repeats <=? snd kc) || mem (p_pers s) (fst kc))
                                              && vetoed (fst kc) && node_eq peq (fst kc) k) (p_counts s)))
           (p_pers s).
  Definition p_is_persistent (nodes : list (tree D)) (min_repeats : Z) (n : tree D) : bool :=
    mem (p_persistent nodes min_repeats) n.
End Build.

(** ** evaluate (eval.hpp:523-765) *)
Inductive eop := OpSum | OpProduct | OpAdjoint.
Inductive stage := Enter | NeedLeft | NeedRight | NeedLeftAdj.

Section Evaluate.
  Context {D V : Type}.
  Variable peq : D -> D -> bool.
  (** op_type() and canon_phase() of a payload *)
  Variable op_type : D -> eop.
  Variable canon_phase : D -> Z.
  (** Result::sum, prod, adjoint, mult_by_phase, permute, add_inplace on the values; the three
      payloads stand for the annotations [left, right, this] and the de-nest flag. *)
  Variable vsum vprod : D -> D -> D -> V -> V -> V.
  Variable vadj : D -> D -> V -> V.
  Variable vphase : Z -> V -> V.
  Variable vperm : D -> V -> V.
  Variable vadd : V -> V -> V.

  (** Result objects live in a heap; a ResultPtr is an address. Everything below except
      add_inplace only allocates. *)
  Notation addr := nat.
  Notation rheap := (list V).
  Notation cmap := (list (tree D * entry addr)).

  (** Heap, cache, and the list of internal nodes whose operation has been carried out. *)
  Record est := mkest { e_heap : rheap; e_cache : cmap; e_log : list (tree D) }.

  (** The leaf evaluator: may allocate, may also return an existing object. *)
  Variable le : tree D -> rheap -> addr * rheap.
  (** The custom evaluator (None: not set) and the shaped-product hook. *)
  Variable custom : option (tree D -> est -> option addr * est).
  Variable hook : tree D -> V -> V -> option V.

  Definition alloc (s : est) (v : V) : addr * est :=
    (length (e_heap s), mkest (e_heap s ++ [v]) (e_cache s) (e_log s)).

  Definition with_cache (s : est) (c : cmap) : est := mkest (e_heap s) c (e_log s).
  Definition logged (s : est) (n : tree D) : est := mkest (e_heap s) (e_cache s) (e_log s ++ [n]).

  (** apply_phase, lines 528-547. None: a null pointer is dereferenced. *)
  Definition apply_phase (n : tree D) (res : option addr) (s : est) : option (option addr * est) :=
    if canon_phase (data n) =? 1 then Some (res, s)
    else match res with
         | None => None
         | Some a =>
             match nth_error (e_heap s) a with
             | None => None
             | Some v => let '(b, s') := alloc s (vphase (canon_phase (data n)) v) in Some (Some b, s')
             end
         end.

  (** Frame, lines 554-561 *)
  Record eframe := mkef {
    f_node : tree D; f_checked : bool; f_stage : stage; f_store : bool;
    f_left : option addr; f_right : option addr }.

  (** finish_phase_b, lines 567-574 *)
  Definition finish_phase_b (f : eframe) (rb : option addr) (s : est) : option (option addr * est) :=
    if negb (f_store f) then Some (rb, s)
    else match apply_phase (f_node f) rb s with
         | None => None
         | Some (p1, s1) =>
             let '(ptr, c) := cache_store peq (e_cache s1) (f_node f) p1 in
             apply_phase (f_node f) ptr (with_cache s1 c)
         end.

  (** Outcome of one turn of the loop, lines 592-762. *)
  Inductive eres :=
  | EPush (f : eframe) (child : eframe) (ret : option addr) (s : est)  (* push a child *)
  | EFinal (r : option addr) (s : est)                                (* finalize(r) *)
  | EFail.                                                            (* assertion or null pointer *)

  Definition final (x : option (option addr * est)) : eres :=
    match x with Some (r, s) => EFinal r s | None => EFail end.

  (** Stage::Enter after a cache miss, lines 609-658. *)
  Definition enter_miss (f : eframe) (ret : option addr) (s : est) : eres :=
    match f_node f with
    | Leaf d => let '(a, h) := le (f_node f) (e_heap s) in
                final (finish_phase_b f (Some a) (mkest h (e_cache s) (e_log s)))
    | Node d l r =>
        let standard s :=
          EPush (mkef (f_node f) (f_checked f) (match op_type d with OpAdjoint => NeedLeftAdj | _ => NeedLeft end)
                      (f_store f) (f_left f) (f_right f))
                (mkef l true Enter false None None) ret s in
        match custom with
        | None => standard s
        | Some ce =>
            let '(x, s1) := ce (f_node f) s in
            match x with
            | Some a => final (finish_phase_b f (Some a) s1)
            | None => standard s1
            end
        end
    end.

  Definition deref (s : est) (p : option addr) : option V :=
    match p with Some a => nth_error (e_heap s) a | None => None end.

  Definition eval_step (f : eframe) (ret : option addr) (s : est) : eres :=
    match f_stage f with
    | Enter =>
        if f_checked f then
          let '(ptr, c) := cache_access peq (e_cache s) (f_node f) in
          let s1 := with_cache s c in
          match ptr with
          | Some a => final (apply_phase (f_node f) (Some a) s1)
          | None => enter_miss (mkef (f_node f) (f_checked f) (f_stage f) (cache_exists peq (e_cache s1) (f_node f))
                                     (f_left f) (f_right f)) ret s1
          end
        else enter_miss f ret s
    | NeedLeftAdj =>
        match f_node f, deref s ret with
        | Node d l _, Some v =>
            let '(a, s1) := alloc s (vadj (data l) d v) in
            final (finish_phase_b f (Some a) (logged s1 (f_node f)))
        | _, _ => EFail
        end
    | NeedLeft =>
        match f_node f, ret with
        | Node d l r, Some _ =>
            EPush (mkef (f_node f) (f_checked f) NeedRight (f_store f) ret (f_right f))
                  (mkef r true Enter false None None) None s
        | _, _ => EFail
        end
    | NeedRight =>
        match f_node f, deref s (f_left f), deref s ret with
        | Node d l r, Some vl, Some vr =>
            let v := match op_type d with
                     | OpSum => vsum (data l) (data r) d vl vr
                     | _ => match hook (f_node f) vl vr with
                            | Some w => w
                            | None => vprod (data l) (data r) d vl vr
                            end
                     end in
            let '(a, s1) := alloc s v in
            final (finish_phase_b f (Some a) (logged s1 (f_node f)))
        | _, _, _ => EFail
        end
    end.

  (** while (!stk.empty()), lines 589-763 *)
  Inductive outcome := Done (r : option addr) (s : est) | Failed | OutOfFuel.

  Fixpoint eval_loop (fuel : nat) (stk : list eframe) (ret : option addr) (s : est) : outcome :=
    match stk with
    | [] => Done ret s
    | f :: rest =>
        match fuel with
        | O => OutOfFuel
        | S fuel' =>
            match eval_step f ret s with
            | EPush f' c ret' s' => eval_loop fuel' (c :: f' :: rest) ret' s'
            | EFinal r s' => eval_loop fuel' rest r s'
            | EFail => Failed
            end
        end
    end.

  (** [checked] is the template parameter CacheCheck. *)
  Definition evaluate (fuel : nat) (checked : bool) (n : tree D) (s : est) : outcome :=
    eval_loop fuel [mkef n checked Enter false None None] None s.

  (** ** evaluate(node, layout, le, cache), lines 783-830. [layout = None]: the
      default-constructed layout, no permutation. *)
  Definition evaluate_layout (fuel : nat) (layout : option D) (n : tree D) (s : est) : outcome :=
    match evaluate fuel true n s with
    | Done pre s1 =>
        match layout with
        | None => match pre with Some _ => Done pre s1 | None => Failed end
        | Some lay =>
            match deref s1 pre with
            | Some v => let '(a, s2) := alloc s1 (vperm lay v) in Done (Some a) s2
            | None => Failed
            end
        end
    | x => x
    end.

  Fixpoint set_nth (h : rheap) (a : addr) (v : V) : rheap :=
    match h, a with
    | [], _ => []
    | _ :: h', O => v :: h'
    | w :: h', S a' => w :: set_nth h' a' v
    end.

  (** Result::add_inplace: the only operation that changes an existing object. *)
  Definition add_inplace (s : est) (a b : addr) : option est :=
    match nth_error (e_heap s) a, nth_error (e_heap s) b with
    | Some x, Some y => Some (mkest (set_nth (e_heap s) a (vadd x y)) (e_cache s) (e_log s))
    | _, _ => None
    end.

  (** evaluate(nodes, layout, le, cache), lines 852-890 *)
  Fixpoint evaluate_range (fuel : nat) (layout : option D) (nodes : list (tree D)) (result : option addr) (s : est) : outcome :=
    match nodes with
    | [] => Done result s
    | n :: nodes' =>
        match evaluate_layout fuel layout n s with
        | Done p s1 =>
            match result with
            | None => evaluate_range fuel layout nodes' p s1
            | Some a =>
                match p with
                | None => Failed
                | Some b =>
                    match add_inplace s1 a b with
                    | Some s2 => evaluate_range fuel layout nodes' (Some a) s2
                    | None => Failed
                    end
                end
            end
        | x => x
        end
    end.
End Evaluate.

(** ** peak_cache (cache_manager.cpp:18-56). [mem_cost] is the Memory functor; costs are modelled
    as integers (AsyCost evaluated at some sizes). The cache here stores ResultPtr, and the
    simulated store passes a null pointer. *)
Section PeakCache.
  Context {D : Type}.
  Variable peq : D -> D -> bool.
  Variable mem_cost : tree D -> Z.

  (** max_cache, cache_manager.cpp:19-38 *)
  Fixpoint max_cache (n : tree D) (st : list (tree D * entry unit) * Z * Z) : list (tree D * entry unit) * Z * Z :=
    let '(cm, curr, mx) := st in
    let '(ptr, cm1) := cache_access peq cm n in
    match ptr with
    | Some _ => (cm1, (if cache_life peq cm1 n =? 0 then curr - mem_cost n else curr), mx)
    | None =>
        match n with
        | Leaf _ => (cm1, curr, mx)
        | Node _ l r =>
            let '(cm2, curr2, mx2) := max_cache r (max_cache l (cm1, curr, mx)) in
            if cache_exists peq cm2 n then
              let curr3 := curr2 + mem_cost n in
              (snd (cache_store peq cm2 n None), curr3, Z.max curr3 mx2)
            else (cm2, curr2, mx2)
        end
    end.

  Definition peak_cache (nodes : list (tree D)) (min_repeats : Z) : Z :=
    let cm := cache_ctor peq (filtered peq nodes min_repeats) (fun _ => false) in
    let '(_, _, mx) := fold_left (fun st n => max_cache n st) nodes (cm, 0, 0) in mx.
End PeakCache.

(** ** mode_batches_of_trange1 (backends/tiledarray/result.hpp:368-395). The tiles of the TiledRange1
    are given as the list of their element ranges, elements_range() as [er]. size_t as integers: all
    sums are bounded by er.second. *)
Fixpoint batch_loop (target : Z) (tiles : list (Z * Z)) (grp_lo acc : Z) (batches : list (Z * Z)) : list (Z * Z) :=
  match tiles with
  | [] => batches
  | (lo, hi) :: rest =>
      let tsz := hi - lo in
      let '(batches1, grp_lo1, acc1) :=
        if (0 <? acc) && (target <? acc + tsz) then (batches ++ [(grp_lo, lo)], lo, 0) else (batches, grp_lo, acc) in
      let acc2 := acc1 + tsz in
      let batches2 := match rest with [] => batches1 ++ [(grp_lo1, hi)] | _ => batches1 end in
      batch_loop target rest grp_lo1 acc2 batches2
  end.

Definition mode_batches (er : Z * Z) (tiles : list (Z * Z)) (target_batch_size : Z) : list (Z * Z) :=
  if snd er <=? fst er then []
  else batch_loop (Z.max target_batch_size 1) tiles (fst er) 0 [].
