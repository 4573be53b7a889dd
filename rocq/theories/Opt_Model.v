(** Model of the single-term optimiser (SeQuant/core/optimize/single_term_detail.hpp,
    cost_model.hpp, single_term.hpp) and of the subset index tables it uses
    (SeQuant/core/utility/indices.hpp).

    Simplifications, used throughout this file:
    - an [Index] is a natural number (its full label); index 0 stands for the null index that
      fills empty slots. Proto-indices are not visible here: they enter only through the
      volume oracle [vol] below;
    - [double] costs are exact integers ([Z]); [numeric_limits<double>::max()] is the separate
      value [None] which no finite cost reaches (overflow and rounding are not modelled);
    - [std::vector]s indexed by a subset mask are total functions from masks. *)
From Coq Require Import NArith ZArith List Arith Bool.
From Verif Require Import Bits_Model.
Import ListNotations.

Notation idx := nat (only parsing).

(** [Index::nonnull], index.hpp:452. *)
Definition nonnull (i : idx) : bool := negb (Nat.eqb i 0).

(** [container::set<Index, FullLabelCompare>::emplace]: ordered set without duplicates. *)
Fixpoint set_emplace (x : idx) (s : list idx) : list idx :=
  match s with
  | [] => [x]
  | y :: s' => if Nat.ltb x y then x :: s
               else if Nat.eqb x y then s
               else y :: set_emplace x s'
  end.

Definition set_of_list (l : list idx) : list idx := fold_left (fun s x => set_emplace x s) l [].

(** [try_emplace(ix,1)] / [++it->second] on an ordered map, indices.hpp:781-783. *)
Fixpoint count_bump (x : idx) (m : list (idx * nat)) : list (idx * nat) :=
  match m with
  | [] => [(x, 1)]
  | (y, c) :: m' => if Nat.ltb x y then (x, 1) :: m
                    else if Nat.eqb x y then (y, S c) :: m'
                    else (y, c) :: count_bump x m'
  end.

Definition map_contains (m : list (idx * nat)) (x : idx) : bool :=
  existsb (fun kv => Nat.eqb (fst kv) x) m.

Definition contains (l : list idx) (x : idx) : bool := existsb (Nat.eqb x) l.

(** The largest supported number of tensors: [SEQUANT_ASSERT(N <= 24)], indices.hpp:770,814. *)
Definition max_tensors : nat := 24.

(** [subset_index_counts], indices.hpp:767-786: the cell [result[i]]. [needed] is the optional
    mask of cells to fill. The [sieve] view is modelled by [nth]; it is in range (C03_sieve). *)
Definition subset_index_counts (rng : list (list idx)) (needed : N -> bool) (i : N)
  : list (idx * nat) :=
  if N.eqb i 0 then []
  else if negb (needed i) then []
  else fold_left (fun m k => fold_left (fun m ix => count_bump ix m) (nth k rng []) m)
                 (on_bits_index 64 i) [].

(** [size_t{1} << N], indices.hpp:817. *)
Definition table_size (n : nat) : N := N.shiftl 1 (N.of_nat n).

(** [subset_target_indices], indices.hpp:809-850: the cell [result[i]]. [connected] is the
    pruning table ([fun _ => true] when the pointer is null). The four loops of the code are
    applied to the cell in program order. *)
Definition subset_target_indices (rng : list (list idx)) (tixs : list idx)
  (connected : N -> bool) (i : N) : list idx :=
  let n := length rng in
  let S := table_size n in
  let needed := fun j => connected j || connected (S - 1 - j)%N in
  let counts := subset_index_counts rng needed in
  (* 834-835: singletons get all indices of their tensor *)
  let r1 := fold_left (fun s k => if N.eqb i (N.shiftl 1 (N.of_nat k))
                                  then fold_left (fun s ix => set_emplace ix s) (nth k rng []) s
                                  else s) (seq 0 n) [] in
  (* 839-840: the full set *)
  let r2 := if N.eqb i (S - 1)%N
            then fold_left (fun s kv => if Nat.eqb (snd kv) 1 || contains tixs (fst kv)
                                        then set_emplace (fst kv) s else s)
                           (counts (S - 1)%N) r1
            else r1 in
  (* 842-847 *)
  if connected i
  then fold_left (fun s kv => if Nat.eqb (snd kv) 1
                                 || (Nat.ltb 0 (snd kv) && map_contains (counts (S - i - 1)%N) (fst kv))
                              then set_emplace (fst kv) s else s)
                 (counts i) r2
  else r2.

(** ** Cost counters, single_term_detail.hpp:84-193 *)
Section Counters.
  (** [inner_aware_volume(tot_indices(s), ixex, inner_pow)] as a function of an index set. *)
  Variable vol : list idx -> Z.

  (** [flops_counter], single_term_detail.hpp:112-133. *)
  Definition flops_counter (lhs rhs result : list idx) : Z :=
    let t := vol (set_of_list (lhs ++ rhs ++ result)) in
    if Z.eqb t 1 then 0%Z else t.

  (** [footprint_counter], single_term_detail.hpp:186-193. *)
  Definition footprint_counter (result : list idx) : Z :=
    let m := vol result in if Z.eqb m 1 then 0%Z else m.

  (** [memsize_counter], single_term_detail.hpp:149-169. *)
  Definition memsize_counter (lhs rhs result : list idx) : Z :=
    (footprint_counter lhs + footprint_counter rhs + footprint_counter result)%Z.
End Counters.

(** ** Connectivity, single_term_detail.hpp:409-491 *)

(** [carriers[ix] |= mask] on an ordered map. *)
Fixpoint carrier_or (x : idx) (mask : N) (m : list (idx * N)) : list (idx * N) :=
  match m with
  | [] => [(x, mask)]
  | (y, c) :: m' => if Nat.ltb x y then (x, mask) :: m
                    else if Nat.eqb x y then (y, N.lor c mask) :: m'
                    else (y, c) :: carrier_or x mask m'
  end.

(** single_term_detail.hpp:414-429: the carrier bitmask of each contractible index. *)
Definition carriers (rng : list (list idx)) (tixs : list idx) : list (idx * N) :=
  fold_left (fun m k =>
    fold_left (fun m ix =>
      if negb (nonnull ix) then m
      else if contains tixs ix then m
      else carrier_or ix (N.shiftl 1 (N.of_nat k)) m) (nth k rng []) m)
    (seq 0 (length rng)) [].

(** Functional update of a vector cell. *)
Definition vupd {A} (v : nat -> A) (k : nat) (x : A) : nat -> A :=
  fun j => if Nat.eqb j k then x else v j.

Definition tupd {A} (v : N -> A) (k : N) (x : A) : N -> A :=
  fun j => if N.eqb j k then x else v j.

(** [contractible_adjacency], single_term_detail.hpp:408-440. The [while (rest)] loop visits the
    set bits of [cm] in increasing order. *)
Definition contractible_adjacency (rng : list (list idx)) (tixs : list idx) : nat -> N :=
  fold_left (fun adj kv =>
    let cm := snd kv in
    if Nat.ltb (popcount cm) 2 then adj
    else fold_left (fun adj b => vupd adj b (N.lor (adj b) (N.ldiff cm (N.shiftl 1 (N.of_nat b)))))
                   (on_bits_index 64 cm) adj)
    (carriers rng tixs) (fun _ => 0%N).

(** The breadth-first search of [connected_subsets], single_term_detail.hpp:455-465. [None] when
    the fuel is exhausted (excluded by [C12_bfs_terminates]). *)
Fixpoint bfs (adj : nat -> N) (n : N) (fuel : nat) (reached frontier : N) : option N :=
  if N.eqb frontier 0 then Some reached
  else match fuel with
       | O => None
       | S fuel' =>
           let next0 := fold_left (fun nx b => N.lor nx (adj b)) (on_bits_index 64 frontier) 0%N in
           let next := N.land next0 (N.ldiff n reached) in
           bfs adj n fuel' (N.lor reached next) next
       end.

(** [n & (~n + 1)]: the lowest set bit, single_term_detail.hpp:454. *)
Definition lowest_bit (n : N) : N :=
  if N.eqb n 0 then 0%N else N.shiftl 1 (N.of_nat (countr_zero n)).

(** [connected_subsets], single_term_detail.hpp:446-469: the cell [connected[n]]. *)
Definition connected_subsets (adj : nat -> N) (n : N) : bool :=
  if Nat.leb (popcount n) 1 then true
  else match bfs adj n (S (popcount n)) (lowest_bit n) (lowest_bit n) with
       | Some reached => N.eqb reached n
       | None => false
       end.

(** [outer_product_connectivity], single_term_detail.hpp:481-491. The environment variable is
    folded into [prune]. *)
Definition outer_product_connectivity (rng : list (list idx)) (tixs : list idx) (prune : bool)
  : N -> bool :=
  if negb prune then fun _ => true
  else
    let mask := connected_subsets (contractible_adjacency rng tixs) in
    if mask (table_size (length rng) - 1)%N then mask else fun _ => true.

(** ** The generic driver, cost_model.hpp:26-67 *)

(** [bits::bipartitions(n)]; it is defined because there are at most 24 tensors. *)
Definition bips (n : N) : list (N * N) :=
  match bipartitions 64 n with Some l => l | None => [] end.

(** The subset masks [from, ..., from + k - 1]. *)
Definition masks (from k : nat) : list N := map N.of_nat (seq from k).

Section Driver.
  Context {State Ctx : Type}.
  Variable leaf : Ctx -> N -> State.
  Variable init : Ctx -> N -> State.
  Variable relax : Ctx -> N -> N -> N -> State -> State -> State -> State.
  Variable finalize : Ctx -> N -> (N -> State) -> Ctx * (N -> State).
  Variable dflt : State.
  Variable connected : N -> bool.

  (** The bipartition loop, cost_model.hpp:40-42. *)
  Definition relax_all (ctx : Ctx) (st : N -> State) (n : N) : State :=
    fold_left (fun acc lr =>
      let '(lp, rp) := lr in
      if negb (N.eqb lp 0) && negb (N.eqb rp 0) && connected lp && connected rp
      then relax ctx n lp rp (st lp) (st rp) acc else acc)
      (bips n) (init ctx n).

  (** One iteration of the loop over subsets, cost_model.hpp:34-45. *)
  Definition solve_step (cs : Ctx * (N -> State)) (n : N) : Ctx * (N -> State) :=
    let '(ctx, st) := cs in
    if Nat.eqb (popcount n) 1 then (ctx, tupd st n (leaf ctx n))
    else if negb (connected n) then (ctx, st)
    else finalize ctx n (tupd st n (relax_all ctx st n)).

  (** [solve_single_term], cost_model.hpp:26-48, for [nt] tensors. *)
  Definition solve_single_term (nt : nat) (ctx : Ctx) : Ctx * (N -> State) :=
    fold_left solve_step (masks 1 (Nat.pow 2 nt - 1)) (ctx, fun _ => dflt).
End Driver.

(** ** Additive objective, cost_model.hpp:79-234 *)

(** [AdditiveModel::State], cost_model.hpp:90-96. *)
Record AState := mkA { a_ops : option Z; a_lp : N; a_rp : N; a_subnets : list nat }.

(** The parameters of the model and what [build_context] tabulates. *)
Record AModel := mkAM {
  am_cost : list idx -> list idx -> list idx -> Z;  (* cost_fn *)
  am_foot : list idx -> Z;                          (* footprint_fn *)
  am_vmask : N;                                     (* volatile_mask *)
  am_vweight : Z;                                   (* volatile_weight *)
  am_fweight : Z;                                   (* footprint_weight *)
  am_cse : bool;                                    (* subnet_cse *)
  am_ixs : N -> list idx;                           (* ctx.results[n].indices *)
  am_meta : N -> nat                                (* ctx.meta_ids[n] *)
}.

(** [ctx.unique_meta_costs], the only part of the context that changes. *)
Definition ACtx := nat -> Z.

Definition oadd (a b : option Z) : option Z :=
  match a, b with Some x, Some y => Some (x + y)%Z | _, _ => None end.
(** [a <= b] with [None] = max. *)
Definition ole (a b : option Z) : bool :=
  match a, b with
  | _, None => true
  | None, Some _ => false
  | Some x, Some y => Z.leb x y
  end.

(** [std::set_union] of sorted id lists, cost_model.hpp:159-161. *)
Definition ids_union (a b : list nat) : list nat := set_of_list (a ++ b).

(** The cost of forming subset [n] from [lp] and [rp]: [w * cost_fn(...) + fp],
    cost_model.hpp:142-151,162-165,170-173. *)
Definition a_step (m : AModel) (n lp rp : N) : Z :=
  let w := if N.eqb (N.land (am_vmask m) n) 0 then 1%Z else am_vweight m in
  let fp := if Z.eqb (am_fweight m) 0 then 0%Z else (am_fweight m * am_foot m (am_ixs m n))%Z in
  (w * am_cost m (am_ixs m lp) (am_ixs m rp) (am_ixs m n) + fp)%Z.

(** [AdditiveModel::leaf], cost_model.hpp:128-131. *)
Definition a_leaf (_ : ACtx) (_ : N) : AState := mkA (Some 0%Z) 0 0 [].
(** [AdditiveModel::init], cost_model.hpp:133-135. *)
Definition a_init (_ : ACtx) (_ : N) : AState := mkA None 0 0 [].

(** [AdditiveModel::relax], cost_model.hpp:137-183. *)
Definition a_relax (m : AModel) (ctx : ACtx) (n lp rp : N) (ls rs acc : AState) : AState :=
  let comb := ids_union (a_subnets ls) (a_subnets rs) in
  let new_cost :=
    if am_cse m
    then Some (fold_left (fun c id => (c + ctx id)%Z) comb (a_step m n lp rp))
    else oadd (Some (a_step m n lp rp)) (oadd (a_ops ls) (a_ops rs)) in
  if ole new_cost (a_ops acc)
  then mkA new_cost lp rp (if am_cse m then comb else a_subnets acc)
  else acc.

(** [AdditiveModel::finalize], cost_model.hpp:185-203. *)
Definition a_finalize (m : AModel) (ctx : ACtx) (n : N) (st : N -> AState)
  : ACtx * (N -> AState) :=
  if negb (am_cse m) then (ctx, st)
  else
    let s := st n in
    let mid := am_meta m n in
    let ctx' := vupd ctx mid (a_step m n (a_lp s) (a_rp s)) in
    (ctx', tupd st n (mkA (a_ops s) (a_lp s) (a_rp s) (set_emplace mid (a_subnets s)))).

Definition a_dflt : AState := mkA None 0 0 [].

(** One iteration of [AdditiveModel::reconstruct], cost_model.hpp:213-231. [lseq[0]] of an empty
    sequence would be undefined; the model reads 0 there (excluded by C09). *)
Definition a_rec_step (st : N -> AState) (sq : N -> list Z) (n : N) : N -> list Z :=
  if Nat.eqb (popcount n) 1 then tupd sq n (sq n ++ [Z.of_nat (countr_zero n)])
  else if Nat.leb 2 (popcount n) then
    if N.eqb (a_lp (st n)) 0 && N.eqb (a_rp (st n)) 0 then sq
    else
      let lseq := sq (a_lp (st n)) in
      let rseq := sq (a_rp (st n)) in
      tupd sq n ((if Z.ltb (hd 0%Z lseq) (hd 0%Z rseq) then lseq ++ rseq else rseq ++ lseq)
                 ++ [(-1)%Z])
  else sq.

(** [AdditiveModel::reconstruct], cost_model.hpp:205-233. *)
Definition a_reconstruct (nt : nat) (st : N -> AState) : list Z :=
  fold_left (a_rec_step st) (masks 0 (Nat.pow 2 nt)) (fun _ => []) (table_size nt - 1)%N.

(** The table computed for [AdditiveModel]. *)
Definition a_solve (m : AModel) (connected : N -> bool) (nt : nat) : N -> AState :=
  snd (solve_single_term a_leaf a_init (a_relax m) (a_finalize m) a_dflt connected nt
         (fun _ => 0%Z)).

(** Options of the additive objectives (CostParams and template arguments). *)
Record AOpts := mkAO {
  ao_cost : list idx -> list idx -> list idx -> Z;
  ao_foot : list idx -> Z;
  ao_vmask : N; ao_vweight : Z; ao_fweight : Z;
  ao_cse : bool; ao_meta : N -> nat; ao_prune : bool
}.

(** [AdditiveModel::build_context], cost_model.hpp:110-126. [init_results] copies the cells of
    [subset_target_indices] for connected subsets (single_term_detail.hpp:371-397). The canonical
    subnet ids come from graph canonicalisation: an arbitrary function [ao_meta]. *)
Definition a_model (o : AOpts) (rng : list (list idx)) (tixs : list idx) : AModel :=
  let connected := outer_product_connectivity rng tixs (ao_prune o) in
  mkAM (ao_cost o) (ao_foot o) (ao_vmask o) (ao_vweight o) (ao_fweight o) (ao_cse o)
       (fun n => if connected n then subset_target_indices rng tixs connected n else [])
       (ao_meta o).

(** [run_single_term_opt] for [AdditiveModel], cost_model.hpp:58-67. [None]: more than 24 tensors
    ([SEQUANT_ASSERT]) or no tensors (the code would read an empty table). *)
Definition a_run (o : AOpts) (rng : list (list idx)) (tixs : list idx) : option (list Z) :=
  let nt := length rng in
  if Nat.eqb nt 0 then None
  else if Nat.eqb nt 1 then Some [0%Z]
  else if Nat.eqb nt 2 then Some [0; 1; -1]%Z
  else if negb (Nat.leb nt max_tensors) then None
  else
    let connected := outer_product_connectivity rng tixs (ao_prune o) in
    Some (a_reconstruct nt (a_solve (a_model o rng tixs) connected nt)).

(** ** Peak-memory objective, cost_model.hpp:236-470 *)

(** [PeakModel::FrontPoint], cost_model.hpp:326-335 (child frontier positions are only read when
    they are valid; -1 for leaves is modelled by 0). *)
Record FP := mkFP {
  p_peak : Z; p_flops : Z; p_lp : N; p_rp : N; p_lp_first : bool; p_lp_idx : nat; p_rp_idx : nat
}.

(** [pareto_insert], cost_model.hpp:239-250. *)
Definition pareto_insert (f : list FP) (p : FP) : list FP :=
  if existsb (fun e => Z.leb (p_peak e) (p_peak p) && Z.leb (p_flops e) (p_flops p)) f then f
  else filter (fun e => negb (Z.leb (p_peak p) (p_peak e) && Z.leb (p_flops p) (p_flops e))) f
       ++ [p].

(** What [PeakModel::build_context] tabulates, cost_model.hpp:353-398. *)
Record PModel := mkPM {
  pm_S : N -> Z;                    (* ctx.S *)
  pm_L : N -> Z;                    (* ctx.L *)
  pm_flops : N -> N -> N -> Z       (* w * roofline_op_cost(flops_of(lp,rp,n), ...) for (n,lp,rp) *)
}.

(** [PeakModel::leaf], cost_model.hpp:385-388. *)
Definition p_leaf (m : PModel) (_ : unit) (n : N) : list FP :=
  [mkFP (pm_S m n) 0 0 0 true 0 0].

(** [PeakModel::init], cost_model.hpp:390-392. *)
Definition p_init (_ : unit) (_ : N) : list FP := [].

Definition zmax3 (a b c : Z) : Z := Z.max a (Z.max b c).

(** Body of the double loop of [PeakModel::relax], cost_model.hpp:412-423. *)
Definition p_point (m : PModel) (n lp rp : N) (li : nat) (l : FP) (ri : nat) (r : FP) : FP :=
  let both := (pm_S m lp + pm_S m rp + pm_S m (N.lor lp rp))%Z in
  let lp_first_cand := zmax3 (pm_L m rp + p_peak l) (pm_S m lp + p_peak r) both in
  let rp_first_cand := zmax3 (pm_L m lp + p_peak r) (pm_S m rp + p_peak l) both in
  mkFP (Z.min lp_first_cand rp_first_cand) (p_flops l + p_flops r + pm_flops m n lp rp) lp rp
       (Z.leb lp_first_cand rp_first_cand) li ri.

(** Positions of a list, for the index-carrying loops. *)
Definition enumerate {A} (l : list A) : list (nat * A) := combine (seq 0 (length l)) l.

(** [PeakModel::relax], cost_model.hpp:394-425. *)
Definition p_relax (m : PModel) (_ : unit) (n lp rp : N) (ls rs acc : list FP) : list FP :=
  fold_left (fun acc il =>
    fold_left (fun acc ir => pareto_insert acc (p_point m n lp rp (fst il) (snd il) (fst ir) (snd ir)))
              (enumerate rs) acc) (enumerate ls) acc.

(** [PeakModel::finalize], cost_model.hpp:427-428. *)
Definition p_finalize (u : unit) (_ : N) (st : N -> list FP) : unit * (N -> list FP) := (u, st).

Definition p_solve (m : PModel) (connected : N -> bool) (nt : nat) : N -> list FP :=
  snd (solve_single_term (p_leaf m) p_init (p_relax m) p_finalize [] connected nt tt).

(** Smallest peak on the root frontier, cost_model.hpp:438-439 ([None] for an empty frontier). *)
Definition min_peak (f : list FP) : option Z :=
  fold_left (fun a e => match a with None => Some (p_peak e) | Some z => Some (Z.min z (p_peak e)) end)
            f None.

(** Selection of the root point, cost_model.hpp:440-447. The tolerance is the fraction
    [num/den]: [peak <= minpeak * (1 + num/den)]. *)
Definition p_select (num den : Z) (f : list FP) : option nat :=
  match min_peak f with
  | None => None
  | Some mp =>
      fold_left (fun best ie =>
        let '(i, e) := ie in
        if Z.leb (p_peak e * den) (mp * (den + num))
        then match best with
             | None => Some i
             | Some b =>
                 match nth_error f b with
                 | Some eb => if Z.ltb (p_flops e) (p_flops eb)
                                 || (Z.eqb (p_flops e) (p_flops eb) && Z.ltb (p_peak e) (p_peak eb))
                              then Some i else best
                 | None => best
                 end
             end
        else best) (enumerate f) None
  end.

(** The recursive [build], cost_model.hpp:449-463; recursion bounded by [fuel], out-of-range
    frontier positions are undefined behaviour: both are [None]. *)
Fixpoint p_build (st : N -> list FP) (fuel : nat) (n : N) (i : nat) : option (list Z) :=
  match fuel with
  | O => None
  | S fuel' =>
      if Nat.eqb (popcount n) 1 then Some [Z.of_nat (countr_zero n)]
      else match nth_error (st n) i with
           | None => None
           | Some fp =>
               let fs := if p_lp_first fp then p_lp fp else p_rp fp in
               let fi := if p_lp_first fp then p_lp_idx fp else p_rp_idx fp in
               let ss := if p_lp_first fp then p_rp fp else p_lp fp in
               let si := if p_lp_first fp then p_rp_idx fp else p_lp_idx fp in
               match p_build st fuel' fs fi, p_build st fuel' ss si with
               | Some a, Some b => Some (a ++ b ++ [(-1)%Z])
               | _, _ => None
               end
           end
  end.

(** [PeakModel::reconstruct], cost_model.hpp:430-465. *)
Definition p_reconstruct (nt : nat) (num den : Z) (st : N -> list FP) : option (list Z) :=
  let full := (table_size nt - 1)%N in
  match p_select num den (st full) with
  | Some b => p_build st (S nt) full b
  | None => None
  end.

(** Options of the peak objective. *)
Record POpts := mkPO {
  po_vol : list idx -> Z;             (* inner-aware volume *)
  po_roof : Z -> Z -> Z;              (* roofline_op_cost(flops, traffic) with fixed parameters *)
  po_vmask : N; po_vweight : Z;
  po_num : Z; po_den : Z;             (* peak_flops_tolerance = num/den *)
  po_prune : bool
}.

(** [PeakModel::build_context], cost_model.hpp:353-383. *)
Definition p_model (o : POpts) (rng : list (list idx)) (tixs : list idx) : PModel :=
  let connected := outer_product_connectivity rng tixs (po_prune o) in
  let ixs := fun n => if connected n then subset_target_indices rng tixs connected n else [] in
  let S := fun n => if N.eqb n 0 || negb (connected n) then 0%Z
                    else footprint_counter (po_vol o) (ixs n) in
  mkPM S
       (fun n => fold_left (fun acc b => if N.testbit n (N.of_nat b)
                                         then (acc + S (N.shiftl 1 (N.of_nat b)))%Z else acc)
                           (seq 0 (length rng)) 0%Z)
       (fun n lp rp =>
          let w := if N.eqb (N.land (po_vmask o) n) 0 then 1%Z else po_vweight o in
          (w * po_roof o (flops_counter (po_vol o) (ixs lp) (ixs rp) (ixs n))
                         (S lp + S rp + S n))%Z).

(** [run_single_term_opt] for [PeakModel]. *)
Definition p_run (o : POpts) (rng : list (list idx)) (tixs : list idx) : option (list Z) :=
  let nt := length rng in
  if Nat.eqb nt 0 then None
  else if Nat.eqb nt 1 then Some [0%Z]
  else if Nat.eqb nt 2 then Some [0; 1; -1]%Z
  else if negb (Nat.leb nt max_tensors) then None
  else
    let connected := outer_product_connectivity rng tixs (po_prune o) in
    p_reconstruct nt (po_num o) (po_den o) (p_solve (p_model o rng tixs) connected nt).
