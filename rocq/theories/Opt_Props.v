(** Final theorems about the single-term optimiser. *)
From Coq Require Import NArith ZArith List Arith Lia Bool Sorted Permutation Relations.
From Verif Require Import Bits_Model Bits_Spec Bits_Proofs Opt_Model Opt_Spec Opt_Proofs1 Opt_Proofs2
  Opt_Proofs3 Opt_Proofs4 Opt_Proofs5.
Import ListNotations.

(** ** C09 *)

(** Additive objectives (any cost function, weights, volatile set, with or without pruning and
    common-subexpression reuse): the optimiser succeeds on 1..24 tensors ... *)
Theorem C09_additive_defined : forall o net tixs,
  1 <= length net <= 24 -> exists s, a_run o net tixs = Some s.
Proof. exact a_run_defined. Qed.

(** ... and what it returns is exactly the postfix program of a contraction tree that uses every
    tensor once, with the operand containing the earlier first tensor first. *)
Theorem C09_additive : forall o net tixs s,
  a_run o net tixs = Some s ->
  exists t, s = postfix t /\ denotes s t /\ over (length net) t /\ in_order t.
Proof. exact a_run_wf. Qed.

Theorem C09_peak_defined : forall o net,
  (forall ixs, (0 <= po_vol o ixs)%Z) -> (0 <= po_num o)%Z -> (0 < po_den o)%Z ->
  1 <= length net <= 24 -> exists s, p_run o net [] = Some s.
Proof. exact p_run_defined. Qed.

Theorem C09_peak : forall o net s,
  (forall ixs, (0 <= po_vol o ixs)%Z) -> (0 <= po_num o)%Z -> (0 < po_den o)%Z ->
  1 <= length net <= 24 -> p_run o net [] = Some s ->
  exists t, s = postfix t /\ denotes s t /\ over (length net) t.
Proof.
  intros o net s Hv Hn Hd Hl H.
  destruct (p_run_conn o net s Hv Hn Hd Hl H) as (t & H1 & H2 & H3 & _). eauto.
Qed.

(** The shape of a postfix program: [n] operands and [n-1] binary-operation markers. *)
Lemma postfix_counts t :
  length (filter (Z.eqb (-1)) (postfix t)) + 1 = length (leaves t) /\
  length (filter (Z.leb 0) (postfix t)) = length (leaves t).
Proof.
  induction t as [i|l (A1 & A2) r (B1 & B2)]; cbn [postfix leaves].
  - destruct (Z.leb_spec 0 (Z.of_nat i)); [|lia].
    cbn [filter]. destruct (Z.eqb_spec (-1) (Z.of_nat i)); [lia|].
    destruct (Z.leb_spec 0 (Z.of_nat i)); [cbn; auto|lia].
  - rewrite !filter_app, !app_length. cbn. lia.
Qed.

Theorem C09_counts : forall o net tixs s,
  a_run o net tixs = Some s ->
  length (filter (Z.eqb (-1)) s) + 1 = length net /\ length (filter (Z.leb 0) s) = length net.
Proof.
  intros o net tixs s H. destruct (a_run_wf o net tixs s H) as (t & -> & _ & O & _).
  rewrite <- (over_len _ _ O). apply postfix_counts.
Qed.

(** ** C10 *)

(** For every cost function that does not depend on the order of the operands: without
    common-subexpression reuse and pruning, the returned sequence denotes a tree of least total
    cost among all binary trees over the tensors. *)
Theorem C10_optimal : forall o net s,
  ao_cse o = false -> ao_prune o = false ->
  (forall a b c, ao_cost o a b c = ao_cost o b a c) ->
  a_run o net [] = Some s ->
  let total := tree_cost net (ao_cost o) (ao_foot o)
                 (fun i => N.testbit (ao_vmask o) (N.of_nat i)) (ao_vweight o) (ao_fweight o) in
  exists t, denotes s t /\ over (length net) t /\
    forall t', over (length net) t' -> (total t <= total t')%Z.
Proof. exact a_run_optimal. Qed.

Lemma flops_counter_eq vol l r res : flops_counter vol l r res = dense_flops vol l r res.
Proof. unfold flops_counter, dense_flops. rewrite distinct_eq. reflexivity. Qed.

Lemma tree_cost_ext net c c' f f' v w fw t :
  (forall a b d, c a b d = c' a b d) -> (forall a, f a = f' a) ->
  tree_cost net c f v w fw t = tree_cost net c' f' v w fw t.
Proof.
  intros Hc Hf. induction t as [i|l IHl r IHr]; cbn [tree_cost]; auto.
  rewrite IHl, IHr. unfold step_cost. rewrite Hc, Hf. reflexivity.
Qed.

(** The two additive objectives of the library. *)
Theorem C10_dense_flops : forall vol net vmask vweight fweight meta s,
  a_run (mkAO (flops_counter vol) (footprint_counter vol) vmask vweight fweight false meta false)
        net [] = Some s ->
  let total := tree_cost net (dense_flops vol) (dense_elems vol)
                 (fun i => N.testbit vmask (N.of_nat i)) vweight fweight in
  exists t, denotes s t /\ over (length net) t /\
    forall t', over (length net) t' -> (total t <= total t')%Z.
Proof.
  intros vol net vmask vweight fweight meta s H total.
  match type of H with a_run ?o _ _ = _ =>
    destruct (a_run_optimal o net s eq_refl eq_refl (flops_symmetric vol) H) as (t & D & O & M) end.
  exists t. split; auto. split; auto. intros t' O'. specialize (M t' O').
  unfold o_tree in M. cbn [ao_cost ao_foot ao_vmask ao_vweight ao_fweight] in M.
  unfold total. rewrite !(tree_cost_ext net (dense_flops vol) (flops_counter vol) (dense_elems vol) (footprint_counter vol));
    auto; intros; symmetry; apply flops_counter_eq.
Qed.

Theorem C10_dense_size : forall vol net vmask vweight fweight meta s,
  a_run (mkAO (memsize_counter vol) (footprint_counter vol) vmask vweight fweight false meta false)
        net [] = Some s ->
  let total := tree_cost net (dense_size vol) (dense_elems vol)
                 (fun i => N.testbit vmask (N.of_nat i)) vweight fweight in
  exists t, denotes s t /\ over (length net) t /\
    forall t', over (length net) t' -> (total t <= total t')%Z.
Proof.
  intros vol net vmask vweight fweight meta s H.
  match type of H with a_run ?o _ _ = _ =>
    exact (a_run_optimal o net s eq_refl eq_refl (memsize_symmetric vol) H) end.
Qed.

(** The operation count recorded for the full network is the cost of the returned tree. *)
Theorem C10_reported_cost : forall o net s,
  ao_cse o = false -> (forall a b c, ao_cost o a b c = ao_cost o b a c) ->
  3 <= length net -> a_run o net [] = Some s ->
  exists t, denotes s t /\
    a_ops (a_solve (a_model o net []) (outer_product_connectivity net [] (ao_prune o)) (length net)
             (table_size (length net) - 1)%N)
    = Some (tree_cost net (ao_cost o) (ao_foot o)
              (fun i => N.testbit (ao_vmask o) (N.of_nat i)) (ao_vweight o) (ao_fweight o) t).
Proof.
  intros o net s Hc Hs H3 H. destruct (a_run_big o net [] s H H3) as (H24 & t & R & ->).
  exists t. split; [apply denotes_postfix|].
  destruct (a_opt o net ltac:(lia) Hc Hs (full (length net))) as (c & Ec & Rc & _).
  - apply full_nonzero. lia.
  - apply full_lt.
  - apply opc_splittable.
  - fold (full (length net)). rewrite Ec. f_equal. symmetry. apply Rc. exact R.
Qed.

(** A matrix chain in which the best order is not left to right. Extents: index k has extent
    10, 1, 10, 1 ... *)
Definition ex_ext (k : nat) : Z := nth k [2; 10; 1; 10; 1; 10; 2]%Z 2%Z.
Definition ex_vol (ixs : list nat) : Z := fold_left (fun a k => (a * ex_ext k)%Z) ixs 1%Z.
Definition ex_net : list (list nat) := [[1;2]; [2;3]; [3;4]; [4;5]].
Definition ex_opts (prune : bool) : AOpts :=
  mkAO (flops_counter ex_vol) (footprint_counter ex_vol) 2 3 1 false (fun _ => 0) prune.

Example C10_ex : a_run (ex_opts false) ex_net [] = Some [0; 1; 2; -1; -1; 3; -1]%Z.
Proof. vm_compute. reflexivity. Qed.

(** The chosen order costs less than the left-to-right order. *)
Example C10_ex_costs :
  let total := tree_cost ex_net (dense_flops ex_vol) (dense_elems ex_vol)
                 (fun i => N.testbit 2 (N.of_nat i)) 3 1 in
  total (Node (Node (Leaf 0) (Node (Leaf 1) (Leaf 2))) (Leaf 3)) = 470%Z /\
  total (Node (Node (Node (Leaf 0) (Leaf 1)) (Leaf 2)) (Leaf 3)) = 1110%Z.
Proof. vm_compute. auto. Qed.

(** ** C11 *)

(** On a connected network the pruned search returns a tree without outer products that is
    optimal among all trees without outer products. *)
Theorem C11_pruned_optimal : forall o net s,
  ao_cse o = false -> ao_prune o = true ->
  (forall a b c, ao_cost o a b c = ao_cost o b a c) ->
  connected_set net (seq 0 (length net)) ->
  a_run o net [] = Some s ->
  let total := tree_cost net (ao_cost o) (ao_foot o)
                 (fun i => N.testbit (ao_vmask o) (N.of_nat i)) (ao_vweight o) (ao_fweight o) in
  exists t, denotes s t /\ over (length net) t /\ no_outer_product net t /\
    forall t', over (length net) t' -> no_outer_product net t' -> (total t <= total t')%Z.
Proof. exact a_run_pruned. Qed.

(** On a disconnected network pruning has no effect: the result is that of the search without
    pruning (which is exhaustive by C10_optimal). *)
Theorem C11_fallback : forall o net,
  ~ connected_set net (seq 0 (length net)) ->
  a_run o net [] =
  a_run (mkAO (ao_cost o) (ao_foot o) (ao_vmask o) (ao_vweight o) (ao_fweight o) (ao_cse o)
              (ao_meta o) false) net [].
Proof. exact a_run_fallback. Qed.

(** Trees without outer products are exactly those all of whose intermediates are connected. *)
Theorem C11_no_outer_product_iff : forall net t, NoDup (leaves t) ->
  no_outer_product net t <-> connected_tree net t.
Proof.
  intros net t ND. split; [apply nop_connected|apply connected_nop; auto].
Qed.

(** A connected network in which the cheapest tree contains an outer product: pruning changes
    the answer, as it should. *)
Definition ex_net2 : list (list nat) := [[2]; [4]; [2;4;1]; [1;3]].
Example C11_ex_connected : connected_set ex_net2 (seq 0 (length ex_net2)).
Proof.
  change (seq 0 (length ex_net2)) with (nbits 15). apply connected_net. vm_compute. reflexivity.
Qed.
Example C11_ex : a_run (ex_opts true) ex_net2 [] = Some [0; 2; -1; 3; -1; 1; -1]%Z /\
                 a_run (ex_opts false) ex_net2 [] = Some [0; 1; -1; 2; 3; -1; -1]%Z.
Proof. split; vm_compute; reflexivity. Qed.

(** ** C12 *)

(** For every symmetric adjacency table: a subset is marked iff it is connected. *)
Theorem C12_connected_subsets : forall adj n A,
  (forall x y, has (adj x) y -> has (adj y) x) ->
  (forall i, In i A <-> has n i) ->
  connected_subsets adj n = true <-> connected_by (fun x y => has (adj x) y) A.
Proof.
  intros adj n A Sym HA. rewrite connected_subsets_ok by auto.
  apply connected_by_In. intros x. rewrite nbits_In, HA. tauto.
Qed.

(** The adjacency table of a network relates exactly the contractible pairs of tensors. *)
Theorem C12_adjacency : forall net i j,
  has (contractible_adjacency net [] i) j <-> contractible net i j.
Proof. intros. rewrite adjacency_ok. apply contr_nil. Qed.

Theorem C12_network : forall net n A,
  (forall i, In i A <-> has n i) ->
  connected_subsets (contractible_adjacency net []) n = true <-> connected_set net A.
Proof.
  intros net n A HA. rewrite connected_net. apply connected_by_In.
  intros x. rewrite nbits_In, HA. tauto.
Qed.

(** The breadth-first search never runs out of fuel. *)
Theorem C12_bfs_terminates : forall adj n,
  n <> 0%N -> bfs adj n (S (popcount n)) (lowest_bit n) (lowest_bit n) <> None.
Proof. exact bfs_terminates. Qed.

Example C12_ex : map (connected_subsets (contractible_adjacency ex_net [])) [3; 5; 7; 9; 11; 15]%N
                 = [true; false; true; false; false; true].
Proof. vm_compute. reflexivity. Qed.

(** ** C13 *)

(** Peak objective. [size A] is the size of the intermediate formed from the tensors [A]; the peak
    of a sequence is found by executing it. The returned sequence has a peak within the tolerance
    of the peak of every other tree and evaluation order, and among all that are within the
    tolerance it has the least secondary cost. *)
Theorem C13_optimal : forall o net s,
  po_prune o = false ->
  (forall ixs, (0 <= po_vol o ixs)%Z) -> (0 <= po_num o)%Z -> (0 < po_den o)%Z ->
  1 <= length net <= 24 -> p_run o net [] = Some s ->
  let pk := peak (tensor_size net (po_vol o)) in
  let work := tree_work (contraction_work net (po_vol o) (po_roof o)
                (fun i => N.testbit (po_vmask o) (N.of_nat i)) (po_vweight o)) in
  exists t, s = postfix t /\ over (length net) t /\
    (forall t', over (length net) t' -> (pk s * po_den o <= pk (postfix t') * (po_den o + po_num o))%Z) /\
    (forall t', over (length net) t' ->
       (forall t'', over (length net) t'' ->
          (pk (postfix t') * po_den o <= pk (postfix t'') * (po_den o + po_num o))%Z) ->
       (work t <= work t')%Z).
Proof.
  intros o net s Hp Hv Hn Hd Hl H.
  destruct (p_run_conn o net s Hv Hn Hd Hl H) as (t & H1 & _ & H3 & _ & H5 & H6).
  rewrite Hp in H5, H6. exists t. split; auto. split; auto. split.
  - intros t' O'. apply H5; auto. apply conn_tree_all.
  - intros t' O' Hw. apply H6; [exact O'|apply conn_tree_all|intros t'' O'' _; auto].
Qed.

(** With tolerance zero: minimal peak, and least work among the trees of minimal peak. *)
Theorem C13_strict : forall o net s,
  po_prune o = false ->
  (forall ixs, (0 <= po_vol o ixs)%Z) -> po_num o = 0%Z -> po_den o = 1%Z ->
  1 <= length net <= 24 -> p_run o net [] = Some s ->
  let pk := peak (tensor_size net (po_vol o)) in
  exists t, s = postfix t /\ over (length net) t /\
    (forall t', over (length net) t' -> (pk s <= pk (postfix t'))%Z).
Proof.
  intros o net s Hp Hv Hn Hd Hl H pk.
  destruct (C13_optimal o net s Hp Hv ltac:(lia) ltac:(lia) Hl H) as (t & H1 & H2 & H3 & _).
  exists t. split; auto. split; auto. intros t' O'. specialize (H3 t' O'). rewrite Hn, Hd in H3. unfold pk. lia.
Qed.

(** With pruning on a connected network: the same among trees without outer products. *)
Theorem C13_pruned : forall o net s,
  po_prune o = true -> connected_set net (seq 0 (length net)) ->
  (forall ixs, (0 <= po_vol o ixs)%Z) -> (0 <= po_num o)%Z -> (0 < po_den o)%Z ->
  1 <= length net <= 24 -> p_run o net [] = Some s ->
  let pk := peak (tensor_size net (po_vol o)) in
  let work := tree_work (contraction_work net (po_vol o) (po_roof o)
                (fun i => N.testbit (po_vmask o) (N.of_nat i)) (po_vweight o)) in
  let ok t := over (length net) t /\ no_outer_product net t in
  exists t, s = postfix t /\ over (length net) t /\ no_outer_product net t /\
    (forall t', ok t' -> (pk s * po_den o <= pk (postfix t') * (po_den o + po_num o))%Z) /\
    (forall t', ok t' ->
       (forall t'', ok t'' -> (pk (postfix t') * po_den o <= pk (postfix t'') * (po_den o + po_num o))%Z) ->
       (work t <= work t')%Z).
Proof.
  intros o net s Hp HC Hv Hn Hd Hl H pk work ok.
  destruct (p_run_conn o net s Hv Hn Hd Hl H) as (t & H1 & _ & H3 & H4 & H5 & H6).
  assert (Hf : connected_subsets (contractible_adjacency net []) (full (length net)) = true).
  { apply connected_net. rewrite nbits_full. auto. }
  destruct (opc_cases net [] (po_prune o)) as [(E & _ & _)|(_ & [E|E])]; [|congruence|congruence].
  rewrite E in *.
  assert (Conv : forall t', ok t' -> conn_tree (connected_subsets (contractible_adjacency net [])) t').
  { intros t' (O' & N'). apply conn_tree_connected; [eapply over_NoDup; eauto|]. apply nop_connected. auto. }
  assert (Back : forall t', over (length net) t' -> conn_tree (connected_subsets (contractible_adjacency net [])) t' -> ok t').
  { intros t' O' C'. split; auto. apply connected_nop; [eapply over_NoDup; eauto|].
    apply conn_tree_connected; auto. eapply over_NoDup; eauto. }
  assert (Ct : ok t).
  { destruct (le_lt_dec 3 (length net)) as [G|G]; [apply Back; auto|].
    apply Back; auto. apply conn_tree_connected; [eapply over_NoDup; eauto|].
    destruct (length net) as [|[|[|]]] eqn:El; [lia| | |lia].
    - rewrite (over_1 t H3). cbn. auto.
    - destruct (over_2 t H3) as [->| ->]; cbn; repeat split; auto.
      unfold connected_set in *. rewrite <- (connected_by_In _ [0; 1]); auto. cbn. tauto. }
  exists t. split; auto. split; auto. split; [apply Ct|]. split.
  - intros t' O'. apply H5; auto. apply O'.
  - intros t' O' Hw. apply H6; [apply O'|auto|]. intros t'' O'' C''. apply Hw. auto.
Qed.

Definition ex_popts (num : Z) : POpts := mkPO ex_vol (fun f _ => f) 0 1 num 10 false.
Example C13_ex : p_run (ex_popts 0) ex_net [] = Some [0; 1; 2; -1; 3; -1; -1]%Z.
Proof. vm_compute. reflexivity. Qed.

(** A network where the tolerance changes the answer. *)
Definition ex_net3 : list (list nat) := [[1;3]; [3;6]; [6;5]; [7;8]].
Example C13_ex_tol :
  p_run (ex_popts 0) ex_net3 [] = Some [0; 1; -1; 2; 3; -1; -1]%Z /\
  p_run (ex_popts 20) ex_net3 [] = Some [0; 1; -1; 2; -1; 3; -1]%Z.
Proof. split; vm_compute; reflexivity. Qed.

(** The frontier kept for each subset of the tensors: every kept point is the (peak, work) of an
    actual tree over the subset, and every tree over the subset is dominated by a kept point. The
    peak of a tree is that of executing its sequence on the tensors of the subset. *)
Theorem C13_frontier : forall o net n,
  po_prune o = false -> (forall ixs, (0 <= po_vol o ixs)%Z) -> length net < 64 ->
  n <> 0%N -> (n < table_size (length net))%N ->
  let A := on_bits_index 64 n in
  let frontier := p_solve (p_model o net []) (fun _ => true) (length net) n in
  let pk t := peak (tensor_size net (po_vol o)) (postfix t) in
  let work := tree_work (contraction_work net (po_vol o) (po_roof o)
                (fun i => N.testbit (po_vmask o) (N.of_nat i)) (po_vweight o)) in
  (forall e, In e frontier -> exists t, Permutation (leaves t) A /\ pk t = p_peak e /\ work t = p_flops e) /\
  (forall t, Permutation (leaves t) A ->
     exists e, In e frontier /\ (p_peak e <= pk t)%Z /\ (p_flops e <= work t)%Z).
Proof.
  intros o net n Hp Hv Hl Hn Hlt A frontier pk work.
  assert (Snn : forall A, (0 <= o_size o net A)%Z) by (intros; apply tensor_size_nonneg; auto).
  assert (Pk : forall t, pk t = ptree (o_size o net) t) by (intros; apply peak_postfix; auto).
  pose proof (p_table o net Hl n Hn Hlt) as T. rewrite Hp in T.
  specialize (T eq_refl). unfold A. rewrite on_bits_index_eq. destruct T as (T1 & T2). split.
  - intros e He. apply In_nth_error in He. destruct He as (i & He).
    destruct (T1 i e He) as (t & P1 & _ & P2 & P3 & _). exists t. rewrite Pk. auto.
  - intros t Pt. destruct (T2 t Pt (conn_tree_all t)) as (i & e & E1 & E2 & E3).
    exists e. rewrite Pk. split; auto. eapply nth_error_In; eauto.
Qed.

(** ** C40 *)

(** The indices of every intermediate the optimiser may form (any pruning table that contains
    the subset): those that occur in it and are open. *)
Theorem C40_subset_open : forall net conn n,
  conn n = true -> (n < table_size (length net))%N ->
  subset_target_indices net [] conn n = open_list net (on_bits_index 64 n).
Proof. intros. rewrite on_bits_index_eq. apply cell_open; auto. Qed.

(** With target indices [tixs]. *)
Theorem C40_target_indices : forall net tixs conn n k,
  conn n = true -> (n < table_size (length net))%N ->
  let A := on_bits_index 64 n in
  In k (subset_target_indices net tixs conn n) <->
    0 < occurrences net A k /\
    (length A = 1 \/ occurrences net A k = 1 \/ 0 < occurrences net (others net A) k \/
     (A = seq 0 (length net) /\ In k tixs)).
Proof.
  intros net tixs conn n k Hc Hn A. unfold A. rewrite on_bits_index_eq, nbits_length.
  destruct (target_cell net tixs conn n Hc Hn) as (_ & H). rewrite H.
  assert (E : n = full (length net) <-> nbits n = seq 0 (length net)).
  { split; [intros ->; apply nbits_full|]. intros E. apply has_ext. intros i.
    rewrite <- !nbits_In, E, nbits_full. tauto. }
  tauto.
Qed.

(** The documentation of [subset_target_indices] promises more: a target index is kept in every
    subset it appears in. That is false of proper subsets. *)
Theorem C40_documented_claim_refuted : exists net tixs n k,
  (n < table_size (length net))%N /\ In k tixs /\ 0 < occurrences net (on_bits_index 64 n) k /\
  ~ In k (subset_target_indices net tixs (fun _ => true) n).
Proof.
  exists [[1;2]; [1;3]; [4]], [1], 3%N, 1. vm_compute. repeat split; auto.
  intros [H|[H|[]]]; discriminate.
Qed.

Example C40_ex : map (subset_target_indices ex_net [] (fun _ => true)) [1; 3; 5; 7; 15]%N
                 = [[1;2]; [1;3]; [1;2;3;4]; [1;4]; [1;5]].
Proof. vm_compute. reflexivity. Qed.

Print Assumptions C09_additive.
Print Assumptions C10_optimal.
Print Assumptions C11_pruned_optimal.
Print Assumptions C12_network.
Print Assumptions C13_optimal.
Print Assumptions C40_target_indices.
