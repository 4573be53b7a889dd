(** Optimality of the additive objective. *)
From Coq Require Import NArith ZArith List Arith Lia Bool Sorted Permutation Relations.
From Verif Require Import Bits_Model Bits_Spec Bits_Proofs Opt_Model Opt_Spec Opt_Proofs1 Opt_Proofs2 Opt_Proofs3.
Import ListNotations.
Local Arguments Nat.ltb : simpl never.
Local Arguments N.shiftl : simpl never.
Local Arguments N.sub : simpl never.
Local Arguments Nat.pow : simpl never.

Lemma nodup_l {A} (l l' : list A) : NoDup (l ++ l') -> NoDup l.
Proof.
  induction l as [|a l IH]; cbn; intros ND; constructor; inversion ND; subst; auto.
  rewrite in_app_iff in *. tauto.
Qed.
Lemma nodup_r {A} (l l' : list A) : NoDup (l ++ l') -> NoDup l'.
Proof. induction l as [|a l IH]; cbn; auto. intros ND. inversion ND; auto. Qed.

(* ---------- masks of lists ---------- *)
Fixpoint mask_of (l : list nat) : N :=
  match l with [] => 0%N | i :: l' => N.lor (N.shiftl 1 (N.of_nat i)) (mask_of l') end.

Lemma mask_of_has l i : has (mask_of l) i <-> In i l.
Proof.
  induction l as [|a l IH]; cbn [mask_of In]; [apply has_zero|].
  rewrite has_lor, has_shiftl1, IH. intuition.
Qed.

Lemma mask_of_nbits l : NoDup l -> Permutation (nbits (mask_of l)) l.
Proof.
  intros H. apply NoDup_Permutation; auto; [apply nbits_NoDup|].
  intros x. rewrite nbits_In. apply mask_of_has.
Qed.

Lemma perm_nbits_mask n l : Permutation l (nbits n) -> n = mask_of l.
Proof.
  intros P. apply has_ext. intros i. rewrite mask_of_has, <- nbits_In.
  split; apply Permutation_in; [symmetry|]; auto.
Qed.

Lemma leaves_nonempty t : leaves t <> [].
Proof. pose proof (first_leaf_In t). intros E. rewrite E in H. destruct H. Qed.

Lemma node_split n l r : Permutation (leaves (Node l r)) (nbits n) ->
  splits n (mask_of (leaves l)) (mask_of (leaves r)) /\
  mask_of (leaves l) <> 0%N /\ mask_of (leaves r) <> 0%N /\
  Permutation (leaves l) (nbits (mask_of (leaves l))) /\
  Permutation (leaves r) (nbits (mask_of (leaves r))).
Proof.
  intros P. cbn [leaves] in P.
  assert (ND : NoDup (leaves l ++ leaves r)).
  { eapply Permutation_NoDup; [symmetry; eauto|]. apply nbits_NoDup. }
  assert (D : forall x, In x (leaves l) -> ~ In x (leaves r)).
  { clear P. revert ND. generalize (leaves l) (leaves r). induction l0 as [|a l0 IH]; cbn; intros l1 ND x; [tauto|].
    inversion ND; subst. intros [->|Hx]; [|apply IH; auto].
    rewrite in_app_iff in *. tauto. }
  split; [|split; [|split; [|split]]].
  - intros i. rewrite !mask_of_has. split; [|specialize (D i); tauto].
    rewrite <- in_app_iff, <- nbits_In. split; apply Permutation_in; [symmetry|]; auto.
  - apply nonzero_has. exists (first_leaf l). apply mask_of_has. apply first_leaf_In.
  - apply nonzero_has. exists (first_leaf r). apply mask_of_has. apply first_leaf_In.
  - symmetry. apply mask_of_nbits. eapply nodup_l; eauto.
  - symmetry. apply mask_of_nbits. eapply nodup_r; eauto.
Qed.

(* ---------- ordering of costs ---------- *)
Lemma ole_refl a : ole a a = true.
Proof. destruct a; cbn; auto. apply Z.leb_refl. Qed.
Lemma ole_trans a b c : ole a b = true -> ole b c = true -> ole a c = true.
Proof.
  destruct a as [x|], b as [y|], c as [z|]; cbn; auto; try discriminate.
  rewrite !Z.leb_le. lia.
Qed.
Lemma ole_total a b : ole a b = false -> ole b a = true.
Proof.
  destruct a as [x|], b as [y|]; cbn; auto; try discriminate.
  rewrite Z.leb_gt, Z.leb_le. lia.
Qed.

Definition pair_cost (m : AModel) (F : N -> AState) (n lp rp : N) : option Z :=
  oadd (Some (a_step m n lp rp)) (oadd (a_ops (F lp)) (a_ops (F rp))).

Lemma relax_all_min m conn ctx F n :
  am_cse m = false -> n <> 0%N -> popcount n < 64 -> (exists l r, valid conn n l r) ->
  let s := relax_all a_init (a_relax m) conn ctx F n in
  (forall lp rp, In (lp, rp) (bips n) -> guard conn lp rp = true ->
     ole (a_ops s) (pair_cost m F n lp rp) = true) /\
  valid conn n (a_lp s) (a_rp s) /\
  a_ops s = pair_cost m F n (a_lp s) (a_rp s).
Proof.
  intros Hcse Hn Hp (l0 & r0 & V). cbn zeta. unfold relax_all.
  set (f := fun acc '(lp, rp) => _).
  assert (Step : forall acc lp rp, f acc (lp, rp) =
     if guard conn lp rp
     then if ole (pair_cost m F n lp rp) (a_ops acc)
          then mkA (pair_cost m F n lp rp) lp rp (a_subnets acc) else acc
     else acc).
  { intros acc lp rp. unfold f. fold (guard conn lp rp). unfold a_relax. rewrite Hcse. reflexivity. }
  assert (G : forall l acc, (forall lp rp, In (lp, rp) l -> In (lp, rp) (bips n)) ->
    (a_ops acc = None \/ (valid conn n (a_lp acc) (a_rp acc) /\ a_ops acc = pair_cost m F n (a_lp acc) (a_rp acc))) ->
    let s := fold_left f l acc in
    ole (a_ops s) (a_ops acc) = true /\
    (forall lp rp, In (lp, rp) l -> guard conn lp rp = true -> ole (a_ops s) (pair_cost m F n lp rp) = true) /\
    (((exists lp rp, In (lp, rp) l /\ guard conn lp rp = true) \/
      (valid conn n (a_lp acc) (a_rp acc) /\ a_ops acc = pair_cost m F n (a_lp acc) (a_rp acc))) ->
     valid conn n (a_lp s) (a_rp s) /\ a_ops s = pair_cost m F n (a_lp s) (a_rp s))).
  { induction l as [|(lp & rp) l IH]; cbn [fold_left]; intros acc Hl Hacc.
    - split; [apply ole_refl|]. split; [intros ? ? []|]. intros [(? & ? & [] & _)|]; auto.
    - assert (Hl' : forall lp0 rp0, In (lp0, rp0) l -> In (lp0, rp0) (bips n)) by (intros; apply Hl; right; auto).
      rewrite Step. destruct (guard conn lp rp) eqn:E.
      + assert (V' : valid conn n lp rp) by (apply bips_guard; auto; apply Hl; left; auto).
        destruct (ole (pair_cost m F n lp rp) (a_ops acc)) eqn:Eo.
        * destruct (IH (mkA (pair_cost m F n lp rp) lp rp (a_subnets acc))) as (I1 & I2 & I3); auto.
          cbn [a_ops a_lp a_rp] in *. split; [eapply ole_trans; eauto|]. split.
          -- intros lp' rp' [Eq|Hin] Hg; [injection Eq as <- <-; auto|auto].
          -- intros _. apply I3. right. auto.
        * assert (Hacc' : valid conn n (a_lp acc) (a_rp acc) /\ a_ops acc = pair_cost m F n (a_lp acc) (a_rp acc)).
          { destruct Hacc as [Hacc|]; auto. rewrite Hacc, ole_None in Eo. discriminate. }
          destruct (IH acc) as (I1 & I2 & I3); auto.
          split; auto. split.
          -- intros lp' rp' [Eq|Hin] Hg; [injection Eq as <- <-|auto].
             eapply ole_trans; [exact I1|]. apply ole_total. auto.
          -- intros _. apply I3. right. auto.
      + destruct (IH acc) as (I1 & I2 & I3); auto.
        split; auto. split.
        * intros lp' rp' [Eq|Hin] Hg; [injection Eq as <- <-; congruence|auto].
        * intros [(lp' & rp' & [Eq|Hin] & Hg)|Hv].
          -- injection Eq as <- <-. congruence.
          -- apply I3. left. eauto.
          -- apply I3. right. auto. }
  destruct (G (bips n) (a_init ctx n)) as (_ & G2 & G3); auto.
  split; auto. apply G3. left.
  destruct (bips_complete conn n l0 r0 Hn Hp V) as (a & b & Hin & Hg & _). eauto.
Qed.

(* ---------- step costs ---------- *)
Lemma existsb_perm {A} (p : A -> bool) l l' : Permutation l l' -> existsb p l = existsb p l'.
Proof.
  intros P. induction P; cbn; auto.
  - rewrite IHP. auto.
  - destruct (p x), (p y); auto.
  - congruence.
Qed.

Lemma step_cost_perm net cost foot v w f L L' R R' :
  Permutation L L' -> Permutation R R' ->
  step_cost net cost foot v w f L R = step_cost net cost foot v w f L' R'.
Proof.
  intros PL PR. unfold step_cost.
  assert (P : Permutation (L ++ R) (L' ++ R')) by (apply Permutation_app; auto).
  rewrite (existsb_perm v _ _ P), (open_list_perm net _ _ PL), (open_list_perm net _ _ PR), (open_list_perm net _ _ P).
  reflexivity.
Qed.

Definition symmetric_cost (cost : list nat -> list nat -> list nat -> Z) : Prop :=
  forall a b c, cost a b c = cost b a c.

Lemma step_cost_sym net cost foot v w f L R :
  symmetric_cost cost -> step_cost net cost foot v w f L R = step_cost net cost foot v w f R L.
Proof.
  intros S. unfold step_cost. pose proof (Permutation_app_comm L R) as P.
  rewrite (existsb_perm v _ _ P), (open_list_perm net _ _ P), (S (open_list net L)). reflexivity.
Qed.

Definition volatile_of (mask : N) (i : nat) : bool := N.testbit mask (N.of_nat i).

Lemma land_existsb mask n : existsb (volatile_of mask) (nbits n) = negb (N.eqb (N.land mask n) 0).
Proof.
  destruct (N.eqb_spec (N.land mask n) 0) as [E|E]; cbn.
  - apply not_true_iff_false. rewrite existsb_exists. intros (i & Hi & Hv).
    apply nbits_In in Hi. assert (H : has (N.land mask n) i) by (apply has_land; auto).
    rewrite E, has_zero in H. auto.
  - apply nonzero_has in E as (i & Hi). apply has_land in Hi as (H1 & H2).
    apply existsb_exists. exists i. split; [apply nbits_In; auto|auto].
Qed.

Definition o_step (o : AOpts) (net : list (list nat)) : list nat -> list nat -> Z :=
  step_cost net (ao_cost o) (ao_foot o) (volatile_of (ao_vmask o)) (ao_vweight o) (ao_fweight o).
Definition o_tree (o : AOpts) (net : list (list nat)) : tree -> Z :=
  tree_cost net (ao_cost o) (ao_foot o) (volatile_of (ao_vmask o)) (ao_vweight o) (ao_fweight o).

Lemma a_step_ok o net n lp rp :
  let conn := outer_product_connectivity net [] (ao_prune o) in
  (n < table_size (length net))%N -> conn n = true -> valid conn n lp rp ->
  a_step (a_model o net []) n lp rp = o_step o net (nbits lp) (nbits rp).
Proof.
  cbn zeta. intros Hn Hc V. pose proof (valid_lt _ _ _ _ V) as (Ll & Lr). destruct V as (Hs & _ & _ & Cl & Cr).
  assert (lp < table_size (length net))%N by lia. assert (rp < table_size (length net))%N by lia.
  unfold a_step, a_model, o_step, step_cost. cbn [am_vmask am_vweight am_fweight am_foot am_ixs am_cost].
  rewrite Hc, Cl, Cr. rewrite !cell_open by auto.
  pose proof (splits_perm _ _ _ Hs) as P.
  rewrite <- (existsb_perm _ _ _ P), land_existsb, <- (open_list_perm net _ _ P).
  destruct (N.eqb (N.land (ao_vmask o) n) 0); cbn [negb];
    destruct (Z.eqb_spec (ao_fweight o) 0) as [->|]; reflexivity.
Qed.

Fixpoint conn_tree (conn : N -> bool) (t : tree) : Prop :=
  match t with
  | Leaf _ => True
  | Node l r => conn (mask_of (leaves l ++ leaves r)) = true /\ conn_tree conn l /\ conn_tree conn r
  end.

Lemma conn_tree_root conn nt t : splittable conn nt -> conn_tree conn t -> conn (mask_of (leaves t)) = true.
Proof.
  intros (S1 & _). destruct t as [i|l r]; cbn [conn_tree leaves].
  - intros _. apply S1. apply popcount_1. exists i. cbn. apply N.lor_0_r.
  - tauto.
Qed.

Lemma a_opt o net : length net < 64 -> ao_cse o = false -> symmetric_cost (ao_cost o) ->
  let conn := outer_product_connectivity net [] (ao_prune o) in
  let F := a_solve (a_model o net []) conn (length net) in
  forall n, n <> 0%N -> (n < table_size (length net))%N -> conn n = true ->
  exists c, a_ops (F n) = Some c /\
    (forall t, recorded F n t -> o_tree o net t = c) /\
    (forall t, Permutation (leaves t) (nbits n) -> conn_tree conn t -> (c <= o_tree o net t)%Z).
Proof.
  intros Hnt Hcse Hsym conn F.
  pose proof (opc_splittable net [] (ao_prune o)) as Sp. fold conn in Sp.
  assert (Char : forall n, n <> 0%N -> (n < table_size (length net))%N ->
    F n = if Nat.eqb (popcount n) 1 then a_leaf (fun _ => 0%Z) n
          else if conn n then relax_all a_init (a_relax (a_model o net [])) conn (fun _ => 0%Z) F n else a_dflt).
  { apply (solve_char a_leaf a_init (a_relax (a_model o net [])) (a_finalize (a_model o net [])) a_dflt conn); auto.
    intros ctx n st. unfold a_finalize. cbn [am_cse a_model]. rewrite Hcse. reflexivity. }
  assert (OkAll := a_solve_ok (a_model o net []) conn (length net) Hnt Sp). fold F in OkAll.
  intros n. induction (N.lt_wf_0 n) as [n _ IH]. intros Hn Hlt Hc.
  specialize (Char n Hn Hlt).
  destruct (Nat.eqb_spec (popcount n) 1) as [Hp|Hp].
  - exists 0%Z. rewrite Char. cbn. split; auto. split.
    + intros t R. destruct R; [reflexivity|lia].
    + intros t P _. rewrite ctz_single in P by auto. apply Permutation_sym in P.
      apply Permutation_length_1_inv in P.
      destruct t as [i|l r]; [cbn; lia|].
      pose proof (leaves_nonempty l). pose proof (leaves_nonempty r). cbn [leaves] in P.
      destruct (leaves l) as [|? [|]], (leaves r); cbn in P; congruence.
  - rewrite Hc in Char.
    assert (Hp2 : 2 <= popcount n) by (pose proof (popcount_pos n Hn); lia).
    assert (Hpc : popcount n < 64).
    { pose proof (popcount_bound _ _ Hlt). lia. }
    destruct (relax_all_min (a_model o net []) conn (fun _ => 0%Z) F n) as (Min & V & Att); auto.
    { apply Sp; auto. }
    rewrite <- Char in Min, V, Att.
    pose proof (valid_lt _ _ _ _ V) as (Ll & Lr).
    pose proof V as (Hs & Hl & Hr & Cl & Cr).
    destruct (IH _ Ll Hl) as (cl & El & Rl & Ml); [lia|auto|].
    destruct (IH _ Lr Hr) as (cr & Er & Rr & Mr); [lia|auto|].
    unfold pair_cost in Att. rewrite El, Er in Att. cbn [oadd] in Att.
    rewrite (a_step_ok o net n) in Att by auto.
    exists (o_step o net (nbits (a_lp (F n))) (nbits (a_rp (F n))) + (cl + cr))%Z. split; auto. split.
    + intros t R. inversion R as [? Hp1|? tl tr _ R1 R2]; subst; [lia|].
      destruct (recorded_leaves conn (length net) F OkAll _ _ (N.lt_trans _ _ _ Ll Hlt) Cl R1) as (P1 & _).
      destruct (recorded_leaves conn (length net) F OkAll _ _ (N.lt_trans _ _ _ Lr Hlt) Cr R2) as (P2 & _).
      assert (E : (o_step o net (leaves tl) (leaves tr) = o_step o net (nbits (a_lp (F n))) (nbits (a_rp (F n))))%Z).
      { apply step_cost_perm; auto. }
      specialize (Rl _ R1). specialize (Rr _ R2). unfold o_tree in *.
      destruct (Nat.ltb (first_leaf tl) (first_leaf tr)); cbn [tree_cost].
      * fold (o_step o net (leaves tl) (leaves tr)). rewrite E. lia.
      * fold (o_step o net (leaves tr) (leaves tl)).
        assert (E2 : o_step o net (leaves tr) (leaves tl) = o_step o net (leaves tl) (leaves tr)) by (apply step_cost_sym; auto).
        rewrite E2, E. lia.
    + intros t P CT. destruct t as [i|l r].
      { exfalso. apply Permutation_length in P. rewrite nbits_length in P. cbn in P. lia. }
      destruct (node_split n l r P) as (Hs' & Hl' & Hr' & Pl & Pr).
      cbn [conn_tree] in CT. destruct CT as (_ & CTl & CTr).
      assert (V' : valid conn n (mask_of (leaves l)) (mask_of (leaves r))).
      { repeat split; auto; try apply Hs'; eapply conn_tree_root; eauto. }
      pose proof (valid_lt _ _ _ _ V') as (Ll' & Lr').
      pose proof V' as (_ & _ & _ & Cl' & Cr').
      destruct (IH _ Ll' Hl') as (cl' & El' & _ & Ml'); [lia|auto|].
      destruct (IH _ Lr' Hr') as (cr' & Er' & _ & Mr'); [lia|auto|].
      specialize (Ml' l Pl CTl). specialize (Mr' r Pr CTr).
      assert (Step : o_step o net (nbits (mask_of (leaves l))) (nbits (mask_of (leaves r)))
                     = o_step o net (leaves l) (leaves r)).
      { apply step_cost_perm; symmetry; auto. }
      destruct (bips_complete conn n _ _ Hn Hpc V') as (a & b & Hin & Hg & Hab).
      specialize (Min a b Hin Hg). rewrite Att in Min.
      unfold o_tree in *. cbn [tree_cost]. fold (o_step o net (leaves l) (leaves r)).
      destruct Hab as [(-> & ->)|(-> & ->)]; unfold pair_cost in Min; rewrite El', Er' in Min; cbn [oadd ole] in Min;
        apply Z.leb_le in Min; rewrite (a_step_ok o net n) in Min; auto.
      * lia.
      * unfold o_step in *. rewrite (step_cost_sym _ _ _ _ _ _ (nbits (mask_of (leaves r)))) in Min by auto. lia.
      * apply valid_sym. auto.
Qed.

Lemma over_len n t : over n t -> length (leaves t) = n.
Proof. intros P. apply Permutation_length in P. rewrite seq_length in P. auto. Qed.

Lemma tree_len1 t : length (leaves t) = 1 -> exists i, t = Leaf i.
Proof.
  destruct t as [i|l r]; eauto. cbn. rewrite app_length.
  pose proof (leaves_nonempty l). pose proof (leaves_nonempty r).
  destruct (leaves l), (leaves r); try contradiction. cbn. lia.
Qed.

Lemma over_1 t : over 1 t -> t = Leaf 0.
Proof.
  intros O. destruct (tree_len1 t (over_len _ _ O)) as (i & ->).
  unfold over in O. cbn in O. apply Permutation_length_1 in O. congruence.
Qed.

Lemma over_2 t : over 2 t -> t = Node (Leaf 0) (Leaf 1) \/ t = Node (Leaf 1) (Leaf 0).
Proof.
  intros O. pose proof (over_len _ _ O) as L. destruct t as [i|l r]; [discriminate|].
  cbn in L. rewrite app_length in L.
  pose proof (leaves_nonempty l). pose proof (leaves_nonempty r).
  destruct (tree_len1 l) as (i & ->).
  { destruct (leaves l), (leaves r); try contradiction; cbn in *; lia. }
  destruct (tree_len1 r) as (j & ->).
  { destruct (leaves r); try contradiction; cbn in *; lia. }
  unfold over in O. cbn in O.
  destruct (Permutation_length_2 O) as [(-> & ->)|(-> & ->)]; auto.
Qed.

Lemma a_run_optimal_conn o net s : ao_cse o = false -> symmetric_cost (ao_cost o) ->
  a_run o net [] = Some s ->
  let conn := outer_product_connectivity net [] (ao_prune o) in
  exists t, s = postfix t /\ denotes s t /\ over (length net) t /\
    (3 <= length net -> exists m, recorded (a_solve (a_model o net []) conn (length net)) m t /\ m = full (length net)) /\
    (forall t', over (length net) t' -> conn_tree conn t' -> (o_tree o net t <= o_tree o net t')%Z).
Proof.
  intros Hcse Hsym H conn.
  destruct (le_lt_dec 3 (length net)) as [H3|H3].
  - destruct (a_run_big o net [] s H H3) as (H24 & t & R & ->).
    destruct (a_run_wf o net [] _ H) as (t0 & E & _ & O & _).
    assert (t0 = t).
    { pose proof (denotes_postfix t0) as D. rewrite <- E in D. pose proof (denotes_postfix t) as D'.
      unfold denotes in *. congruence. }
    subst t0. exists t. split; auto. split; [apply denotes_postfix|]. split; auto.
    split; [intros _; eexists; split; [exact R|reflexivity]|].
    destruct (a_opt o net ltac:(lia) Hcse Hsym (full (length net))) as (c & Ec & Rc & Mc).
    + apply full_nonzero. lia.
    + apply full_lt.
    + apply opc_splittable.
    + intros t' O' CT. rewrite (Rc t R). apply Mc; auto. rewrite nbits_full. exact O'.
  - unfold a_run in H.
    destruct (Nat.eqb_spec (length net) 0); [discriminate|].
    destruct (Nat.eqb_spec (length net) 1) as [E|].
    + injection H as <-. exists (Leaf 0). rewrite E. split; [auto|]. split; [reflexivity|].
      split; [unfold over; cbn; auto|]. split; [lia|].
      intros t' O' _. rewrite (over_1 t' O'). lia.
    + destruct (Nat.eqb_spec (length net) 2) as [E|]; [|lia].
      injection H as <-. exists (Node (Leaf 0) (Leaf 1)). rewrite E. split; [auto|]. split; [reflexivity|].
      split; [unfold over; cbn; auto|]. split; [lia|].
      intros t' O' _. destruct (over_2 t' O') as [->| ->]; [lia|].
      unfold o_tree. cbn [tree_cost leaves].
      rewrite (step_cost_sym _ _ _ _ _ _ [1] [0]); auto. lia.
Qed.

Lemma conn_tree_all t : conn_tree (fun _ => true) t.
Proof. induction t; cbn; auto. Qed.

Lemma a_run_optimal o net s : ao_cse o = false -> ao_prune o = false -> symmetric_cost (ao_cost o) ->
  a_run o net [] = Some s ->
  exists t, denotes s t /\ over (length net) t /\
    forall t', over (length net) t' -> (o_tree o net t <= o_tree o net t')%Z.
Proof.
  intros Hc Hp Hs H. destruct (a_run_optimal_conn o net s Hc Hs H) as (t & _ & D & O & _ & M).
  exists t. split; auto. split; auto. intros t' O'. apply M; auto.
  rewrite Hp. apply conn_tree_all.
Qed.

Lemma flops_symmetric vol : symmetric_cost (flops_counter vol).
Proof.
  intros a b c. unfold flops_counter.
  rewrite (set_of_list_ext (a ++ b ++ c) (b ++ a ++ c)); auto.
  intros y. rewrite !in_app_iff. tauto.
Qed.
Lemma memsize_symmetric vol : symmetric_cost (memsize_counter vol).
Proof. intros a b c. unfold memsize_counter. lia. Qed.

(* ---------- pruning ---------- *)
Lemma list_exit (E : nat -> nat -> Prop) (A a : list nat) s z :
  clos_refl_trans nat (fun x y => In x A /\ In y A /\ E x y) s z ->
  In s a -> ~ In z a -> exists x y, In x a /\ ~ In y a /\ In y A /\ E x y.
Proof.
  intros H. apply clos_rt_rt1n in H. induction H as [|x y z (Hx & Hy & Hxy) _ IH]; [tauto|].
  intros Ha Hz. destruct (in_dec Nat.eq_dec y a) as [Hay|Hay].
  - apply IH; auto.
  - exists x, y. auto.
Qed.

Lemma connected_by_app (E : nat -> nat -> Prop) A B x y :
  (forall u v, E u v -> E v u) ->
  connected_by E A -> connected_by E B -> In x A -> In y B -> E x y -> connected_by E (A ++ B).
Proof.
  intros Sym CA CB Hx Hy Hxy.
  assert (LA : forall i j, In i A -> In j A -> clos_refl_trans nat (fun x y => In x (A ++ B) /\ In y (A ++ B) /\ E x y) i j).
  { intros i j Hi Hj. specialize (CA i j Hi Hj). clear Hi Hj.
    induction CA as [u v (? & ? & ?)| |]; [|apply rt_refl|eapply rt_trans; eauto].
    apply rt_step. rewrite !in_app_iff. auto. }
  assert (LB : forall i j, In i B -> In j B -> clos_refl_trans nat (fun x y => In x (A ++ B) /\ In y (A ++ B) /\ E x y) i j).
  { intros i j Hi Hj. specialize (CB i j Hi Hj). clear Hi Hj.
    induction CB as [u v (? & ? & ?)| |]; [|apply rt_refl|eapply rt_trans; eauto].
    apply rt_step. rewrite !in_app_iff. auto. }
  assert (S1 : clos_refl_trans nat (fun x y => In x (A ++ B) /\ In y (A ++ B) /\ E x y) x y).
  { apply rt_step. rewrite !in_app_iff. auto. }
  assert (S2 : clos_refl_trans nat (fun x y => In x (A ++ B) /\ In y (A ++ B) /\ E x y) y x).
  { apply rt_step. rewrite !in_app_iff. auto. }
  intros i j Hi Hj. apply in_app_iff in Hi, Hj. destruct Hi, Hj; auto.
  - apply rt_trans with x; auto. apply rt_trans with y; auto.
  - apply rt_trans with y; auto. apply rt_trans with x; auto.
Qed.

Lemma contractible_sym net i j : contractible net i j -> contractible net j i.
Proof. intros (H & k & H1 & H2 & H3). split; auto. exists k. auto. Qed.

Lemma nop_connected net t : no_outer_product net t -> connected_set net (leaves t) /\ connected_tree net t.
Proof.
  induction t as [i|l IHl r IHr]; cbn.
  - intros _. split; auto. intros x y [<-|[]] [<-|[]]. apply rt_refl.
  - intros ((i & j & Hi & Hj & Hij) & Hl & Hr).
    destruct (IHl Hl) as (Cl & Tl). destruct (IHr Hr) as (Cr & Tr).
    assert (C : connected_set net (leaves l ++ leaves r)).
    { eapply connected_by_app; eauto. apply contractible_sym. }
    auto.
Qed.

Lemma NoDup_app_disj {A} (l l' : list A) : NoDup (l ++ l') -> forall x, In x l -> ~ In x l'.
Proof.
  induction l as [|a l IH]; cbn; intros ND x; [tauto|].
  inversion ND; subst. intros [->|Hx]; [|apply IH; auto]. rewrite in_app_iff in *. tauto.
Qed.

Lemma connected_nop net t : NoDup (leaves t) -> connected_tree net t -> no_outer_product net t.
Proof.
  induction t as [i|l IHl r IHr]; cbn; auto.
  intros ND (C & Tl & Tr).
  split; [|split; [apply IHl|apply IHr]; auto; [eapply nodup_l; eauto|eapply nodup_r; eauto]].
  destruct (list_exit (contractible net) (leaves l ++ leaves r) (leaves l) (first_leaf l) (first_leaf r)) as (x & y & H1 & H2 & H3 & H4).
  - apply C; apply in_or_app; [left|right]; apply first_leaf_In.
  - apply first_leaf_In.
  - intros H. apply (NoDup_app_disj _ _ ND) in H. apply H. apply first_leaf_In.
  - exists x, y. apply in_app_iff in H3. repeat split; try tauto; apply H4.
Qed.

Lemma conn_tree_connected net t : NoDup (leaves t) ->
  conn_tree (connected_subsets (contractible_adjacency net [])) t <-> connected_tree net t.
Proof.
  induction t as [i|l IHl r IHr]; cbn; [tauto|]. intros ND.
  rewrite IHl by (eapply nodup_l; eauto). rewrite IHr by (eapply nodup_r; eauto).
  rewrite connected_net. unfold connected_set.
  rewrite (connected_by_In _ (nbits (mask_of (leaves l ++ leaves r))) (leaves l ++ leaves r)); [tauto|].
  intros x. rewrite nbits_In. apply mask_of_has.
Qed.

Lemma over_NoDup n t : over n t -> NoDup (leaves t).
Proof. intros O. eapply Permutation_NoDup; [symmetry; exact O|apply seq_NoDup]. Qed.

Lemma recorded_conn_tree conn nt st :
  (forall n, (n < table_size nt)%N -> 2 <= popcount n -> conn n = true -> okA conn n (st n)) ->
  forall n t, (n < table_size nt)%N -> conn n = true -> recorded st n t -> conn_tree conn t.
Proof.
  intros Ok n t Hn Hc R. 
  induction R as [n Hp|n tl tr Hp Rl IHl Rr IHr]; [exact I|].
  pose proof (Ok n Hn Hp Hc) as V. pose proof (valid_lt _ _ _ _ V) as (Ll & Lr).
  assert (R' : recorded st n (if Nat.ltb (first_leaf tl) (first_leaf tr) then Node tl tr else Node tr tl)) by (apply rec_node; auto).
  destruct (recorded_leaves conn nt st Ok n _ Hn Hc R') as (P & _).
  destruct V as (Hs & Hl & Hr & Cl & Cr).
  assert (El : conn_tree conn tl) by (apply IHl; auto; lia). assert (Er : conn_tree conn tr) by (apply IHr; auto; lia).
  apply perm_nbits_mask in P.
  destruct (Nat.ltb (first_leaf tl) (first_leaf tr)); cbn [conn_tree leaves] in *; rewrite <- P; auto.
Qed.

Lemma a_run_pruned o net s : ao_cse o = false -> ao_prune o = true -> symmetric_cost (ao_cost o) ->
  connected_set net (seq 0 (length net)) ->
  a_run o net [] = Some s ->
  exists t, denotes s t /\ over (length net) t /\ no_outer_product net t /\
    forall t', over (length net) t' -> no_outer_product net t' -> (o_tree o net t <= o_tree o net t')%Z.
Proof.
  intros Hc Hp Hs HC H. destruct (a_run_optimal_conn o net s Hc Hs H) as (t & Ht & D & O & R & M).
  assert (Hf : connected_subsets (contractible_adjacency net []) (full (length net)) = true).
  { apply connected_net. rewrite nbits_full. auto. }
  destruct (opc_cases net [] (ao_prune o)) as [(E & _ & _)|(_ & [E|E])]; [|congruence|congruence].
  exists t. split; auto. split; auto. split.
  - apply connected_nop; [eapply over_NoDup; eauto|].
    apply conn_tree_connected; [eapply over_NoDup; eauto|].
    destruct (le_lt_dec 3 (length net)) as [H3|H3].
    + destruct (R H3) as (m & Rm & ->). rewrite E in Rm.
      destruct (a_run_big o net [] s H H3) as (H24 & _).
      pose proof (opc_splittable net [] (ao_prune o)) as Sp. rewrite E in Sp.
      eapply recorded_conn_tree; [|apply full_lt|exact Hf|exact Rm].
      intros. apply a_solve_ok; auto. lia.
    + apply conn_tree_connected; [eapply over_NoDup; eauto|].
      destruct (length net) as [|[|[|]]] eqn:El; [| | |lia].
      * apply over_len in O. pose proof (leaves_nonempty t). destruct (leaves t); [contradiction|discriminate].
      * rewrite (over_1 t O). cbn. auto.
      * destruct (over_2 t O) as [->| ->]; cbn; repeat split; auto.
        unfold connected_set in *. rewrite <- (connected_by_In _ [0; 1]); auto. cbn. tauto.
  - intros t' O' N'. apply M; auto. rewrite E. apply conn_tree_connected; [eapply over_NoDup; eauto|].
    apply nop_connected. auto.
Qed.

Lemma a_run_fallback o net : ~ connected_set net (seq 0 (length net)) ->
  a_run o net [] = a_run (mkAO (ao_cost o) (ao_foot o) (ao_vmask o) (ao_vweight o) (ao_fweight o) (ao_cse o) (ao_meta o) false) net [].
Proof.
  intros HC.
  assert (Hf : connected_subsets (contractible_adjacency net []) (full (length net)) = false).
  { apply not_true_iff_false. rewrite connected_net, nbits_full. auto. }
  assert (E : outer_product_connectivity net [] (ao_prune o) = outer_product_connectivity net [] false).
  { destruct (opc_cases net [] (ao_prune o)) as [(_ & _ & E)|(E & _)]; [congruence|]. rewrite E. reflexivity. }
  unfold a_run, a_model. cbn [ao_prune ao_cost ao_foot ao_vmask ao_vweight ao_fweight ao_cse ao_meta].
  rewrite E. reflexivity.
Qed.
