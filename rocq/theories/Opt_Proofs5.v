(** The peak-memory objective. *)
From Coq Require Import NArith ZArith List Arith Lia Bool Sorted Permutation Relations.
From Verif Require Import Bits_Model Bits_Spec Bits_Proofs Opt_Model Opt_Spec Opt_Proofs1 Opt_Proofs2 Opt_Proofs3 Opt_Proofs4.
Import ListNotations.
Local Arguments Nat.ltb : simpl never.
Local Arguments N.shiftl : simpl never.
Local Arguments N.sub : simpl never.
Local Arguments Nat.pow : simpl never.

(* ---------- the recurrence equals the simulated peak ---------- *)
Section PeakRec.
  Variable size : list nat -> Z.
  Hypothesis size_nonneg : forall A, (0 <= size A)%Z.

  Fixpoint leafsum (l : list nat) : Z :=
    match l with [] => 0%Z | i :: l' => (size [i] + leafsum l')%Z end.

  Lemma leafsum_app a b : leafsum (a ++ b) = (leafsum a + leafsum b)%Z.
  Proof. induction a; cbn; lia. Qed.

  Fixpoint ptree (t : tree) : Z :=
    match t with
    | Leaf i => size [i]
    | Node l r =>
        zmax3 (leafsum (leaves r) + ptree l) (size (leaves l) + ptree r)
              (size (leaves l) + size (leaves r) + size (leaves l ++ leaves r))
    end.

  Lemma loaded_app a b : loaded size (a ++ b) = (loaded size a + loaded size b)%Z.
  Proof. induction a; cbn; lia. Qed.

  Lemma loaded_postfix t : loaded size (postfix t) = leafsum (leaves t).
  Proof.
    induction t as [i|l IHl r IHr]; cbn [postfix leaves].
    - cbn. destruct (Z.leb_spec 0 (Z.of_nat i)); [|lia]. rewrite Nat2Z.id. lia.
    - rewrite !loaded_app, leafsum_app, IHl, IHr. cbn. lia.
  Qed.

  Lemma ptree_ge t : (leafsum (leaves t) <= ptree t)%Z /\ (size (leaves t) <= ptree t)%Z.
  Proof.
    induction t as [i|l (L1 & S1) r (L2 & S2)]; cbn [ptree leaves].
    - cbn. lia.
    - rewrite leafsum_app. unfold zmax3. pose proof (size_nonneg (leaves l)). pose proof (size_nonneg (leaves r)). lia.
  Qed.

  (** Either [t] is a leaf or its creation events are summarised by [ptree]. *)
  Lemma peak_from_postfix t : forall s stack live,
    Z.max live (peak_from size (postfix t ++ s) stack live)
    = Z.max (live - leafsum (leaves t) + ptree t)
            (Z.max (live - leafsum (leaves t) + size (leaves t)) (peak_from size s (t :: stack) (live - leafsum (leaves t) + size (leaves t)))).
  Proof.
    induction t as [i|l IHl r IHr]; intros s stack live; cbn [postfix].
    - cbn [app peak_from leaves leafsum ptree]. destruct (Z.leb_spec 0 (Z.of_nat i)); [|lia].
      rewrite Nat2Z.id. replace (live - (size [i] + 0) + size [i])%Z with live by lia. lia.
    - rewrite <- !app_assoc. cbn [leaves ptree]. rewrite leafsum_app.
      rewrite IHl. set (live1 := (live - leafsum (leaves l) + size (leaves l))%Z).
      rewrite (IHr ([(-1)%Z] ++ s) (l :: stack) live1).
      set (live2 := (live1 - leafsum (leaves r) + size (leaves r))%Z).
      cbn [app peak_from]. change (Z.leb 0 (-1)) with false. cbn iota. cbn [leaves].
      replace (live2 + size (leaves l ++ leaves r) - size (leaves l) - size (leaves r))%Z
        with (live - (leafsum (leaves l) + leafsum (leaves r)) + size (leaves l ++ leaves r))%Z
        by (unfold live2, live1; lia).
      set (rest := peak_from size s _ _).
      unfold zmax3. pose proof (size_nonneg (leaves l)). pose proof (size_nonneg (leaves r)).
      pose proof (size_nonneg (leaves l ++ leaves r)). unfold live2, live1. lia.
  Qed.

  Lemma peak_postfix t : peak size (postfix t) = ptree t.
  Proof.
    unfold peak. rewrite loaded_postfix.
    pose proof (peak_from_postfix t [] [] (leafsum (leaves t))) as H. rewrite app_nil_r in H.
    rewrite H. cbn [peak_from]. pose proof (ptree_ge t). lia.
  Qed.
End PeakRec.

(* ---------- positions ---------- *)
Lemma enumerate_In {A} (l : list A) i x : In (i, x) (enumerate l) <-> nth_error l i = Some x.
Proof.
  unfold enumerate.
  assert (G : forall (l : list A) k, In (i, x) (combine (seq k (length l)) l) <-> k <= i /\ nth_error l (i - k) = Some x).
  { clear l. induction l as [|a l IH]; intros k; cbn [length seq combine In].
    - split; [tauto|]. intros (_ & H). destruct (i - k); discriminate.
    - rewrite IH. split.
      + intros [E|(H1 & H2)].
        * injection E as <- <-. rewrite Nat.sub_diag. cbn. auto.
        * split; [lia|]. replace (i - k) with (S (i - S k)) by lia. auto.
      + intros (H1 & H2). destruct (Nat.eq_dec i k) as [->|].
        * rewrite Nat.sub_diag in H2. cbn in H2. injection H2 as ->. auto.
        * right. split; [lia|]. replace (i - k) with (S (i - S k)) in H2 by lia. auto. }
  rewrite G. rewrite Nat.sub_0_r. split; [tauto|]. split; [lia|auto].
Qed.

(* ---------- Pareto frontiers ---------- *)
Definition dom (e p : FP) : Prop := (p_peak e <= p_peak p)%Z /\ (p_flops e <= p_flops p)%Z.

Lemma dom_refl e : dom e e.
Proof. split; lia. Qed.
Lemma dom_trans a b c : dom a b -> dom b c -> dom a c.
Proof. unfold dom. lia. Qed.

Lemma pareto_insert_sound f p e : In e (pareto_insert f p) -> In e f \/ e = p.
Proof.
  unfold pareto_insert. destruct (existsb _ f); auto.
  rewrite in_app_iff, filter_In. intros [(H & _)|[<-|[]]]; auto.
Qed.

Lemma pareto_insert_dom f p e : In e f \/ e = p -> exists e', In e' (pareto_insert f p) /\ dom e' e.
Proof.
  unfold pareto_insert. destruct (existsb _ f) eqn:E.
  - apply existsb_exists in E as (d & Hd & Hle). rewrite andb_true_iff, !Z.leb_le in Hle.
    intros [H| ->]; [exists e; split; auto; apply dom_refl|]. exists d. split; auto.
  - intros [H| ->].
    + destruct (Z.leb (p_peak p) (p_peak e) && Z.leb (p_flops p) (p_flops e)) eqn:D.
      * rewrite andb_true_iff, !Z.leb_le in D. exists p. split; [apply in_or_app; right; left; auto|auto].
      * exists e. split; [|apply dom_refl]. apply in_or_app. left. apply filter_In. rewrite D. auto.
    + exists p. split; [apply in_or_app; right; left; auto|apply dom_refl].
Qed.

Lemma p_relax_spec m u n lp rp ls rs acc :
  (forall e, In e (p_relax m u n lp rp ls rs acc) ->
     In e acc \/ exists li l ri r, nth_error ls li = Some l /\ nth_error rs ri = Some r /\ e = p_point m n lp rp li l ri r) /\
  (forall e, In e acc -> exists e', In e' (p_relax m u n lp rp ls rs acc) /\ dom e' e) /\
  (forall li l ri r, nth_error ls li = Some l -> nth_error rs ri = Some r ->
     exists e', In e' (p_relax m u n lp rp ls rs acc) /\ dom e' (p_point m n lp rp li l ri r)).
Proof.
  unfold p_relax.
  assert (Inner : forall il (er : list (nat * FP)) acc,
    let res := fold_left (fun acc ir => pareto_insert acc (p_point m n lp rp (fst il) (snd il) (fst ir) (snd ir))) er acc in
    (forall e, In e res -> In e acc \/ exists ir, In ir er /\ e = p_point m n lp rp (fst il) (snd il) (fst ir) (snd ir)) /\
    (forall e, In e acc \/ (exists ir, In ir er /\ e = p_point m n lp rp (fst il) (snd il) (fst ir) (snd ir)) ->
        exists e', In e' res /\ dom e' e)).
  { intros il. induction er as [|ir er IH]; cbn [fold_left]; intros acc0.
    - split; auto. intros e [H|(? & [] & _)]. exists e. split; auto. apply dom_refl.
    - set (p := p_point m n lp rp (fst il) (snd il) (fst ir) (snd ir)).
      destruct (IH (pareto_insert acc0 p)) as (I1 & I2). split.
      + intros e He. destruct (I1 e He) as [H|(ir' & H1 & H2)].
        * apply pareto_insert_sound in H as [H|H]; auto. right. exists ir. split; [left|]; auto.
        * right. exists ir'. split; [right|]; auto.
      + intros e He.
        assert (D : (In e acc0 \/ e = p) \/ exists ir', In ir' er /\ e = p_point m n lp rp (fst il) (snd il) (fst ir') (snd ir')).
        { destruct He as [H|(ir' & [<-|H] & ->)]; auto. right. eauto. }
        destruct D as [D|D].
        * apply pareto_insert_dom in D as (e1 & H1 & D1).
          destruct (I2 e1 (or_introl H1)) as (e2 & H2 & D2). exists e2. split; auto. eapply dom_trans; eauto.
        * destruct (I2 e (or_intror D)) as (e2 & H2 & D2). eauto. }
  assert (Outer : forall (el : list (nat * FP)) acc,
    let res := fold_left (fun acc il =>
      fold_left (fun acc ir => pareto_insert acc (p_point m n lp rp (fst il) (snd il) (fst ir) (snd ir))) (enumerate rs) acc) el acc in
    (forall e, In e res -> In e acc \/ exists il ir, In il el /\ In ir (enumerate rs) /\ e = p_point m n lp rp (fst il) (snd il) (fst ir) (snd ir)) /\
    (forall e, In e acc \/ (exists il ir, In il el /\ In ir (enumerate rs) /\ e = p_point m n lp rp (fst il) (snd il) (fst ir) (snd ir)) ->
        exists e', In e' res /\ dom e' e)).
  { induction el as [|il el IH]; cbn [fold_left]; intros acc0.
    - split; auto. intros e [H|(? & ? & [] & _)]. exists e. split; auto. apply dom_refl.
    - destruct (Inner il (enumerate rs) acc0) as (N1 & N2).
      set (acc1 := fold_left _ (enumerate rs) acc0) in *.
      destruct (IH acc1) as (I1 & I2). split.
      + intros e He. destruct (I1 e He) as [H|(il' & ir' & H1 & H2)].
        * destruct (N1 e H) as [|(ir & H1 & H2)]; auto. right. exists il, ir. split; [left|]; auto.
        * right. exists il', ir'. split; [right|]; auto.
      + intros e He.
        assert (D : (In e acc0 \/ exists ir, In ir (enumerate rs) /\ e = p_point m n lp rp (fst il) (snd il) (fst ir) (snd ir))
           \/ exists il' ir', In il' el /\ In ir' (enumerate rs) /\ e = p_point m n lp rp (fst il') (snd il') (fst ir') (snd ir')).
        { destruct He as [H|(il' & ir' & [<-|H] & H2 & ->)]; eauto 8. }
        destruct D as [D|D].
        * apply N2 in D as (e1 & H1 & D1).
          destruct (I2 e1 (or_introl H1)) as (e2 & H2 & D2). exists e2. split; auto. eapply dom_trans; eauto.
        * destruct (I2 e (or_intror D)) as (e2 & H2 & D2). eauto. }
  destruct (Outer (enumerate ls) acc) as (O1 & O2). split; [|split].
  - intros e He. destruct (O1 e He) as [|((li & l) & (ri & r) & H1 & H2 & H3)]; auto.
    apply enumerate_In in H1, H2. cbn in H3. right. eauto 8.
  - intros e He. apply O2. auto.
  - intros li l ri r Hl Hr. apply O2. right. exists (li, l), (ri, r).
    rewrite !enumerate_In. auto.
Qed.

Lemma p_relax_all_spec m conn u F n : n <> 0%N -> popcount n < 64 ->
  let res := relax_all p_init (p_relax m) conn u F n in
  (forall e, In e res -> exists lp rp li l ri r, valid conn n lp rp /\
     nth_error (F lp) li = Some l /\ nth_error (F rp) ri = Some r /\ e = p_point m n lp rp li l ri r) /\
  (forall lp rp li l ri r, In (lp, rp) (bips n) -> guard conn lp rp = true ->
     nth_error (F lp) li = Some l -> nth_error (F rp) ri = Some r ->
     exists e, In e res /\ dom e (p_point m n lp rp li l ri r)).
Proof.
  intros Hn Hp. cbn zeta. unfold relax_all.
  set (f := fun acc '(lp, rp) => _).
  assert (Step : forall acc lp rp, f acc (lp, rp) =
     if guard conn lp rp then p_relax m u n lp rp (F lp) (F rp) acc else acc) by reflexivity.
  assert (G : forall l acc, (forall lp rp, In (lp, rp) l -> In (lp, rp) (bips n)) ->
    let res := fold_left f l acc in
    (forall e, In e res -> In e acc \/ exists lp rp li l ri r, valid conn n lp rp /\
     nth_error (F lp) li = Some l /\ nth_error (F rp) ri = Some r /\ e = p_point m n lp rp li l ri r) /\
    (forall e, In e acc -> exists e', In e' res /\ dom e' e) /\
    (forall lp rp li le ri re, In (lp, rp) l -> guard conn lp rp = true ->
     nth_error (F lp) li = Some le -> nth_error (F rp) ri = Some re ->
     exists e, In e res /\ dom e (p_point m n lp rp li le ri re))).
  { induction l as [|(lp & rp) l IH]; cbn [fold_left]; intros acc Hl.
    - split; auto. split; [intros e He; exists e; split; auto; apply dom_refl|]. intros ? ? ? ? ? ? [].
    - assert (Hl' : forall lp0 rp0, In (lp0, rp0) l -> In (lp0, rp0) (bips n)) by (intros; apply Hl; right; auto).
      rewrite Step. destruct (guard conn lp rp) eqn:E.
      + assert (V : valid conn n lp rp) by (apply bips_guard; auto; apply Hl; left; auto).
        destruct (p_relax_spec m u n lp rp (F lp) (F rp) acc) as (R1 & R2 & R3).
        destruct (IH (p_relax m u n lp rp (F lp) (F rp) acc) Hl') as (I1 & I2 & I3).
        split; [|split].
        * intros e He. destruct (I1 e He) as [H|H]; auto.
          destruct (R1 e H) as [|(li & le & ri & re & H1 & H2 & H3)]; auto.
          right. exists lp, rp, li, le, ri, re. auto.
        * intros e He. destruct (R2 e He) as (e1 & H1 & D1). destruct (I2 e1 H1) as (e2 & H2 & D2).
          exists e2. split; auto. eapply dom_trans; eauto.
        * intros lp' rp' li le ri re [Eq|Hin] Hg Hle Hre.
          -- injection Eq as <- <-. destruct (R3 li le ri re Hle Hre) as (e1 & H1 & D1).
             destruct (I2 e1 H1) as (e2 & H2 & D2). exists e2. split; auto. eapply dom_trans; eauto.
          -- eapply I3; eauto.
      + destruct (IH acc Hl') as (I1 & I2 & I3). split; [|split]; auto.
        intros lp' rp' li le ri re [Eq|Hin] Hg Hle Hre; [injection Eq as <- <-; congruence|].
        eapply I3; eauto. }
  destruct (G (bips n) (p_init u n)) as (G1 & _ & G3); auto.
  split; auto. intros e He. destruct (G1 e He) as [[]|]; auto.
Qed.

(* ---------- the tables of the model ---------- *)
Definition o_size (o : POpts) (net : list (list nat)) : list nat -> Z := tensor_size net (po_vol o).
Definition o_work (o : POpts) (net : list (list nat)) : list nat -> list nat -> Z :=
  contraction_work net (po_vol o) (po_roof o) (volatile_of (po_vmask o)) (po_vweight o).

Lemma distinct_eq l : set_of_list l = distinct l.
Proof.
  apply SS_nat_ext.
  - apply set_of_list_sorted.
  - apply filter_sorted, seq_sorted.
  - intros x. rewrite set_of_list_In. unfold distinct. rewrite filter_In, in_seq, existsb_exists. split.
    + intros H. split; [|exists x; split; auto; apply Nat.eqb_refl]. split; [lia|].
      pose proof (proj1 (list_max_le l (list_max l)) (le_n _)) as F. rewrite Forall_forall in F.
      specialize (F x H). lia.
    + intros (_ & y & H & E). apply Nat.eqb_eq in E. subst. auto.
Qed.

Lemma tensor_size_perm net vol A B : Permutation A B -> tensor_size net vol A = tensor_size net vol B.
Proof. intros P. unfold tensor_size. rewrite (open_list_perm net A B P). reflexivity. Qed.

Lemma work_perm o net L L' R R' : Permutation L L' -> Permutation R R' -> o_work o net L R = o_work o net L' R'.
Proof.
  intros PL PR. unfold o_work, contraction_work, contraction_flops.
  assert (P : Permutation (L ++ R) (L' ++ R')) by (apply Permutation_app; auto).
  rewrite (existsb_perm _ _ _ P), (tensor_size_perm net _ _ _ PL), (tensor_size_perm net _ _ _ PR), (tensor_size_perm net _ _ _ P),
    (open_list_perm net _ _ PL), (open_list_perm net _ _ PR), (open_list_perm net _ _ P). reflexivity.
Qed.

Lemma work_sym o net L R : o_work o net L R = o_work o net R L.
Proof.
  unfold o_work, contraction_work, contraction_flops.
  pose proof (Permutation_app_comm L R) as P.
  rewrite (existsb_perm _ _ _ P), (tensor_size_perm net _ _ _ P), (open_list_perm net _ _ P).
  rewrite <- !distinct_eq.
  rewrite (set_of_list_ext (open_list net L ++ open_list net R ++ open_list net (R ++ L)) (open_list net R ++ open_list net L ++ open_list net (R ++ L)))
    by (intros y; rewrite !in_app_iff; tauto).
  replace (tensor_size net (po_vol o) L + tensor_size net (po_vol o) R)%Z with (tensor_size net (po_vol o) R + tensor_size net (po_vol o) L)%Z by lia.
  reflexivity.
Qed.

Section PTable.
  Variable o : POpts.
  Variable net : list (list nat).
  Let conn := outer_product_connectivity net [] (po_prune o).
  Let m := p_model o net [].
  Let nt := length net.

  Lemma pm_S_ok n : n <> 0%N -> (n < table_size nt)%N -> conn n = true -> pm_S m n = o_size o net (nbits n).
  Proof.
    intros Hn Hlt Hc. unfold m, p_model. cbn [pm_S]. fold conn.
    rewrite (proj2 (N.eqb_neq n 0) Hn), Hc. cbn [negb orb].
    rewrite cell_open by auto. reflexivity.
  Qed.

  Lemma leafsum_perm size A B : Permutation A B -> leafsum size A = leafsum size B.
  Proof. intros P. induction P; cbn; lia. Qed.

  Lemma pm_L_ok n : (n < table_size nt)%N -> pm_L m n = leafsum (o_size o net) (nbits n).
  Proof.
    intros Hlt.
    assert (E : pm_L m n = fold_left (fun acc b => if N.testbit n (N.of_nat b) then (acc + o_size o net [b])%Z else acc) (seq 0 nt) 0%Z).
    { unfold m, p_model at 1. cbn [pm_L]. fold conn.
      assert (G : forall l acc, (forall b, In b l -> b < nt) ->
        fold_left (fun acc b => if N.testbit n (N.of_nat b) then (acc + pm_S m (N.shiftl 1 (N.of_nat b)))%Z else acc) l acc =
        fold_left (fun acc b => if N.testbit n (N.of_nat b) then (acc + o_size o net [b])%Z else acc) l acc).
      { induction l as [|b l IH]; cbn [fold_left]; intros acc Hb; auto.
        rewrite IH by (intros; apply Hb; right; auto).
        rewrite pm_S_ok, nbits_single; auto.
        - apply nonzero_has. exists b. apply has_shiftl1. auto.
        - apply lt_table. intros i Hi. apply has_shiftl1 in Hi. subst. apply has_full. apply Hb. left; auto.
        - apply opc_splittable. apply popcount_1. eauto. }
      apply G. intros b Hb. apply in_seq in Hb. unfold nt in *. lia. }
    rewrite E.
    assert (G : forall l acc, fold_left (fun acc b => if N.testbit n (N.of_nat b) then (acc + o_size o net [b])%Z else acc) l acc
      = (acc + leafsum (o_size o net) (filter (fun b => N.testbit n (N.of_nat b)) l))%Z).
    { induction l as [|b l IH]; cbn [fold_left filter]; intros acc; [cbn; lia|].
      rewrite IH. destruct (N.testbit n (N.of_nat b)); cbn [leafsum]; lia. }
    rewrite G. rewrite Z.add_0_l. f_equal. apply SS_nat_ext.
    - apply filter_sorted, seq_sorted.
    - apply nbits_sorted.
    - intros x. rewrite filter_In, in_seq, nbits_In. unfold has. split; [tauto|].
      intros H. split; auto. split; [lia|]. apply lt_table_bits with (k := x) in Hlt; auto.
  Qed.

  Lemma pm_flops_ok n lp rp : (n < table_size nt)%N -> n <> 0%N -> conn n = true -> valid conn n lp rp ->
    pm_flops m n lp rp = o_work o net (nbits lp) (nbits rp).
  Proof.
    intros Hlt Hn Hc V. pose proof (valid_lt _ _ _ _ V) as (Ll & Lr). destruct V as (Hs & Hl & Hr & Cl & Cr).
    assert (Hlt1 : (lp < table_size nt)%N) by lia. assert (Hlt2 : (rp < table_size nt)%N) by lia.
    assert (E : pm_flops m n lp rp = ((if N.eqb (N.land (po_vmask o) n) 0 then 1%Z else po_vweight o)
       * po_roof o (flops_counter (po_vol o) (subset_target_indices net [] conn lp) (subset_target_indices net [] conn rp) (subset_target_indices net [] conn n))
                   (pm_S m lp + pm_S m rp + pm_S m n))%Z).
    { unfold m, p_model. cbn [pm_flops pm_S]. fold conn. rewrite Hc, Cl, Cr. reflexivity. }
    rewrite E. rewrite !pm_S_ok by auto. rewrite !cell_open by auto.
    pose proof (splits_perm _ _ _ Hs) as P.
    unfold o_work, contraction_work, contraction_flops, flops_counter, o_size.
    rewrite distinct_eq. rewrite <- (existsb_perm _ _ _ P), land_existsb, <- (open_list_perm net _ _ P), <- (tensor_size_perm net _ _ _ P).
    destruct (N.eqb (N.land (po_vmask o) n) 0); reflexivity.
  Qed.

  Let F := p_solve m conn nt.
  Let P := ptree (o_size o net).
  Let W := tree_work (o_work o net).

  Hypothesis Hnt : nt < 64.

  Lemma p_char n : n <> 0%N -> (n < table_size nt)%N ->
    F n = if Nat.eqb (popcount n) 1 then p_leaf m tt n
          else if conn n then relax_all p_init (p_relax m) conn tt F n else [].
  Proof. apply (solve_char (p_leaf m) p_init (p_relax m) p_finalize [] conn); auto. Qed.

  (** the point built from the trees [tl], [tr] of the two parts *)
  Lemma p_point_tree n lp rp li l ri r tl tr :
    (n < table_size nt)%N -> n <> 0%N -> conn n = true -> valid conn n lp rp ->
    Permutation (leaves tl) (nbits lp) -> Permutation (leaves tr) (nbits rp) ->
    let e := p_point m n lp rp li l ri r in
    let cand a b pa pb := zmax3 (leafsum (o_size o net) (leaves b) + pa) (o_size o net (leaves a) + pb)
           (o_size o net (leaves a) + o_size o net (leaves b) + o_size o net (leaves a ++ leaves b)) in
    p_peak e = Z.min (cand tl tr (p_peak l) (p_peak r)) (cand tr tl (p_peak r) (p_peak l)) /\
    p_lp_first e = Z.leb (cand tl tr (p_peak l) (p_peak r)) (cand tr tl (p_peak r) (p_peak l)) /\
    p_flops e = (p_flops l + p_flops r + o_work o net (leaves tl) (leaves tr))%Z.
  Proof.
    intros Hlt Hn Hc V Pl Pr. cbn zeta. pose proof (valid_lt _ _ _ _ V) as (Ll & Lr).
    unfold p_point. cbn [p_peak p_lp_first p_flops].
    rewrite (pm_flops_ok n lp rp) by auto. destruct V as (Hs & Hl & Hr & Cl & Cr).
    assert (N.lor lp rp = n).
    { apply has_ext. intros i. rewrite has_lor. destruct (Hs i). tauto. }
    rewrite H. rewrite (pm_S_ok n), (pm_S_ok lp), (pm_S_ok rp), (pm_L_ok lp), (pm_L_ok rp) by (auto; lia).
    pose proof (splits_perm _ _ _ Hs) as Pn.
    assert (E1 : o_size o net (nbits n) = o_size o net (leaves tl ++ leaves tr)).
    { apply tensor_size_perm. rewrite Pn, Pl, Pr. auto. }
    assert (E2 : o_size o net (nbits n) = o_size o net (leaves tr ++ leaves tl)).
    { apply tensor_size_perm. rewrite Pn, Pl, Pr. apply Permutation_app_comm. }
    rewrite <- E1, <- E2.
    rewrite (work_perm o net _ _ _ _ Pl Pr).
    unfold o_size. rewrite (tensor_size_perm net _ _ _ Pl), (tensor_size_perm net _ _ _ Pr).
    rewrite (leafsum_perm _ _ _ Pl), (leafsum_perm _ _ _ Pr).
    replace (tensor_size net (po_vol o) (nbits rp) + tensor_size net (po_vol o) (nbits lp))%Z
      with (tensor_size net (po_vol o) (nbits lp) + tensor_size net (po_vol o) (nbits rp))%Z by lia.
    auto.
  Qed.

  Lemma p_table n : n <> 0%N -> (n < table_size nt)%N -> conn n = true ->
    (forall i e, nth_error (F n) i = Some e ->
       exists t, Permutation (leaves t) (nbits n) /\ conn_tree conn t /\
         P t = p_peak e /\ W t = p_flops e /\
         forall fuel, popcount n <= fuel -> p_build F fuel n i = Some (postfix t)) /\
    (forall t, Permutation (leaves t) (nbits n) -> conn_tree conn t ->
       exists i e, nth_error (F n) i = Some e /\ (p_peak e <= P t)%Z /\ (p_flops e <= W t)%Z).
  Proof.
    pose proof (opc_splittable net [] (po_prune o)) as Sp. fold conn in Sp. fold nt in Sp.
    induction (N.lt_wf_0 n) as [n _ IH]. intros Hn Hlt Hc.
    pose proof (p_char n Hn Hlt) as Char.
    destruct (Nat.eqb_spec (popcount n) 1) as [Hp|Hp].
    - rewrite Char. split.
      + intros i e He. unfold p_leaf in He. destruct i as [|i]; [|destruct i; discriminate].
        cbn [nth_error] in He. assert (Ee : e = mkFP (pm_S m n) 0 0 0 true 0 0) by congruence. rewrite Ee. exists (Leaf (countr_zero n)).
        cbn [leaves]. rewrite <- (ctz_single n Hp). split; auto. split; [exact I|]. split.
        * unfold P. cbn [ptree p_peak]. rewrite pm_S_ok by auto. rewrite (ctz_single n Hp). reflexivity.
        * split; [reflexivity|]. intros fuel Hf. destruct fuel as [|fuel]; [lia|].
          cbn [p_build]. rewrite Hp. reflexivity.
      + intros t Pt _. exists 0, (mkFP (pm_S m n) 0 0 0 true 0 0). split; [reflexivity|]. cbn [p_peak p_flops].
        assert (Lt : length (leaves t) = 1) by (rewrite (Permutation_length Pt), nbits_length; auto).
        destruct (tree_len1 t Lt) as (i & ->). unfold P, W. cbn [ptree tree_work].
        rewrite pm_S_ok by auto. split; [|lia]. cbn [leaves] in Pt.
        unfold o_size. rewrite <- (tensor_size_perm net _ _ _ Pt). lia.
    - rewrite Hc in Char.
      assert (Hp2 : 2 <= popcount n) by (pose proof (popcount_pos n Hn); lia).
      assert (Hpc : popcount n < 64) by (pose proof (popcount_bound _ _ Hlt); lia).
      destruct (p_relax_all_spec m conn tt F n Hn Hpc) as (Snd & Cmp). rewrite <- Char in Snd, Cmp.
      split.
      + intros i e He. destruct (Snd e (nth_error_In _ _ He)) as (lp & rp & li & l & ri & r & V & Hl & Hr & ->).
        pose proof (valid_lt _ _ _ _ V) as (Ll & Lr). pose proof V as (Hs & Nl & Nr & Cl & Cr).
        destruct (IH lp Ll Nl ltac:(lia) Cl) as (Sl & _). destruct (IH rp Lr Nr ltac:(lia) Cr) as (Sr & _).
        destruct (Sl li l Hl) as (tl & Pl & Tl & El & Wl & Bl).
        destruct (Sr ri r Hr) as (tr & Pr & Tr & Er & Wr & Br).
        destruct (p_point_tree n lp rp li l ri r tl tr Hlt Hn Hc V Pl Pr) as (Q1 & Q2 & Q3).
        pose proof (splits_perm _ _ _ Hs) as Pn.
        remember (p_lp_first (p_point m n lp rp li l ri r)) as b eqn:Eb0.
        set (t := if b then Node tl tr else Node tr tl).
        assert (Pt : Permutation (leaves t) (nbits n)).
        { unfold t. rewrite Pn. destruct b; cbn [leaves]; rewrite Pl, Pr; [auto|apply Permutation_app_comm]. }
        exists t. split; auto. split; [|split; [|split]].
        * apply perm_nbits_mask in Pt. unfold t in *. destruct b; cbn [conn_tree leaves] in *; rewrite <- Pt; auto.
        * rewrite Q1. rewrite <- El, <- Er. rewrite <- El, <- Er in Q2. unfold t. rewrite Q2. unfold P.
          destruct (Z.leb _ _) eqn:Eb.
          -- apply Z.leb_le in Eb. cbn [ptree]. rewrite Z.min_l by exact Eb. reflexivity.
          -- apply Z.leb_gt in Eb. cbn [ptree]. rewrite Z.min_r by (apply Z.lt_le_incl; exact Eb). reflexivity.
        * rewrite Q3, <- Wl, <- Wr. unfold t, W. destruct b; cbn [tree_work]; [lia|].
          rewrite (work_sym o net (leaves tr) (leaves tl)). lia.
        * intros fuel Hf. destruct fuel as [|fuel]; [lia|]. cbn [p_build].
          rewrite (proj2 (Nat.eqb_neq _ _) Hp), He.
          assert (popcount lp < popcount n /\ popcount rp < popcount n) as (Kl & Kr).
          { apply Permutation_length in Pn. rewrite app_length, !nbits_length in Pn.
            pose proof (popcount_pos lp Nl). pose proof (popcount_pos rp Nr). lia. }
          unfold t. rewrite <- Eb0. change (p_lp (p_point m n lp rp li l ri r)) with lp.
          change (p_rp (p_point m n lp rp li l ri r)) with rp.
          change (p_lp_idx (p_point m n lp rp li l ri r)) with li.
          change (p_rp_idx (p_point m n lp rp li l ri r)) with ri.
          clear Q2 Eb0 t Pt. destruct b; rewrite Bl, Br by lia; reflexivity.
      + intros t Pt CT. destruct t as [i|tl tr].
        { exfalso. apply Permutation_length in Pt. rewrite nbits_length in Pt. cbn in Pt. lia. }
        destruct (node_split n tl tr Pt) as (Hs & Nl & Nr & Pl & Pr).
        cbn [conn_tree] in CT. destruct CT as (_ & CTl & CTr).
        set (lp := mask_of (leaves tl)) in *. set (rp := mask_of (leaves tr)) in *.
        assert (V : valid conn n lp rp).
        { repeat split; auto; try apply Hs; eapply conn_tree_root; eauto. }
        pose proof (valid_lt _ _ _ _ V) as (Ll & Lr). pose proof V as (_ & _ & _ & Cl & Cr).
        destruct (IH lp Ll Nl ltac:(lia) Cl) as (_ & Ml). destruct (IH rp Lr Nr ltac:(lia) Cr) as (_ & Mr).
        destruct (Ml tl Pl CTl) as (li & l & Hl & D1 & D2). destruct (Mr tr Pr CTr) as (ri & r & Hr & D3 & D4).
        assert (Goal' : forall e, dom e (p_point m n lp rp li l ri r) \/ dom e (p_point m n rp lp ri r li l) ->
           (p_peak e <= P (Node tl tr))%Z /\ (p_flops e <= W (Node tl tr))%Z).
        { intros e [(E1 & E2)|(E1 & E2)].
          - destruct (p_point_tree n lp rp li l ri r tl tr Hlt Hn Hc V Pl Pr) as (Q1 & _ & Q3).
            rewrite Q1 in E1. rewrite Q3 in E2. unfold P, W in *. cbn [ptree tree_work].
            split; [|lia]. unfold zmax3 in *. lia.
          - destruct (p_point_tree n rp lp ri r li l tr tl Hlt Hn Hc (valid_sym _ _ _ _ V) Pr Pl) as (Q1 & _ & Q3).
            rewrite Q1 in E1. rewrite Q3 in E2. unfold P, W in *. cbn [ptree tree_work].
            rewrite (work_sym o net (leaves tr)) in E2. split; [|lia]. unfold zmax3 in *. lia. }
        destruct (bips_complete conn n lp rp Hn Hpc V) as (a & b & Hin & Hg & Hab).
        destruct Hab as [(-> & ->)|(-> & ->)].
        * destruct (Cmp _ _ li l ri r Hin Hg Hl Hr) as (e & He & De).
          apply In_nth_error in He as (i & He). exists i, e. split; auto.
        * destruct (Cmp _ _ ri r li l Hin Hg Hr Hl) as (e & He & De).
          apply In_nth_error in He as (i & He). exists i, e. split; auto.
  Qed.
End PTable.

(* ---------- selection ---------- *)
Lemma min_peak_spec f : f <> [] ->
  exists mp, min_peak f = Some mp /\ (forall e, In e f -> (mp <= p_peak e)%Z) /\ exists e, In e f /\ p_peak e = mp.
Proof.
  intros Hf. unfold min_peak.
  assert (G : forall l a, 
    let r := fold_left (fun a e => match a with None => Some (p_peak e) | Some z => Some (Z.min z (p_peak e)) end) l (Some a) in
    exists mp, r = Some mp /\ (mp <= a)%Z /\ (forall e, In e l -> (mp <= p_peak e)%Z) /\ (mp = a \/ exists e, In e l /\ p_peak e = mp)).
  { induction l as [|e l IH]; cbn [fold_left]; intros a.
    - exists a. repeat split; auto; [lia|]. intros ? [].
    - destruct (IH (Z.min a (p_peak e))) as (mp & E & H1 & H2 & H3). exists mp. split; auto. split; [lia|]. split.
      + intros e' [<-|H]; [lia|auto].
      + destruct H3 as [H3|(e' & H3 & H4)].
        * destruct (Z.le_ge_cases a (p_peak e)); [left; lia|right; exists e; split; [left; auto|lia]].
        * right. exists e'. split; [right|]; auto. }
  destruct f as [|e f]; [contradiction|]. cbn [fold_left].
  destruct (G f (p_peak e)) as (mp & E & H1 & H2 & H3). exists mp. split; auto. split.
  - intros e' [<-|H]; auto.
  - destruct H3 as [->|(e' & H3 & H4)]; [exists e; split; [left|]; auto|exists e'; split; [right|]; auto].
Qed.

Lemma p_select_spec num den f : f <> [] -> (0 <= num)%Z -> (0 < den)%Z -> (forall e, In e f -> (0 <= p_peak e)%Z) ->
  exists mp i e, min_peak f = Some mp /\ p_select num den f = Some i /\ nth_error f i = Some e /\
    (p_peak e * den <= mp * (den + num))%Z /\
    (forall e', In e' f -> (p_peak e' * den <= mp * (den + num))%Z ->
       (p_flops e < p_flops e')%Z \/ (p_flops e = p_flops e' /\ (p_peak e <= p_peak e')%Z)).
Proof.
  intros Hf Hnum Hden Hpos. destruct (min_peak_spec f Hf) as (mp & E & Hmin & em & Hem & Eem).
  unfold p_select. rewrite E.
  set (within := fun e => Z.leb (p_peak e * den) (mp * (den + num))).
  set (step := fun best ie => _).
  set (better := fun a b : FP => (p_flops a < p_flops b)%Z \/ (p_flops a = p_flops b /\ (p_peak a <= p_peak b)%Z)).
  assert (G : forall l best, (forall i e, In (i, e) l -> nth_error f i = Some e) ->
    (forall b, best = Some b -> exists eb, nth_error f b = Some eb /\ within eb = true) ->
    let r := fold_left step l best in
    (forall b, r = Some b -> exists eb, nth_error f b = Some eb /\ within eb = true /\
      (forall i e, In (i, e) l -> within e = true -> better eb e) /\
      (forall b0 e0, best = Some b0 -> nth_error f b0 = Some e0 -> better eb e0)) /\
    (r = None -> best = None /\ forall i e, In (i, e) l -> within e = false)).
  { induction l as [|(i & e) l IH]; cbn [fold_left]; intros best Hl Hb.
    - split.
      + intros b ->. destruct (Hb b eq_refl) as (eb & H1 & H2). exists eb. repeat split; auto.
        * intros ? ? [].
        * intros b0 e0 E0 H0. injection E0 as <-. rewrite H1 in H0. injection H0 as <-. right. lia.
      + intros ->. split; auto. intros ? ? [].
    - assert (Hl' : forall i0 e0, In (i0, e0) l -> nth_error f i0 = Some e0) by (intros; apply Hl; right; auto).
      pose proof (Hl i e (or_introl eq_refl)) as Hi.
      assert (St : exists best', step best (i, e) = best' /\
        (forall b, best' = Some b -> exists eb, nth_error f b = Some eb /\ within eb = true) /\
        (within e = true -> exists b eb, best' = Some b /\ nth_error f b = Some eb /\ better eb e) /\
        (forall b0 e0, best = Some b0 -> nth_error f b0 = Some e0 -> exists b eb, best' = Some b /\ nth_error f b = Some eb /\ better eb e0) /\
        (best' = None -> best = None /\ within e = false)).
      { eexists. split; [reflexivity|]. unfold step. fold (within e). destruct (within e) eqn:Ew.
        - destruct best as [b|].
          + destruct (Hb b eq_refl) as (eb & H1 & H2). rewrite H1.
            destruct (Z.ltb (p_flops e) (p_flops eb) || (Z.eqb (p_flops e) (p_flops eb) && Z.ltb (p_peak e) (p_peak eb))) eqn:Ec.
            * rewrite orb_true_iff, andb_true_iff, !Z.ltb_lt, Z.eqb_eq in Ec. repeat split; try discriminate.
              -- intros b' E'. injection E' as <-. eauto.
              -- intros _. exists i, e. repeat split; auto. right. lia.
              -- intros b0 e0 E0 H0. injection E0 as <-. rewrite H1 in H0. injection H0 as <-.
                 exists i, e. repeat split; auto. unfold better. lia.
            * rewrite orb_false_iff, andb_false_iff, !Z.ltb_ge, Z.eqb_neq in Ec. repeat split; try discriminate.
              -- intros b' E'. injection E' as <-. eauto.
              -- intros _. exists b, eb. repeat split; auto. unfold better. lia.
              -- intros b0 e0 E0 H0. injection E0 as <-. rewrite H1 in H0. injection H0 as <-.
                 exists b, eb. repeat split; auto. right. lia.
          + repeat split; try discriminate.
            * intros b' E'. injection E' as <-. eauto.
            * intros _. exists i, e. repeat split; auto. right. lia.
        - repeat split; auto; try discriminate.
          intros b0 e0 E0 H0. exists b0, e0. repeat split; auto. right. lia. }
      destruct St as (best' & -> & S1 & S2 & S3 & S4).
      destruct (IH best' Hl' S1) as (I1 & I2). split.
      + intros b Eb. destruct (I1 b Eb) as (eb & H1 & H2 & H3 & H4). exists eb. repeat split; auto.
        * intros i' e' [Eq|Hin] Hw; [|eauto]. injection Eq as <- <-.
          destruct (S2 Hw) as (b1 & e1 & K1 & K2 & K3). specialize (H4 _ _ K1 K2). unfold better in *. lia.
        * intros b0 e0 E0 H0. destruct (S3 _ _ E0 H0) as (b1 & e1 & K1 & K2 & K3). specialize (H4 _ _ K1 K2).
          unfold better in *. lia.
      + intros En. destruct (I2 En) as (H1 & H2). destruct (S4 H1) as (H3 & H4). split; auto.
        intros i' e' [Eq|Hin]; [injection Eq as <- <-; auto|eauto]. }
  destruct (G (enumerate f) None) as (G1 & G2).
  - intros i e H. apply enumerate_In. auto.
  - discriminate.
  - set (r := fold_left step (enumerate f) None) in *.
    destruct r as [b|] eqn:Er.
    + destruct (G1 b eq_refl) as (eb & H1 & H2 & H3 & _). exists mp, b, eb. repeat split; auto.
      * apply Z.leb_le. exact H2.
      * intros e' He' Hw. apply In_nth_error in He' as (i & He').
        apply (H3 i e'); [apply enumerate_In; auto|]. apply Z.leb_le. auto.
    + exfalso. destruct (G2 eq_refl) as (_ & H). apply In_nth_error in Hem as (i & Hi).
      specialize (H i em (proj2 (enumerate_In _ _ _) Hi)). unfold within in H. apply Z.leb_gt in H.
      assert (0 <= p_peak em)%Z by (apply Hpos; eapply nth_error_In; eauto). nia.
Qed.

Lemma tensor_size_nonneg net vol A : (forall ixs, (0 <= vol ixs)%Z) -> (0 <= tensor_size net vol A)%Z.
Proof. intros H. unfold tensor_size. destruct (Z.eqb _ 1); [lia|auto]. Qed.

Lemma p_run_conn o net s :
  (forall ixs, (0 <= po_vol o ixs)%Z) -> (0 <= po_num o)%Z -> (0 < po_den o)%Z ->
  1 <= length net <= 24 ->
  let conn := outer_product_connectivity net [] (po_prune o) in
  p_run o net [] = Some s ->
  exists t, s = postfix t /\ denotes s t /\ over (length net) t /\ (3 <= length net -> conn_tree conn t) /\
    (forall t', over (length net) t' -> conn_tree conn t' ->
       (peak (o_size o net) s * po_den o <= peak (o_size o net) (postfix t') * (po_den o + po_num o))%Z) /\
    (forall t', over (length net) t' -> conn_tree conn t' ->
       (forall t'', over (length net) t'' -> conn_tree conn t'' ->
          (peak (o_size o net) (postfix t') * po_den o <= peak (o_size o net) (postfix t'') * (po_den o + po_num o))%Z) ->
       (tree_work (o_work o net) t <= tree_work (o_work o net) t')%Z).
Proof.
  intros Hvol Hnum Hden Hlen conn H.
  assert (Snn : forall A, (0 <= o_size o net A)%Z) by (intros; apply tensor_size_nonneg; auto).
  destruct (le_lt_dec 3 (length net)) as [H3|H3].
  - unfold p_run in H.
    destruct (Nat.eqb_spec (length net) 0); [lia|].
    destruct (Nat.eqb_spec (length net) 1); [lia|].
    destruct (Nat.eqb_spec (length net) 2); [lia|].
    destruct (Nat.leb_spec (length net) max_tensors) as [H24|]; [|discriminate].
    unfold max_tensors in *. cbn [negb] in H. unfold p_reconstruct in H.
    fold (full (length net)) in H. fold conn in H.
    set (F := p_solve (p_model o net []) conn (length net)) in *.
    assert (Hc : conn (full (length net)) = true) by apply opc_splittable.
    destruct (p_table o net ltac:(lia) (full (length net))) as (Snd & Cmp); auto.
    { apply full_nonzero. lia. } { apply full_lt. }
    fold conn in Snd, Cmp. fold F in Snd, Cmp. rewrite nbits_full in Snd, Cmp.
    assert (PkEq : forall t, peak (o_size o net) (postfix t) = ptree (o_size o net) t) by (intros; apply peak_postfix; auto).
    assert (Pnn : forall t, (0 <= ptree (o_size o net) t)%Z).
    { intros t. pose proof (ptree_ge _ Snn t). pose proof (Snn (leaves t)). lia. }
    destruct (p_select (po_num o) (po_den o) (F (full (length net)))) as [b|] eqn:Es; [|discriminate].
    assert (Fne : F (full (length net)) <> []).
    { intros E. rewrite E in Es. discriminate. }
    destruct (p_select_spec (po_num o) (po_den o) (F (full (length net)))) as (mp & i & e & Emp & Ei & He & Hw & Hbest); auto.
    { intros e He. apply In_nth_error in He as (i & He). destruct (Snd i e He) as (t & _ & _ & <- & _). apply Pnn. }
    rewrite Ei in Es. injection Es as ->.
    destruct (Snd b e He) as (t & Pt & CT & Ep & Ew & Bld).
    rewrite Bld in H.
    2:{ pose proof (popcount_bound _ _ (full_lt (length net))). lia. }
    injection H as <-. exists t. split; auto. split; [apply denotes_postfix|]. split; [exact Pt|]. split; auto.
    destruct (min_peak_spec _ Fne) as (mp' & Emp' & Hmin & _). rewrite Emp in Emp'. injection Emp' as <-.
    assert (MinAll : forall t', over (length net) t' -> conn_tree conn t' -> (mp <= ptree (o_size o net) t')%Z).
    { intros t' O' CT'. destruct (Cmp t' O' CT') as (i' & e' & He' & D1 & _).
      specialize (Hmin e' (nth_error_In _ _ He')). lia. }
    split.
    + intros t' O' CT'. rewrite !PkEq, Ep. specialize (MinAll t' O' CT'). nia.
    + intros t' O' CT' Hmin'. destruct (Cmp t' O' CT') as (i' & e' & He' & D1 & D2).
      rewrite Ew. destruct (Hbest e' (nth_error_In _ _ He')) as [|]; [|lia|lia].
      destruct (min_peak_spec _ Fne) as (mp'' & Emp'' & _ & em & Hem & Eem).
      rewrite Emp in Emp''. injection Emp'' as <-.
      apply In_nth_error in Hem as (im & Hem). destruct (Snd im em Hem) as (tm & Ptm & CTm & Epm & _).
      specialize (Hmin' tm Ptm CTm). rewrite !PkEq, Epm, Eem in Hmin'. nia.
  - unfold p_run in H.
    destruct (Nat.eqb_spec (length net) 0); [discriminate|].
    destruct (Nat.eqb_spec (length net) 1) as [E|].
    + injection H as <-. exists (Leaf 0). rewrite E. split; [auto|]. split; [reflexivity|].
      split; [unfold over; cbn; auto|]. split; [lia|]. split.
      * intros t' O' _. rewrite (over_1 t' O'). change [0%Z] with (postfix (Leaf 0)). rewrite !peak_postfix by auto.
        pose proof (ptree_ge _ Snn (Leaf 0)). pose proof (Snn (leaves (Leaf 0))). nia.
      * intros t' O' _ _. rewrite (over_1 t' O'). lia.
    + destruct (Nat.eqb_spec (length net) 2) as [E|]; [|lia].
      injection H as <-. exists (Node (Leaf 0) (Leaf 1)). rewrite E. split; [auto|]. split; [reflexivity|].
      split; [unfold over; cbn; auto|]. split; [lia|]. split.
      * intros t' O' _. change [0; 1; -1]%Z with (postfix (Node (Leaf 0) (Leaf 1))). rewrite !peak_postfix by auto.
        assert (ptree (o_size o net) t' = ptree (o_size o net) (Node (Leaf 0) (Leaf 1))).
        { destruct (over_2 t' O') as [->| ->]; auto. cbn. unfold zmax3, o_size.
          rewrite (tensor_size_perm net _ [1; 0] [0; 1]) by apply perm_swap. lia. }
        rewrite H. pose proof (ptree_ge _ Snn (Node (Leaf 0) (Leaf 1))). pose proof (Snn (leaves (Node (Leaf 0) (Leaf 1)))). nia.
      * intros t' O' _ _. destruct (over_2 t' O') as [->| ->]; [lia|]. cbn [tree_work leaves].
        rewrite (work_sym o net [1] [0]). lia.
Qed.

Lemma p_run_defined o net : 
  (forall ixs, (0 <= po_vol o ixs)%Z) -> (0 <= po_num o)%Z -> (0 < po_den o)%Z ->
  1 <= length net <= 24 -> exists s, p_run o net [] = Some s.
Proof.
  intros Hvol Hnum Hden Hlen. unfold p_run.
  destruct (Nat.eqb_spec (length net) 0); [lia|].
  destruct (Nat.eqb_spec (length net) 1); [eauto|].
  destruct (Nat.eqb_spec (length net) 2); [eauto|].
  destruct (Nat.leb_spec (length net) max_tensors) as [H24|]; [|unfold max_tensors in *; lia].
  cbn [negb]. unfold p_reconstruct. fold (full (length net)).
  set (conn := outer_product_connectivity net [] (po_prune o)).
  set (F := p_solve (p_model o net []) conn (length net)).
  assert (Snn : forall A, (0 <= o_size o net A)%Z) by (intros; apply tensor_size_nonneg; auto).
  assert (Hc : conn (full (length net)) = true) by apply opc_splittable.
  destruct (p_table o net ltac:(lia) (full (length net))) as (Snd & Cmp); auto.
  { apply full_nonzero. lia. } { apply full_lt. }
  fold conn in Snd, Cmp. fold F in Snd, Cmp.
  (* the table is not empty: it covers the tree found by the additive search *)
  assert (Fne : F (full (length net)) <> []).
  { set (ao := mkAO (fun _ _ _ => 0%Z) (fun _ => 0%Z) 0 0 0 false (fun _ => 0) (po_prune o)).
    destruct (a_run_defined ao net []) as (s & Es); [lia|].
    destruct (a_run_big ao net [] s Es ltac:(lia)) as (_ & t & R & _).
    assert (Ok : forall n3, (n3 < table_size (length net))%N -> 2 <= popcount n3 -> conn n3 = true ->
        okA conn n3 (a_solve (a_model ao net []) conn (length net) n3)).
    { intros. apply a_solve_ok; auto; [unfold max_tensors in *; lia|]. apply opc_splittable. }
    destruct (recorded_leaves _ _ _ Ok _ _ (full_lt _) Hc R) as (P & _).
    destruct (Cmp t P) as (i & e & He & _).
    - eapply recorded_conn_tree; [exact Ok|apply full_lt|exact Hc|exact R].
    - intros E. rewrite E in He. destruct i; discriminate. }
  destruct (p_select_spec (po_num o) (po_den o) (F (full (length net)))) as (mp & i & e & _ & Ei & He & _); auto.
  { intros e He. apply In_nth_error in He as (i & He). destruct (Snd i e He) as (t & _ & _ & <- & _).
    pose proof (ptree_ge _ Snn t). pose proof (Snn (leaves t)). lia. }
  rewrite Ei. destruct (Snd i e He) as (t & _ & _ & _ & _ & B). rewrite B; eauto.
  pose proof (popcount_bound _ _ (full_lt (length net))). lia.
Qed.
