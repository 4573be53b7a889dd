From Coq Require Import NArith List Arith Lia Bool Sorted.
From Verif Require Import Bits_Model Bits_Spec.
Import ListNotations.
Local Open Scope N_scope.

(* ---------- bits through doubling ---------- *)
Lemma tb_double0 m : N.testbit (N.double m) 0 = false.
Proof. destruct m; reflexivity. Qed.
Lemma tb_sdouble0 m : N.testbit (N.succ_double m) 0 = true.
Proof. destruct m; reflexivity. Qed.
Lemma tb_doubleS m i : N.testbit (N.double m) (N.succ i) = N.testbit m i.
Proof. rewrite N.double_spec. apply N.testbit_even_succ. apply N.le_0_l. Qed.
Lemma tb_sdoubleS m i : N.testbit (N.succ_double m) (N.succ i) = N.testbit m i.
Proof. rewrite N.succ_double_spec. apply N.testbit_odd_succ. apply N.le_0_l. Qed.

Lemma has_double0 m : has (N.double m) 0 <-> False.
Proof. unfold has. cbn [N.of_nat]. rewrite tb_double0. split; [discriminate|tauto]. Qed.
Lemma has_sdouble0 m : has (N.succ_double m) 0 <-> True.
Proof. unfold has. cbn [N.of_nat]. rewrite tb_sdouble0. tauto. Qed.
Lemma has_doubleS m i : has (N.double m) (S i) <-> has m i.
Proof. unfold has. rewrite Nat2N.inj_succ, tb_doubleS. tauto. Qed.
Lemma has_sdoubleS m i : has (N.succ_double m) (S i) <-> has m i.
Proof. unfold has. rewrite Nat2N.inj_succ, tb_sdoubleS. tauto. Qed.
Lemma has_zero i : has 0 i <-> False.
Proof. unfold has. rewrite N.bits_0. split; [discriminate|tauto]. Qed.

Lemma has_ext a b : (forall i, has a i <-> has b i) -> a = b.
Proof.
  intros H. apply N.bits_inj. intros n. specialize (H (N.to_nat n)). unfold has in H.
  rewrite N2Nat.id in H.
  destruct (N.testbit a n), (N.testbit b n); intuition congruence.
Qed.

Lemma has_dec a i : has a i \/ ~ has a i.
Proof. unfold has. destruct (N.testbit a (N.of_nat i)); auto. Qed.

Lemma has_land a b i : has (N.land a b) i <-> has a i /\ has b i.
Proof. unfold has. rewrite N.land_spec, andb_true_iff. tauto. Qed.
Lemma has_lor a b i : has (N.lor a b) i <-> has a i \/ has b i.
Proof. unfold has. rewrite N.lor_spec, orb_true_iff. tauto. Qed.
Lemma has_ldiff a b i : has (N.ldiff a b) i <-> has a i /\ ~ has b i.
Proof.
  unfold has. rewrite N.ldiff_spec, andb_true_iff, negb_true_iff.
  destruct (N.testbit b (N.of_nat i)); intuition congruence.
Qed.
Lemma has_lxor a b i : has (N.lxor a b) i <-> (has a i /\ ~ has b i) \/ (~ has a i /\ has b i).
Proof.
  unfold has. rewrite N.lxor_spec.
  destruct (N.testbit a (N.of_nat i)), (N.testbit b (N.of_nat i)); cbn; intuition congruence.
Qed.
Lemma has_shiftl1 k i : has (N.shiftl 1 (N.of_nat k)) i <-> i = k.
Proof.
  unfold has. rewrite N.shiftl_1_l, N.pow2_bits_eqb, N.eqb_eq. lia.
Qed.

(* ---------- popcount ---------- *)
Lemma popcount_double m : popcount (N.double m) = popcount m.
Proof. destruct m; reflexivity. Qed.
Lemma popcount_sdouble m : popcount (N.succ_double m) = S (popcount m).
Proof. destruct m; reflexivity. Qed.

(** N induction by doubling *)
Lemma N_dbl_ind (P : N -> Prop) :
  P 0 -> (forall m, P m -> P (N.double m)) -> (forall m, P m -> P (N.succ_double m)) ->
  forall m, P m.
Proof. intros H0 H1 H2. apply N.binary_ind; auto. Qed.

(** Submasks in descending order, by recursion on the binary representation. *)
Fixpoint psubs (p : positive) : list N :=
  match p with
  | xH => [1; 0]
  | xO q => map N.double (psubs q)
  | xI q => flat_map (fun x => [N.succ_double x; N.double x]) (psubs q)
  end.
Definition subs (m : N) : list N := match m with N0 => [0] | Npos p => psubs p end.

Lemma subs_double m : subs (N.double m) = map N.double (subs m).
Proof. destruct m; reflexivity. Qed.
Lemma subs_sdouble m :
  subs (N.succ_double m) = flat_map (fun x => [N.succ_double x; N.double x]) (subs m).
Proof. destruct m; reflexivity. Qed.

Lemma subs_length m : length (subs m) = Nat.pow 2 (popcount m).
Proof.
  induction m using N_dbl_ind.
  - reflexivity.
  - rewrite subs_double, map_length, popcount_double. assumption.
  - rewrite subs_sdouble, popcount_sdouble. cbn [Nat.pow]. rewrite <- IHm.
    clear IHm. induction (subs m) as [|x l IH]; cbn [flat_map app length] in *; [reflexivity|]. lia.
Qed.

Lemma subset_of_double a m :
  subset_of a (N.double m) <-> exists b, a = N.double b /\ subset_of b m.
Proof.
  split.
  - intros H. exists (N.div2 a). split.
    + apply has_ext. intros [|i].
      * rewrite has_double0. split; [|tauto]. intros h. apply H in h. rewrite has_double0 in h. tauto.
      * rewrite has_doubleS. unfold has. rewrite N.div2_spec, N.shiftr_spec by apply N.le_0_l.
        rewrite Nat2N.inj_succ, N.add_1_r. tauto.
    + intros i h. specialize (H (S i)). rewrite has_doubleS in H. apply H.
      unfold has in *. rewrite N.div2_spec, N.shiftr_spec in h by apply N.le_0_l.
      rewrite Nat2N.inj_succ, <- N.add_1_r. exact h.
  - intros (b & -> & H) [|i]; rewrite ?has_double0, ?has_doubleS; auto. 
Qed.

Lemma subset_of_sdouble a m :
  subset_of a (N.succ_double m) <->
  exists b, (a = N.double b \/ a = N.succ_double b) /\ subset_of b m.
Proof.
  split.
  - intros H. exists (N.div2 a). split.
    + destruct a as [|[p|p|]]; cbn; auto.
    + intros i h. specialize (H (S i)). rewrite has_sdoubleS in H. apply H.
      unfold has in *. rewrite N.div2_spec, N.shiftr_spec in h by apply N.le_0_l.
      rewrite Nat2N.inj_succ, <- N.add_1_r. exact h.
  - intros (b & [-> | ->] & H) [|i]; rewrite ?has_sdouble0, ?has_doubleS, ?has_sdoubleS; auto.
Qed.

Lemma subs_In m a : In a (subs m) <-> subset_of a m.
Proof.
  revert a. induction m using N_dbl_ind; intros a.
  - cbn. split.
    + intros [<-|[]] i. auto.
    + intros H. left. apply has_ext. intros i. specialize (H i). rewrite has_zero in *. tauto.
  - rewrite subs_double, in_map_iff, subset_of_double.
    split; intros (b & H1 & H2); exists b; rewrite IHm in *; auto.
  - rewrite subs_sdouble, in_flat_map, subset_of_sdouble.
    split; intros (b & H1 & H2); exists b; rewrite IHm in *; cbn in *; intuition.
Qed.

Lemma subs_sorted m : StronglySorted N.gt (subs m).
Proof.
  induction m using N_dbl_ind.
  - repeat constructor.
  - rewrite subs_double. induction IHm as [|x l Hs IH Hf]; cbn; constructor; auto.
    rewrite Forall_forall in *. intros y Hy. apply in_map_iff in Hy as (z & <- & Hz).
    specialize (Hf z Hz). rewrite !N.double_spec. lia.
  - rewrite subs_sdouble. induction IHm as [|x l Hs IH Hf]; cbn [flat_map app]; [constructor|].
    rewrite Forall_forall in Hf.
    assert (K : Forall (fun y => N.double x > y)
       (flat_map (fun x0 : N => [N.succ_double x0; N.double x0]) l)).
    { rewrite Forall_forall. intros y Hy. apply in_flat_map in Hy as (z & Hz & Hy).
      specialize (Hf z Hz). cbn in Hy. rewrite N.double_spec.
      destruct Hy as [<-|[<-|[]]]; rewrite ?N.double_spec, ?N.succ_double_spec; lia. }
    constructor; [constructor; auto|].
    constructor; [pose proof (N.succ_double_spec x); pose proof (N.double_spec x); lia|].
    rewrite Forall_forall in *. intros y Hy. specialize (K y Hy). rewrite N.double_spec in K. rewrite N.succ_double_spec. lia.
Qed.

(** consecutive elements of [subs] are related by the code's step *)
Fixpoint chain (f : N -> N) (l : list N) : Prop :=
  match l with
  | [] => True
  | x :: l' => match l' with [] => True | y :: _ => y = f x /\ x <> 0 /\ chain f l' end
  end.

Definition step (m p : N) : N := N.land (p - 1) m.

Lemma step_double m q : q <> 0 -> step (N.double m) (N.double q) = N.double (step m q).
Proof.
  intros Hq. unfold step.
  replace (N.double q - 1) with (N.succ_double (q - 1)).
  2:{ rewrite N.double_spec, N.succ_double_spec. lia. }
  destruct (q - 1), m; cbn; auto. 
Qed.
Lemma step_sdouble_o m q : step (N.succ_double m) (N.succ_double q) = N.land (N.double q) (N.succ_double m).
Proof.
  unfold step. f_equal. rewrite N.double_spec, N.succ_double_spec. lia.
Qed.
Lemma land_double_sdouble a m : N.land (N.double a) (N.succ_double m) = N.double (N.land a m).
Proof. destruct a, m; cbn; auto. Qed.
Lemma step_sdouble_e m q : q <> 0 -> step (N.succ_double m) (N.double q) = N.succ_double (step m q).
Proof.
  intros Hq. unfold step.
  replace (N.double q - 1) with (N.succ_double (q - 1)).
  2:{ rewrite N.double_spec, N.succ_double_spec. lia. }
  destruct (q - 1), m; cbn; auto.
Qed.

Lemma land_subset a m : subset_of a m -> N.land a m = a.
Proof. intros H. apply has_ext. intros i. rewrite has_land. specialize (H i). tauto. Qed.

Lemma subs_chain m : chain (step m) (subs m).
Proof.
  induction m using N_dbl_ind.
  - cbn. auto.
  - rewrite subs_double. induction (subs m) as [|x [|y l] IH]; cbn [map]; [exact I|exact I|].
    destruct IHm as (Hy & Hx & IHm). specialize (IH IHm).
    split; [|split].
    + subst y. symmetry. apply step_double. auto.
    + intros E. apply Hx. destruct x; [reflexivity|discriminate].
    + cbn [tl]. apply IH.
  - rewrite subs_sdouble.
    assert (Hsub : forall x, In x (subs m) -> subset_of x m) by (intros; apply subs_In; auto).
    induction (subs m) as [|x [|y l] IH]; cbn [flat_map app]; [exact I| |].
    + split; [|split].
      * rewrite step_sdouble_o, land_double_sdouble, land_subset; auto. apply Hsub; left; auto.
      * destruct x; discriminate.
      * exact I.
    + destruct IHm as (Hy & Hx & IHm).
      assert (IH' := IH IHm (fun z Hz => Hsub z (or_intror Hz))). clear IH.
      split; [|split].
      * rewrite step_sdouble_o, land_double_sdouble, land_subset; auto. apply Hsub; left; auto.
      * destruct x; discriminate.
      * cbn [tl]. split; [|split].
        { rewrite step_sdouble_e by auto. subst y. reflexivity. }
        { intros E. apply Hx. destruct x; [reflexivity|discriminate]. }
        exact IH'.
Qed.

Lemma subs_head m : exists l, subs m = m :: l.
Proof.
  induction m using N_dbl_ind.
  - exists []. reflexivity.
  - destruct IHm as (l & E). rewrite subs_double, E. eexists. reflexivity.
  - destruct IHm as (l & E). rewrite subs_sdouble, E. eexists. reflexivity.
Qed.

Lemma bip_iter_chain w m l : forall p,
  chain (step m) (p :: l) ->
  bip_iter (length (p :: l)) w m p = map (fun b => (N.lxor b m, b)) (p :: l).
Proof.
  induction l as [|y l IH]; intros p H.
  - reflexivity.
  - destruct H as (Hy & Hp & H). cbn [length bip_iter map]. f_equal.
    unfold wdec. destruct (N.eqb_spec p 0); [contradiction|].
    fold (step m p). rewrite <- Hy. apply IH. exact H.
Qed.

Lemma bip_iter_eq w m :
  bip_iter (Nat.pow 2 (popcount m)) w m m = map (fun b => (N.lxor b m, b)) (subs m).
Proof.
  rewrite <- subs_length. destruct (subs_head m) as (l & E). 
  pose proof (subs_chain m) as C. rewrite E in *. apply bip_iter_chain. exact C.
Qed.

Lemma lxor_compl b m : subset_of b m -> splits m (N.lxor b m) b.
Proof.
  intros H i. rewrite has_lxor. specialize (H i). pose proof (has_dec b i). pose proof (has_dec m i). tauto.
Qed.

Lemma splits_compl m a b : splits m a b -> a = N.lxor b m /\ subset_of b m.
Proof.
  intros H. split.
  - apply has_ext. intros i. rewrite has_lxor. specialize (H i). pose proof (has_dec b i).
    pose proof (has_dec m i). tauto.
  - intros i. specialize (H i). tauto.
Qed.

(** complement reverses order on submasks: via a + b = m *)
Lemma compl_add b m : subset_of b m -> N.lxor b m + b = m.
Proof.
  intros H.
  assert (L : N.land (N.lxor b m) b = 0).
  { apply has_ext. intros i. rewrite has_land, has_lxor, has_zero. specialize (H i). tauto. }
  rewrite N.add_nocarry_lxor by exact L.
  rewrite N.lxor_comm, <- N.lxor_assoc, N.lxor_nilpotent, N.lxor_0_l. reflexivity.
Qed.

Lemma sorted_compl m l :
  (forall x, In x l -> subset_of x m) ->
  StronglySorted N.gt l -> StronglySorted N.lt (map (fun b => N.lxor b m) l).
Proof.
  intros Hs S. induction S as [|x l S IH F]; cbn; constructor.
  - apply IH. intros; apply Hs; right; auto.
  - rewrite Forall_forall in *. intros y Hy. apply in_map_iff in Hy as (z & <- & Hz).
    specialize (F z Hz). pose proof (compl_add x m (Hs x (or_introl eq_refl))).
    pose proof (compl_add z m (Hs z (or_intror Hz))). lia.
Qed.

Lemma bipartitions_ordered_ok w mask l :
  bipartitions_ordered w mask = Some l ->
  length l = Nat.pow 2 (popcount mask) /\
  (forall a b, In (a, b) l <-> splits mask a b) /\
  StronglySorted N.lt (map fst l) /\ StronglySorted N.gt (map snd l).
Proof.
  unfold bipartitions_ordered. destruct (Nat.ltb _ _); [|discriminate].
  intros E. injection E as <-. rewrite bip_iter_eq.
  split; [|split; [|split]].
  - rewrite map_length. apply subs_length.
  - intros a b. rewrite in_map_iff. split.
    + intros (x & E & Hx). injection E as <- <-. apply lxor_compl. apply subs_In. exact Hx.
    + intros H. apply splits_compl in H as (-> & H). exists b. split; auto. apply subs_In. exact H.
  - rewrite map_map. cbn. apply sorted_compl.
    + intros; apply subs_In; auto.
    + apply subs_sorted.
  - rewrite map_map. cbn. rewrite map_id. apply subs_sorted.
Qed.

Lemma bipartitions_ordered_defined w mask :
  (popcount mask < 64)%nat -> exists l, bipartitions_ordered w mask = Some l.
Proof.
  intros H. unfold bipartitions_ordered.
  destruct (Nat.ltb_spec (popcount mask) 64); [eauto|lia].
Qed.

(* ---------- unordered bipartitions ---------- *)
Lemma SS_app_lt {A} (R : A -> A -> Prop) l1 l2 x y :
  StronglySorted R (l1 ++ l2) -> In x l1 -> In y l2 -> R x y.
Proof.
  intros S. induction l1 as [|z l1 IH]; cbn in *; [tauto|].
  inversion S; subst. intros [->|Hx] Hy.
  - rewrite Forall_forall in H2. apply H2. apply in_or_app. auto.
  - auto.
Qed.

Lemma SS_NoDup_lt l : StronglySorted N.lt l -> NoDup l.
Proof.
  induction 1 as [|x l S IH F]; constructor; auto.
  intros Hx. rewrite Forall_forall in F. specialize (F x Hx). lia.
Qed.

(** A strictly increasing list is determined by its set of elements. *)
Lemma SS_lt_ext l1 : forall l2,
  StronglySorted N.lt l1 -> StronglySorted N.lt l2 ->
  (forall x, In x l1 <-> In x l2) -> l1 = l2.
Proof.
  induction l1 as [|a l1 IH]; intros l2 S1 S2 E.
  - destruct l2 as [|b l2]; auto. destruct (proj2 (E b)); left; auto.
  - destruct l2 as [|b l2]. { destruct (proj1 (E a)); left; auto. }
    inversion S1 as [|? ? S1' F1]; subst. inversion S2 as [|? ? S2' F2]; subst.
    rewrite Forall_forall in F1, F2.
    assert (a = b).
    { destruct (proj1 (E a) (or_introl eq_refl)) as [|Ha]; auto.
      destruct (proj2 (E b) (or_introl eq_refl)) as [|Hb]; auto.
      specialize (F1 b Hb). specialize (F2 a Ha). lia. }
    subst b. f_equal. apply IH; auto.
    intros x. split; intros Hx.
    + destruct (proj1 (E x) (or_intror Hx)) as [<-|]; auto. specialize (F1 a Hx). lia.
    + destruct (proj2 (E x) (or_intror Hx)) as [<-|]; auto. specialize (F2 a Hx). lia.
Qed.

Lemma SS_rev l : StronglySorted N.gt l -> StronglySorted N.lt (rev l).
Proof.
  induction 1 as [|x l S IH F]; cbn; [constructor|].
  rewrite Forall_forall in F.
  assert (G : forall l2, StronglySorted N.lt l2 -> (forall y, In y l2 -> y < x) ->
     StronglySorted N.lt (l2 ++ [x])).
  { induction l2 as [|z l2 IH2]; cbn; intros S2 F2; [repeat constructor|].
    inversion S2; subst. constructor; [apply IH2; auto|].
    rewrite Forall_forall in *. intros y Hy. apply in_app_or in Hy as [Hy|[<-|[]]]; auto. }
  apply G; auto. intros y Hy. apply in_rev in Hy. specialize (F y Hy). lia.
Qed.

Lemma splits_sym m a b : splits m a b <-> splits m b a.
Proof. unfold splits. split; intros H i; specialize (H i); tauto. Qed.

(** the ordered list reversed is the list of swapped pairs *)
Lemma ordered_rev w mask l :
  bipartitions_ordered w mask = Some l -> rev l = map flip l.
Proof.
  intros E. destruct (bipartitions_ordered_ok w mask l E) as (Hl & Hin & S1 & S2).
  assert (F : map snd (rev l) = map snd (map flip l)).
  { apply SS_lt_ext.
    - rewrite map_rev. apply SS_rev. exact S2.
    - rewrite map_map. exact S1.
    - intros x. rewrite map_map, map_rev, <- in_rev, !in_map_iff. cbn. split.
      + intros ((a & b) & <- & H). exists (b, a). split; auto. apply Hin, splits_sym, Hin, H.
      + intros ((a & b) & <- & H). exists (b, a). split; auto. apply Hin, splits_sym, Hin, H. }
  assert (G : forall l1 l2 : list (N * N), map snd l1 = map snd l2 ->
     (forall a b, In (a, b) l1 -> splits mask a b) -> (forall a b, In (a, b) l2 -> splits mask a b) ->
     l1 = l2).
  { induction l1 as [|(a & b) l1 IH]; intros [|(a' & b') l2]; cbn; try discriminate; auto.
    intros E' H1 H2. injection E' as <- E'. f_equal; auto.
    destruct (splits_compl _ _ _ (H1 a b (or_introl eq_refl))) as (-> & _).
    destruct (splits_compl _ _ _ (H2 a' b (or_introl eq_refl))) as (-> & _). reflexivity. }
  apply G; auto.
  - intros a b H. apply Hin. apply in_rev. exact H.
  - intros a b H. apply in_map_iff in H as ((c & d) & H1 & H2). injection H1 as <- <-.
    apply splits_sym. apply Hin. exact H2.
Qed.

Lemma popcount_pos m : m <> 0 -> (0 < popcount m)%nat.
Proof.
  destruct m as [|p]; [contradiction|intros _]. cbn. induction p; cbn; lia.
Qed.

Lemma bipartitions_ok w mask l :
  mask <> 0 -> bipartitions w mask = Some l ->
  NoDup l /\
  (forall a b, In (a, b) l -> splits mask a b) /\
  (forall a b, splits mask a b -> (In (a, b) l \/ In (b, a) l) /\ ~ (In (a, b) l /\ In (b, a) l)).
Proof.
  intros Hm. unfold bipartitions, bipartitions_unordered.
  destruct (bipartitions_ordered w mask) as [o|] eqn:E; [|discriminate].
  intros El. injection El as <-.
  destruct (bipartitions_ordered_ok _ _ _ E) as (Hl & Hin & S1 & S2).
  pose proof (ordered_rev _ _ _ E) as R.
  pose proof (popcount_pos _ Hm) as Hp.
  set (k := Nat.div (length o) 2).
  assert (Hk : length o = (2 * k)%nat).
  { unfold k. rewrite Hl. destruct (popcount mask) as [|n]; [lia|].
    cbn [Nat.pow]. rewrite Nat.mul_comm, Nat.div_mul by lia. lia. }
  pose proof (firstn_skipn k o) as D.
  assert (Lh : length (firstn k o) = k) by (rewrite firstn_length; lia).
  assert (Lt : length (skipn k o) = k) by (rewrite skipn_length; lia).
  set (h := firstn k o) in *. set (t := skipn k o) in *.
  assert (Rt : rev t = map flip h).
  { rewrite <- D in R. rewrite rev_app_distr, map_app in R.
    apply (f_equal (firstn k)) in R.
    rewrite !firstn_app, rev_length, map_length, Lt, Lh, Nat.sub_diag in R. cbn [firstn] in R.
    rewrite !app_nil_r in R. rewrite !firstn_all2 in R; [|rewrite map_length; lia|rewrite rev_length; lia].
    exact R. }
  assert (Ht : forall a b, In (a, b) t <-> In (b, a) h).
  { intros a b. rewrite in_rev, Rt, in_map_iff. split.
    - intros ((c & d) & E1 & H). injection E1 as <- <-. exact H.
    - intros H. exists (b, a). auto. }
  split; [|split].
  - rewrite <- D in S1. rewrite map_app in S1.
    assert (N1 : NoDup (map fst h ++ map fst t)) by (apply SS_NoDup_lt; exact S1).
    assert (N2 : NoDup (map fst h)).
    { clear - N1. induction (map fst h) as [|x l IH]; [constructor|].
      cbn in N1. inversion N1; subst. constructor; auto. intros H. apply H1. apply in_or_app; auto. }
    apply NoDup_map_inv in N2. exact N2.
  - intros a b H. apply Hin. rewrite <- D. apply in_or_app. auto.
  - intros a b H. apply Hin in H. rewrite <- D in H. split.
    + apply in_app_or in H as [H|H]; auto. right. apply Ht. exact H.
    + intros (H1 & H2). apply Ht in H2.
      rewrite <- D, map_app in S1.
      pose proof (SS_app_lt N.lt _ _ a a S1 (in_map fst _ _ H1) (in_map fst _ _ H2)). lia.
Qed.

(* ---------- set bits ---------- *)
Fixpoint pbits (p : positive) : list nat :=
  match p with
  | xH => [0%nat]
  | xO q => map S (pbits q)
  | xI q => 0%nat :: map S (pbits q)
  end.
Definition nbits (m : N) : list nat := match m with N0 => [] | Npos p => pbits p end.

Lemma nbits_double m : nbits (N.double m) = map S (nbits m).
Proof. destruct m; reflexivity. Qed.
Lemma nbits_sdouble m : nbits (N.succ_double m) = 0%nat :: map S (nbits m).
Proof. destruct m; reflexivity. Qed.

Lemma nbits_In m i : In i (nbits m) <-> has m i.
Proof.
  revert i. induction m using N_dbl_ind; intros i.
  - rewrite has_zero. reflexivity.
  - rewrite nbits_double, in_map_iff. destruct i as [|i].
    + rewrite has_double0. split; [intros (? & ? & ?); discriminate|tauto].
    + rewrite has_doubleS, <- IHm. split; [intros (? & E & ?); injection E as <-; auto|eauto].
  - rewrite nbits_sdouble. cbn [In]. rewrite in_map_iff. destruct i as [|i].
    + rewrite has_sdouble0. split; auto.
    + rewrite has_sdoubleS, <- IHm.
      split; [intros [|(? & E & ?)]; [discriminate|injection E as <-; auto]|eauto].
Qed.

Lemma nbits_sorted m : StronglySorted lt (nbits m).
Proof.
  assert (K : forall l, StronglySorted lt l -> StronglySorted lt (map S l)).
  { induction 1 as [|x l S IH F]; cbn; constructor; auto.
    rewrite Forall_forall in *. intros y Hy. apply in_map_iff in Hy as (z & <- & Hz).
    specialize (F z Hz). lia. }
  induction m using N_dbl_ind.
  - constructor.
  - rewrite nbits_double. auto.
  - rewrite nbits_sdouble. constructor; auto.
    rewrite Forall_forall. intros y Hy. apply in_map_iff in Hy as (z & <- & Hz). lia.
Qed.

Lemma nbits_length m : length (nbits m) = popcount m.
Proof.
  induction m using N_dbl_ind.
  - reflexivity.
  - rewrite nbits_double, map_length, popcount_double. auto.
  - rewrite nbits_sdouble, popcount_sdouble. cbn. rewrite map_length. auto.
Qed.

(** clearing the lowest set bit *)
Lemma clear_lowest m w : m <> 0 ->
  nbits m = countr_zero m :: nbits (N.land m (wdec w m)).
Proof.
  intros Hm. unfold wdec. destruct (N.eqb_spec m 0); [contradiction|].
  clear n w. revert Hm. induction m using N_dbl_ind; intros Hm.
  - contradiction.
  - assert (Hm' : m <> 0) by (intros ->; apply Hm; reflexivity).
    replace (N.double m - 1) with (N.succ_double (m - 1)).
    2:{ rewrite N.double_spec, N.succ_double_spec. lia. }
    replace (N.land (N.double m) (N.succ_double (m - 1))) with (N.double (N.land m (m - 1))).
    2:{ symmetry. apply land_double_sdouble. }
    rewrite !nbits_double, (IHm Hm'). cbn [map]. f_equal. destruct m; [contradiction|reflexivity].
  - replace (N.succ_double m - 1) with (N.double m).
    2:{ rewrite N.double_spec, N.succ_double_spec. lia. }
    rewrite N.land_comm, land_double_sdouble, N.land_diag, nbits_double, nbits_sdouble.
    f_equal. destruct m; reflexivity.
Qed.

Lemma on_bits_iter_eq w k : forall m, popcount m = k -> on_bits_iter k w m = nbits m.
Proof.
  induction k as [|k IH]; intros m H.
  - destruct (N.eq_dec m 0) as [->|Hm]; [reflexivity|]. apply popcount_pos in Hm. lia.
  - assert (Hm : m <> 0) by (intros ->; discriminate).
    cbn [on_bits_iter]. rewrite (clear_lowest m w Hm). f_equal. apply IH.
    pose proof (clear_lowest m w Hm) as E. apply (f_equal (@length nat)) in E.
    rewrite nbits_length in E. cbn [length] in E. rewrite nbits_length in E. lia.
Qed.

Lemma on_bits_index_eq w m : on_bits_index w m = nbits m.
Proof. apply on_bits_iter_eq. reflexivity. Qed.

Lemma on_bits_index_ok w mask :
  StronglySorted lt (on_bits_index w mask) /\
  (forall i, In i (on_bits_index w mask) <-> has mask i).
Proof.
  rewrite on_bits_index_eq. split; [apply nbits_sorted|apply nbits_In].
Qed.

Lemma subsets_ok w mask l :
  subsets w mask = Some l ->
  StronglySorted N.lt l /\ (forall a, In a l <-> subset_of a mask).
Proof.
  unfold subsets, subsets_ascending.
  destruct (bipartitions_ordered w mask) as [o|] eqn:E; [|discriminate].
  intros H. injection H as <-.
  destruct (bipartitions_ordered_ok _ _ _ E) as (_ & Hin & S1 & _).
  split; auto. intros a. rewrite in_map_iff. split.
  - intros ((x & y) & <- & H). apply Hin in H. intros i. specialize (H i). cbn. tauto.
  - intros H. exists (a, N.lxor a mask). split; auto. apply Hin. apply splits_sym, lxor_compl, H.
Qed.

Lemma subsets_descending_ok w mask l :
  subsets_descending w mask = Some l ->
  StronglySorted N.gt l /\ (forall a, In a l <-> subset_of a mask).
Proof.
  unfold subsets_descending.
  destruct (bipartitions_ordered w mask) as [o|] eqn:E; [|discriminate].
  intros H. injection H as <-.
  destruct (bipartitions_ordered_ok _ _ _ E) as (_ & Hin & _ & S2).
  split; auto. intros a. rewrite in_map_iff. split.
  - intros ((x & y) & <- & H). apply Hin in H. intros i. specialize (H i). cbn. tauto.
  - intros H. exists (N.lxor a mask, a). split; auto. apply Hin. apply lxor_compl, H.
Qed.

Lemma sieve_defined (A : Type) (rng : list A) w mask :
  (forall i, has mask i -> (i < length rng)%nat) ->
  Forall (fun o => o <> None) (sieve rng (on_bits_index w mask)).
Proof.
  intros H. unfold sieve. rewrite Forall_forall. intros o Ho.
  apply in_map_iff in Ho as (i & <- & Hi). apply on_bits_index_ok in Hi. apply H in Hi.
  apply nth_error_Some. exact Hi.
Qed.
