(** Proofs: contraction of two tensors, counts of used indices, indices of tensors of tensors,
    external indices, index sets of left-to-right contractions, validity. *)
From Coq Require Import List Arith Bool Lia Permutation.
From Verif Require Import Idx_Model Idx_Spec Idx_Proofs1.
Import ListNotations.

Lemma times_bound l n : forallb (fun o => times (snd o) l <=? n) l = true -> forall x, times x l <= n.
Proof.
  intros H x. rewrite forallb_forall in H. destruct (times x l) eqn:E; [lia|].
  assert (P : 1 <= times x l) by lia. apply times_pos in P as [s Hs]. specialize (H _ Hs). apply Nat.leb_le in H. cbn [snd] in H. lia.
Qed.

(** ** get_uncontracted_indices *)
Lemma uncontracted_absent t1 t2 : contracted_properly t1 t2 ->
  get_uncontracted_indices t1 t2 =
    mkg (absent_from t2 (tbra t1) ++ absent_from t1 (tbra t2))
        (absent_from t2 (tket t1) ++ absent_from t1 (tket t2))
        (absent_from t2 (taux t1) ++ absent_from t1 (taux t2)).
Proof.
  intros (B1 & K1 & A1 & B2 & K2 & A2). unfold get_uncontracted_indices, absent_from.
  assert (G : forall (m l : list idx) (t : tensor), incl m (tensor_indices t) ->
      (forall x, In x l -> In x (tensor_indices t) -> In x m) ->
      filter (not_in m) l = filter (fun x => negb (mem x (tensor_indices t))) l).
  { intros m l t HI H. apply filter_ext_in'. intros x Hx. unfold not_in. f_equal.
    destruct (mem x (tensor_indices t)) eqn:E.
    - apply mem_in. apply H; auto. apply mem_in. exact E.
    - apply mem_false. apply mem_false in E. intros HM. apply E, HI, HM. }
  assert (I1 : forall t, incl (tbra t) (tensor_indices t)) by (intros t x H; unfold tensor_indices; apply in_or_app; auto).
  assert (I2 : forall t, incl (tket t) (tensor_indices t)) by (intros t x H; unfold tensor_indices; apply in_or_app; right; apply in_or_app; auto).
  assert (I3 : forall t, incl (taux t) (tensor_indices t)) by (intros t x H; unfold tensor_indices; apply in_or_app; right; apply in_or_app; auto).
  rewrite (G (tket t2) (tbra t1) t2), (G (tket t1) (tbra t2) t1), (G (tbra t2) (tket t1) t2), (G (tbra t1) (tket t2) t1),
    (G (taux t2) (taux t1) t2), (G (taux t1) (taux t2) t1); auto.
Qed.

(** ** counts *)
Fixpoint get (m : counts) (x : idx) : counters :=
  match m with
  | [] => mkc 0 0 0 0
  | (y, c) :: m' => if Nat.eqb x y then c else get m' x
  end.
Definition wf_counts (m : counts) : Prop :=
  NoDup (map fst m) /\ forall x c, In (x, c) m -> 1 <= total c.

Lemma get_count_one x s m y : get (count_one x s m) y = if Nat.eqb x y then increment s (get m y) else get m y.
Proof.
  induction m as [|[z c] m IH]; cbn [count_one get].
  - rewrite Nat.eqb_sym. destruct (Nat.eqb x y); reflexivity.
  - destruct (Nat.eqb x z) eqn:E1; cbn [get].
    + apply Nat.eqb_eq in E1. subst z. rewrite (Nat.eqb_sym x y). destruct (Nat.eqb y x); reflexivity.
    + destruct (Nat.eqb y z) eqn:E2.
      * apply Nat.eqb_eq in E2. subst z. rewrite E1. reflexivity.
      * exact IH.
Qed.
Lemma count_one_keys x s m y : In y (map fst (count_one x s m)) <-> y = x \/ In y (map fst m).
Proof.
  induction m as [|[z c] m IH]; cbn [count_one map fst In].
  - intuition.
  - destruct (Nat.eqb x z) eqn:E1; cbn [map fst In].
    + apply Nat.eqb_eq in E1. subst. intuition.
    + rewrite IH. intuition.
Qed.
Lemma total_increment s c : 1 <= total (increment s c).
Proof. destruct s; unfold total; cbn; lia. Qed.
Lemma wf_count_one x s m : wf_counts m -> wf_counts (count_one x s m).
Proof.
  intros [H1 H2]. split.
  - clear H2. induction m as [|[z c] m IH]; cbn [count_one map fst]; [constructor; auto; constructor|].
    inversion H1; subst. destruct (Nat.eqb x z) eqn:E1; cbn [map fst].
    + constructor; auto.
    + constructor; auto. rewrite count_one_keys. apply Nat.eqb_neq in E1. intuition.
  - clear H1. induction m as [|[z c] m IH]; cbn [count_one].
    + intros y d [H|[]]. inversion H; subst. apply total_increment.
    + destruct (Nat.eqb x z); intros y d [H|H].
      * inversion H; subst. apply total_increment.
      * eapply H2. right. exact H.
      * inversion H; subst. eapply H2. left. reflexivity.
      * eapply IH; [|exact H]. intros y' c' H'. eapply H2. right. exact H'.
Qed.

Lemma wf_get m x c : wf_counts m -> In (x, c) m -> get m x = c.
Proof.
  intros [H _]. induction m as [|[z d] m IH]; [intros []|]. cbn [map fst get] in *. inversion H; subst. intros [E|E].
  - inversion E; subst. rewrite Nat.eqb_refl. reflexivity.
  - destruct (Nat.eqb x z) eqn:E2; auto. apply Nat.eqb_eq in E2. subst. exfalso. apply H2. apply in_map_iff. exists (z, c). auto.
Qed.
Lemma wf_key m x : wf_counts m -> In x (map fst m) <-> 1 <= total (get m x).
Proof.
  intros W. split.
  - intros H. apply in_map_iff in H as [[y c] [E H]]. cbn in E. subst y. rewrite (wf_get m x c W H). eapply W. exact H.
  - destruct W as [_ W]. induction m as [|[z d] m IH]; cbn [get]; [unfold total; cbn; lia|]. cbn [map fst In].
    destruct (Nat.eqb x z) eqn:E; [apply Nat.eqb_eq in E; auto|]. intros H. right. apply IH; auto. intros y c Hy. eapply W. right. exact Hy.
Qed.

(** the sequence of increments *)
Definition event := (slot * idx)%type.
Definition bump (m : counts) (o : event) : counts := count_one (snd o) (fst o) m.
Definition ev (proto : idx -> list idx) (o : slot * idx) : list event :=
  if Nat.eqb (snd o) null then [] else o :: map (pair Proto) (proto (snd o)).

Lemma fold_proto l m : fold_left (fun m i => count_one i Proto m) l m = fold_left bump (map (pair Proto) l) m.
Proof. revert m. induction l as [|x l IH]; intros m; cbn; auto. Qed.
Lemma count_slot_bump proto s x m : count_slot proto s m x = fold_left bump (ev proto (s, x)) m.
Proof. unfold count_slot, ev. cbn [snd]. destruct (Nat.eqb x null); [reflexivity|]. rewrite fold_proto. reflexivity. Qed.
Lemma fold_slot proto s l m : fold_left (count_slot proto s) l m = fold_left bump (flat_map (ev proto) (map (pair s) l)) m.
Proof.
  revert m. induction l as [|x l IH]; intros m; cbn [fold_left map flat_map]; auto.
  rewrite fold_left_app, IH, count_slot_bump. reflexivity.
Qed.
Lemma count_tensor_bump proto b k a m :
  count_tensor proto b k a m = fold_left bump (flat_map (ev proto) (map (pair Bra) b ++ map (pair Ket) k ++ map (pair Aux) a)) m.
Proof. unfold count_tensor. rewrite !flat_map_app, !fold_left_app, !fold_slot. reflexivity. Qed.

Lemma count_all_bump proto : forall e m, count_all proto e m = fold_left bump (flat_map (ev proto) (all_occ e)) m.
Proof.
  fix IH 1. intros [|t|c a|l|l] m; cbn [count_all all_occ].
  - reflexivity.
  - apply count_tensor_bump.
  - rewrite count_tensor_bump. cbn [map]. rewrite app_nil_r. reflexivity.
  - revert m. induction l as [|x l IHl]; intros m; [reflexivity|]. cbn [flat_map]. rewrite flat_map_app, fold_left_app, <- (IH x m). apply IHl.
  - revert m. induction l as [|x l IHl]; intros m; [reflexivity|]. cbn [flat_map]. rewrite flat_map_app, fold_left_app, <- (IH x m). apply IHl.
Qed.

Lemma wf_bump l m : wf_counts m -> wf_counts (fold_left bump l m).
Proof. revert m. induction l as [|o l IH]; intros m H; cbn; auto. apply IH. apply wf_count_one. exact H. Qed.

Lemma times_in_cons s x o l : times_in s x (o :: l) = (if slot_eqb (fst o) s && Nat.eqb (snd o) x then 1 else 0) + times_in s x l.
Proof. unfold times_in, idx in *. cbn [filter]. destruct (slot_eqb (fst o) s && Nat.eqb (snd o) x); reflexivity. Qed.
Lemma times_in_app s x l m : times_in s x (l ++ m) = times_in s x l + times_in s x m.
Proof. unfold times_in. rewrite filter_app, app_length. reflexivity. Qed.

Definition plus_times (c : counters) (x : idx) (l : list event) : counters :=
  mkc (times_in Bra x l + cbra c) (times_in Ket x l + cket c) (times_in Aux x l + caux c) (times_in Proto x l + cproto c).
Lemma get_bump l : forall m x, get (fold_left bump l m) x = plus_times (get m x) x l.
Proof.
  induction l as [|o l IH]; intros m x; cbn [fold_left]; [destruct (get m x); reflexivity|].
  rewrite IH. unfold bump. rewrite get_count_one. unfold plus_times. rewrite !times_in_cons.
  destruct o as [s y]. cbn [fst snd]. destruct (Nat.eqb y x).
  - destruct s; cbn -[times_in]; f_equal; lia.
  - rewrite !andb_false_r. reflexivity.
Qed.

Lemma times_in_ev proto s x l : s <> Proto -> slots_ok l -> times_in s x (flat_map (ev proto) l) = times_in s x (filled l).
Proof.
  intros HS. induction l as [|[u y] l IH]; intros HP; [reflexivity|]. cbn [flat_map filled filter snd]. rewrite times_in_app.
  rewrite IH by (intros o Ho; apply HP; right; exact Ho). fold (filled l). unfold ev. cbn [snd]. destruct (Nat.eqb y null); [reflexivity|]. cbn [negb].
  rewrite !times_in_cons. replace (times_in s x (map (pair Proto) (proto y))) with 0; [lia|].
  induction (proto y) as [|z m IHm]; [reflexivity|]. cbn [map]. rewrite times_in_cons, <- IHm. cbn. destruct s; auto. congruence.
Qed.
Lemma times_in_ev_proto proto x l : slots_ok l -> times_in Proto x (flat_map (ev proto) l) = times_proto proto x l.
Proof.
  unfold times_proto. induction l as [|[u y] l IH]; intros HP; [reflexivity|]. cbn [flat_map snd]. rewrite times_in_app, filter_app, app_length.
  rewrite IH by (intros o Ho; apply HP; right; exact Ho). f_equal. unfold ev. cbn [snd]. destruct (Nat.eqb y null); [reflexivity|].
  rewrite times_in_cons. cbn [fst snd]. replace (slot_eqb u Proto) with false by (specialize (HP _ (or_introl eq_refl)); cbn in HP; destruct u; auto; congruence).
  cbn [andb]. induction (proto y) as [|z m IHm]; [reflexivity|]. cbn [map]. rewrite times_in_cons. cbn [fst snd filter slot_eqb andb].
  rewrite (Nat.eqb_sym x z). destruct (Nat.eqb z x); cbn [length]; cbn in IHm; lia.
Qed.

Lemma map_pair_slots s l : s <> Proto -> slots_ok (map (pair s) l).
Proof. intros H o Ho. apply in_map_iff in Ho as [x [<- _]]. exact H. Qed.
Lemma slots_app l m : slots_ok l -> slots_ok m -> slots_ok (l ++ m).
Proof. intros H1 H2 o Ho. apply in_app_or in Ho as [Ho|Ho]; auto. Qed.
Lemma all_occ_slots : forall e, slots_ok (all_occ e).
Proof.
  fix IH 1. intros [|t|c a|l|l]; cbn [all_occ].
  - intros o [].
  - apply tensor_occ_slots.
  - apply slots_app; apply map_pair_slots; discriminate.
  - induction l as [|x l IHl]; [intros o []|]. cbn [flat_map]. apply slots_app; auto.
  - induction l as [|x l IHl]; [intros o []|]. cbn [flat_map]. apply slots_app; auto.
Qed.

Lemma counts_right proto e :
  NoDup (map fst (get_used_indices_with_counts proto e)) /\
  (forall x c, In (x, c) (get_used_indices_with_counts proto e) ->
     c = mkc (times_in Bra x (filled (all_occ e))) (times_in Ket x (filled (all_occ e)))
             (times_in Aux x (filled (all_occ e))) (times_proto proto x (all_occ e))) /\
  (forall x, In x (map fst (get_used_indices_with_counts proto e)) <->
     (exists s, In (s, x) (filled (all_occ e))) \/ (exists s y, In (s, y) (filled (all_occ e)) /\ In x (proto y))).
Proof.
  set (m := get_used_indices_with_counts proto e).
  assert (W : wf_counts m) by (unfold m, get_used_indices_with_counts; rewrite count_all_bump; apply wf_bump; split; [constructor|intros x c []]).
  assert (G : forall x, get m x = mkc (times_in Bra x (filled (all_occ e))) (times_in Ket x (filled (all_occ e)))
             (times_in Aux x (filled (all_occ e))) (times_proto proto x (all_occ e))).
  { intros x. unfold m, get_used_indices_with_counts. rewrite count_all_bump, get_bump. unfold plus_times.
    rewrite !times_in_ev by (try discriminate; apply all_occ_slots). rewrite times_in_ev_proto by apply all_occ_slots.
    cbn [get cbra cket caux cproto]. f_equal; lia. }
  split; [apply W|]. split.
  - intros x c H. rewrite <- (wf_get m x c W H). apply G.
  - intros x. rewrite (wf_key m x W), G. unfold total. cbn [cbra cket caux cproto].
    assert (T : forall s, 1 <= times_in s x (filled (all_occ e)) <-> In (s, x) (filled (all_occ e))).
    { intros s. unfold times_in. split.
      - intros H. destruct (filter _ _) as [|[u y] r] eqn:E; [cbn in H; lia|].
        assert (HI : In (u, y) (filter (fun o => slot_eqb (fst o) s && Nat.eqb (snd o) x) (filled (all_occ e)))) by (rewrite E; left; reflexivity).
        apply filter_In in HI as [HI HE]. apply andb_prop in HE as [HE1 HE2]. apply slot_eqb_eq in HE1. apply Nat.eqb_eq in HE2. cbn in *. subst. exact HI.
      - intros H. assert (HI : In (s, x) (filter (fun o => slot_eqb (fst o) s && Nat.eqb (snd o) x) (filled (all_occ e)))).
        { apply filter_In. split; auto. cbn. rewrite slot_eqb_refl, Nat.eqb_refl. reflexivity. }
        destruct (filter _ _); [destruct HI|cbn; lia]. }
    assert (P : 1 <= times_proto proto x (all_occ e) <-> exists s y, In (s, y) (filled (all_occ e)) /\ In x (proto y)).
    { unfold times_proto. set (F := flat_map _ _).
      assert (E : 1 <= length (filter (Nat.eqb x) F) <-> In x F).
      { split.
        - intros H. destruct (filter (Nat.eqb x) F) as [|y r] eqn:EF; [cbn in H; lia|].
          assert (HI : In y (filter (Nat.eqb x) F)) by (rewrite EF; left; reflexivity).
          apply filter_In in HI as [HI HE]. apply Nat.eqb_eq in HE. subst. exact HI.
        - intros H. assert (HI : In x (filter (Nat.eqb x) F)) by (apply filter_In; rewrite Nat.eqb_refl; auto).
          destruct (filter (Nat.eqb x) F); [destruct HI|cbn; lia]. }
      rewrite E. unfold F. rewrite in_flat_map. unfold filled. split.
      - intros [[s y] [H1 H2]]. cbn [snd] in H2. destruct (Nat.eqb y null) eqn:EN; [destruct H2|]. exists s, y. split; auto.
        apply filter_In. cbn [snd]. rewrite EN. auto.
      - intros (s & y & H1 & H2). apply filter_In in H1 as [H1 H3]. exists (s, y). split; auto. cbn [snd] in *. apply negb_true_iff in H3. rewrite H3. exact H2. }
    split.
    + intros H. destruct (Nat.eq_dec (times_proto proto x (all_occ e)) 0) as [E|E].
      * left. destruct (Nat.eq_dec (times_in Bra x (filled (all_occ e))) 0); [destruct (Nat.eq_dec (times_in Ket x (filled (all_occ e))) 0)|].
        -- exists Aux. apply T. lia.
        -- exists Ket. apply T. lia.
        -- exists Bra. apply T. lia.
      * right. apply P. lia.
    + intros [[s H]|H].
      * assert (HS : s <> Proto) by (apply filter_In in H as [H _]; apply (all_occ_slots e _ H)).
        apply T in H. destruct s; try lia. congruence.
      * apply P in H. lia.
Qed.

(** ** tot_indices *)
Lemma add_new_in l x y : In y (add_new l x) <-> In y l \/ y = x.
Proof.
  unfold add_new. destruct (mem x l) eqn:E.
  - apply mem_in in E. split; auto. intros [H|H]; subst; auto.
  - rewrite in_app_iff. cbn. intuition.
Qed.
Lemma add_new_nodup l x : NoDup l -> NoDup (add_new l x).
Proof.
  intros H. unfold add_new. destruct (mem x l) eqn:E; auto. apply mem_false in E.
  apply NoDup_rev in H. rewrite <- (rev_involutive (l ++ [x])). apply NoDup_rev. rewrite rev_app_distr. cbn. constructor; auto.
  rewrite <- in_rev. exact E.
Qed.
Lemma add_all m : forall l, NoDup l ->
  NoDup (fold_left add_new m l) /\ (forall y, In y (fold_left add_new m l) <-> In y l \/ In y m) /\
  exists r, fold_left add_new m l = l ++ r /\ forall y, In y r <-> In y m /\ ~ In y l.
Proof.
  induction m as [|x m IH]; intros l H; cbn [fold_left].
  - split; [exact H|]. split; [intros y; cbn; tauto|]. exists []. rewrite app_nil_r. split; auto. intros y. cbn. tauto.
  - destruct (IH (add_new l x) (add_new_nodup l x H)) as (H1 & H2 & r & H3 & H4). split; [exact H1|]. split.
    + intros y. rewrite H2, add_new_in. cbn. intuition.
    + unfold add_new in *. destruct (mem x l) eqn:E.
      * exists r. split; auto. intros y. rewrite H4. cbn. apply mem_in in E. split; [intuition|]. intros [[->|H5] H6]; [contradiction|auto].
      * exists (x :: r). rewrite H3, <- app_assoc. split; auto. intros y. cbn [In]. rewrite H4, in_app_iff. cbn. apply mem_false in E.
        destruct (Nat.eq_dec x y) as [->|NE]; intuition.
Qed.

Lemma tot_right proto l :
  let (outer, inner) := tot_indices proto l in
  NoDup outer /\
  inner = filter (has_proto proto) l /\
  exists protos plain, outer = protos ++ plain /\
    (forall x, In x protos <-> exists y, In y l /\ In x (proto y)) /\
    (forall x, In x plain <-> In x l /\ proto x = [] /\ ~ In x protos).
Proof.
  unfold tot_indices. destruct (add_all (flat_map proto l) [] (NoDup_nil _)) as (A1 & A2 & _).
  destruct (add_all (filter (fun x => negb (has_proto proto x)) l) _ A1) as (B1 & B2 & r & B3 & B4).
  split; [exact B1|]. split; [reflexivity|]. eexists. exists r. split; [exact B3|]. split.
  - intros x. rewrite A2, in_flat_map. cbn. intuition.
  - intros x. rewrite B4, filter_In. unfold has_proto. destruct (proto x); cbn; intuition congruence.
Qed.

(** ** external_indices *)
Lemma zip_slot s b k : of_slot s (zip_groups b k) = match s with Bra => b | Ket => k | _ => [] end.
Proof.
  unfold of_slot. revert k. induction b as [|x b IH]; intros k; cbn [zip_groups].
  - assert (Q : map fst (filter (fun i : sidx => slot_eqb (snd i) s) (concat (map (fun y : idx => [(y, Ket)]) k))) = match s with Ket => k | _ => [] end).
    { induction k as [|y k IHk]; cbn; [destruct s; reflexivity|]. destruct s; cbn; first [exact IHk | (f_equal; exact IHk)]. }
    etransitivity; [exact Q|]. destruct s; auto.
  - destruct k as [|y k]; cbn [concat app filter fst snd map].
    + specialize (IH []). destruct s; cbn [slot_eqb map fst]; first [exact IH | (f_equal; exact IH)].
    + specialize (IH k). destruct s; cbn [slot_eqb map fst]; first [exact IH | (f_equal; exact IH)].
Qed.
Lemma aux_slot s l : of_slot s (map (fun x => [(x, Aux)]) l) = match s with Aux => l | _ => [] end.
Proof.
  unfold of_slot. induction l as [|y l IH]; cbn; [destruct s; reflexivity|]. destruct s; cbn; first [exact IH | (f_equal; exact IH)].
Qed.
Lemma of_slot_app s l m : of_slot s (l ++ m) = of_slot s l ++ of_slot s m.
Proof. unfold of_slot. rewrite concat_app, filter_app, map_app. reflexivity. Qed.

Definition wf_group (g : list sidx) : Prop :=
  match g with [(_, Bra); (_, Ket)] | [(_, Bra)] | [(_, Ket)] => True | _ => False end.
Lemma zip_wf b k : Forall wf_group (zip_groups b k).
Proof.
  revert k. induction b as [|x b IH]; intros k; cbn [zip_groups].
  - induction k; cbn; constructor; cbn; auto.
  - destruct k; constructor; cbn; auto.
Qed.
Lemma conj_antisymm l : Forall wf_group l ->
  exists l', conjugate_groups false l = Ret l' /\ of_slot Bra l' = of_slot Ket l /\ of_slot Ket l' = of_slot Bra l /\
    of_slot Aux l' = [] /\ map (@length sidx) l' = map (@length sidx) l.
Proof.
  induction 1 as [|g l H _ (l' & IH1 & IH2 & IH3 & IH4 & IH5)]; [exists []; cbn; auto|]. cbn [conjugate_groups].
  destruct g as [|[x s] [|[y s'] [|]]]; try contradiction; try (destruct s, s'; contradiction).
  - cbn [conjugate_group bind]. rewrite IH1. cbn [bind]. eexists. split; [reflexivity|]. unfold of_slot in *. cbn [concat app].
    destruct s; try contradiction; cbn in *; rewrite IH2, IH3, IH4, IH5; auto.
  - cbn [conjugate_group bind]. rewrite IH1. cbn [bind]. eexists. split; [reflexivity|]. unfold of_slot in *. cbn [concat app].
    destruct s; try contradiction; destruct s'; try contradiction; cbn in *; rewrite IH2, IH3, IH4, IH5; auto.
Qed.
Lemma conj_symm_zip b k : length b = length k ->
  conjugate_groups true (zip_groups b k) = Ret (zip_groups k b).
Proof.
  revert k. induction b as [|x b IH]; intros [|y k] H; try discriminate; [reflexivity|]. cbn. cbn in H. rewrite IH by lia. reflexivity.
Qed.
Lemma conj_anti_zip b k : length b = length k ->
  conjugate_groups false (zip_groups b k) = Ret (zip_groups k b).
Proof.
  revert k. induction b as [|x b IH]; intros [|y k] H; try discriminate; [reflexivity|]. cbn. cbn in H. rewrite IH by lia. reflexivity.
Qed.
Lemma conj_symm_unequal b k : length b <> length k -> conjugate_groups true (zip_groups b k) = Threw.
Proof.
  revert k. induction b as [|x b IH]; intros [|y k] H; cbn in *; try congruence; auto. rewrite IH by lia. reflexivity.
Qed.

Lemma zip_nth b k n : n < max (length b) (length k) ->
  nth_error (zip_groups b k) n =
    Some ((match nth_error b n with Some x => [(x, Bra)] | None => [] end) ++ (match nth_error k n with Some y => [(y, Ket)] | None => [] end)).
Proof.
  revert k n. induction b as [|x b IH]; intros k n H; cbn [zip_groups length] in *.
  - cbn [Nat.max] in H. rewrite nth_error_map. destruct (nth_error k n) as [y|] eqn:E; [destruct n; reflexivity|].
    apply nth_error_None in E. lia.
  - destruct k as [|y k]; cbn [length] in H.
    + destruct n as [|n]; [reflexivity|]. cbn [nth_error]. rewrite IH by (cbn; lia). destruct n; reflexivity.
    + destruct n as [|n]; [reflexivity|]. cbn [nth_error]. rewrite IH by lia. reflexivity.
Qed.
Lemma zip_length b k : length (zip_groups b k) = max (length b) (length k).
Proof.
  revert k. induction b as [|x b IH]; intros k; cbn [zip_groups length]; [rewrite map_length; reflexivity|].
  destruct k; cbn [length]; rewrite IH; cbn [length]; lia.
Qed.

Lemma kind_eqb_eq a b : kind_eqb a b = true <-> a = b.
Proof. destruct a, b; cbn; rewrite ?Nat.eqb_eq; split; congruence. Qed.
Lemma list_eqb_eq a b : list_eqb a b = true <-> a = b.
Proof. unfold list_eqb. destruct (list_eq_dec _ _ _); split; congruence. Qed.
Lemma tensor_eqb_eq a b : tensor_eqb a b = true <-> a = b.
Proof.
  unfold tensor_eqb. rewrite !andb_true_iff, kind_eqb_eq, !list_eqb_eq. destruct a, b; cbn. split; [intuition congruence|]. intros E; inversion E; auto.
Qed.
Lemma the_symm_some l t0 : (forall t, In t l -> t = t0) -> the_symmetrizer l (Some t0) = Ret (Some t0).
Proof.
  induction l as [|t l IH]; intros H; cbn; auto. rewrite (H t (or_introl eq_refl)).
  rewrite (proj2 (tensor_eqb_eq t0 t0) eq_refl). apply IH. intros u Hu. apply H. right. exact Hu.
Qed.
Lemma the_symm_same l t0 : (forall t, In t l -> t = t0) -> l <> [] -> the_symmetrizer l None = Ret (Some t0).
Proof.
  destruct l as [|t l]; intros H HN; [congruence|]. cbn. rewrite (H t (or_introl eq_refl)). apply the_symm_some. intros u Hu. apply H. right. exact Hu.
Qed.
Lemma the_symm_inv l s r : the_symmetrizer l s = Ret r -> forall t, In t l -> r = Some t.
Proof.
  assert (G : forall l t0 r, the_symmetrizer l (Some t0) = Ret r -> r = Some t0 /\ forall t, In t l -> t = t0).
  { clear. induction l as [|t l IH]; intros t0 r; cbn.
    - intros E. inversion E. split; auto. intros t [].
    - destruct (tensor_eqb t0 t) eqn:E; [|discriminate]. apply tensor_eqb_eq in E. subst. intros H. apply IH in H as [H1 H2]. split; auto.
      intros u [<-|Hu]; auto. }
  destruct l as [|t l]; cbn; [intros _ t []|]. destruct s as [t0|].
  - destruct (tensor_eqb t0 t); [|discriminate]. intros H. apply G in H as [H1 H2]. intros u [<-|Hu]; auto. rewrite (H2 u Hu). exact H1.
  - intros H. apply G in H as [H1 H2]. intros u [<-|Hu]; auto. rewrite (H2 u Hu). exact H1.
Qed.

(** ** left_to_right_binarization_indices *)
Lemma occurrences_app x l m : occurrences x (l ++ m) = occurrences x l + occurrences x m.
Proof. unfold occurrences. rewrite filter_app, app_length. reflexivity. Qed.
Lemma occurrences_pos x l : 1 <= occurrences x l <-> exists s, In s l /\ In x s.
Proof.
  unfold occurrences. split.
  - intros H. destruct (filter (mem x) l) as [|s r] eqn:E; [cbn in H; lia|].
    assert (HI : In s (filter (mem x) l)) by (rewrite E; left; reflexivity). apply filter_In in HI as [H1 H2]. apply mem_in in H2. eauto.
  - intros [s [H1 H2]]. assert (HI : In s (filter (mem x) l)) by (apply filter_In; rewrite mem_in; auto).
    destruct (filter (mem x) l); [destruct HI|cbn; lia].
Qed.
Lemma in_nth_firstn (rng : list (list idx)) k s : In s (firstn k rng) <-> exists j, j < k /\ nth_error rng j = Some s.
Proof.
  revert k. induction rng as [|r rng IH]; intros k.
  - rewrite firstn_nil. cbn. split; [intros []|intros [j [_ H]]; destruct j; discriminate].
  - destruct k as [|k]; cbn [firstn In]; [split; [intros []|intros [j [H _]]; lia]|]. rewrite IH. split.
    + intros [->|[j [H1 H2]]]; [exists 0; split; [lia|reflexivity]|exists (S j); split; [lia|exact H2]].
    + intros [[|j] [H1 H2]]; cbn in H2; [left; congruence|right; exists j; split; [lia|exact H2]].
Qed.
Lemma in_nth_skipn (rng : list (list idx)) k s : In s (skipn k rng) <-> exists j, k <= j /\ nth_error rng j = Some s.
Proof.
  revert k. induction rng as [|r rng IH]; intros k.
  - rewrite skipn_nil. cbn. split; [intros []|intros [j [_ H]]; destruct j; discriminate].
  - destruct k as [|k]; cbn [skipn].
    + split.
      * intros H. apply In_nth_error in H as [j H]. exists j. split; [lia|exact H].
      * intros [j [_ H]]. eapply nth_error_In. exact H.
    + rewrite IH. split.
      * intros [j [H1 H2]]. exists (S j). split; [lia|exact H2].
      * intros [[|j] [H1 H2]]; [lia|]. exists j. split; [lia|exact H2].
Qed.

Lemma occurrences_others x rng k s : nth_error rng k = Some s -> In x s ->
  1 < occurrences x rng <-> exists j s', j <> k /\ nth_error rng j = Some s' /\ In x s'.
Proof.
  intros HK HX. destruct (nth_error_split _ _ HK) as (l1 & l2 & E & HL). subst rng.
  rewrite occurrences_app. replace (occurrences x (s :: l2)) with (S (occurrences x l2)).
  2: { unfold occurrences. cbn [filter]. rewrite (proj2 (mem_in x s) HX). reflexivity. }
  split.
  - intros H. destruct (Nat.eq_dec (occurrences x l1) 0) as [E0|E0].
    + assert (H' : 1 <= occurrences x l2) by lia. apply occurrences_pos in H' as [s' [H1 H2]].
      apply In_nth_error in H1 as [j H1]. exists (length l1 + S j), s'. split; [lia|]. split; auto.
      rewrite nth_error_app2 by lia. replace (length l1 + S j - length l1) with (S j) by lia. exact H1.
    + assert (H' : 1 <= occurrences x l1) by lia. apply occurrences_pos in H' as [s' [H1 H2]].
      apply In_nth_error in H1 as [j H1]. exists j, s'. assert (j < length l1) by (apply nth_error_Some; congruence).
      split; [lia|]. split; auto. rewrite nth_error_app1 by lia. exact H1.
  - intros (j & s' & H1 & H2 & H3). destruct (lt_dec j (length l1)) as [L|L].
    + rewrite nth_error_app1 in H2 by lia. assert (1 <= occurrences x l1) by (apply occurrences_pos; exists s'; split; auto; eapply nth_error_In; eauto). lia.
    + rewrite nth_error_app2 in H2 by lia. destruct (j - length l1) as [|i] eqn:EI; [lia|]. cbn in H2.
      assert (1 <= occurrences x l2) by (apply occurrences_pos; exists s'; split; auto; eapply nth_error_In; eauto). lia.
Qed.

Lemma ltr_right rng unc ch im : ltr rng unc = Ret (ch, im) ->
  length ch = length rng /\ length im = length rng /\
  (forall k s c, nth_error rng k = Some s -> nth_error ch k = Some c -> forall x,
     In x c <-> In x s /\ ((exists j s', j <> k /\ nth_error rng j = Some s' /\ In x s') \/ In x unc)) /\
  (forall k i, nth_error im k = Some i -> NoDup i /\ forall x,
     In x i <-> (exists j s, j <= k /\ nth_error rng j = Some s /\ In x s) /\
                ((exists j s, k < j /\ nth_error rng j = Some s /\ In x s) \/ In x unc)).
Proof.
  intros H.
  assert (E : ch = map (fun s => filter (fun x => (1 <? occurrences x rng) || mem x unc) s) rng /\
    im = map (fun k => filter (fun x => (occurrences x (firstn k rng) <? occurrences x rng) || mem x unc) (union_of (firstn k rng))) (seq 1 (length rng))).
  { destruct rng; [discriminate|]. unfold ltr in H. split; congruence. }
  destruct E as [-> ->]. clear H. rewrite !map_length, seq_length. split; [reflexivity|]. split; [reflexivity|]. split.
  - intros k s c HK HC x. rewrite nth_error_map, HK in HC. cbn [option_map] in HC. inversion HC; subst c. clear HC.
    rewrite filter_In; cbv beta; rewrite orb_true_iff, Nat.ltb_lt, mem_in. split.
    + intros [H1 H2]. split; auto. destruct H2 as [H2|H2]; auto. left. apply (occurrences_others x rng k s HK H1). exact H2.
    + intros [H1 H2]. split; auto. destruct H2 as [H2|H2]; auto. left. apply (occurrences_others x rng k s HK H1). exact H2.
  - intros k i HK. rewrite nth_error_map in HK. destruct (nth_error (seq 1 (length rng)) k) as [k1|] eqn:EK; [|discriminate].
    assert (k1 = S k). { assert (LK : k < length (seq 1 (length rng))) by (apply nth_error_Some; congruence). rewrite seq_length in LK.
      apply nth_error_nth with (d := 0) in EK. rewrite seq_nth in EK by lia. lia. }
    subst k1. cbn [option_map] in HK. inversion HK; subst i. clear HK. split; [apply NoDup_filter, NoDup_nodup|].
    intros x. rewrite filter_In; cbv beta; rewrite orb_true_iff, Nat.ltb_lt, mem_in. unfold union_of. rewrite nodup_In, in_concat.
    assert (OC : occurrences x (firstn (S k) rng) < occurrences x rng <-> exists j s, k < j /\ nth_error rng j = Some s /\ In x s).
    { rewrite <- (firstn_skipn (S k) rng) at 2. rewrite occurrences_app. split.
      - intros H. assert (H' : 1 <= occurrences x (skipn (S k) rng)) by lia. apply occurrences_pos in H' as [s [H1 H2]].
        apply in_nth_skipn in H1 as [j [H1 H3]]. exists j, s. split; [lia|]. auto.
      - intros (j & s & H1 & H2 & H3). assert (1 <= occurrences x (skipn (S k) rng)); [|lia].
        apply occurrences_pos. exists s. split; auto. apply in_nth_skipn. exists j. auto. }
    assert (PC : (exists s, In s (firstn (S k) rng) /\ In x s) <-> exists j s, j <= k /\ nth_error rng j = Some s /\ In x s).
    { split.
      - intros [s [H1 H2]]. apply in_nth_firstn in H1 as [j [H1 H3]]. exists j, s. split; [lia|]. auto.
      - intros (j & s & H1 & H2 & H3). exists s. split; auto. apply in_nth_firstn. exists j. split; [lia|exact H2]. }
    rewrite <- OC, <- PC. reflexivity.
Qed.

(** ** is_valid *)
Lemma perm_eqb_right a b : perm_eqb a b = true <-> Permutation a b.
Proof.
  unfold perm_eqb. rewrite andb_true_iff, Nat.eqb_eq, forallb_forall. split.
  - intros [HL H]. apply (Permutation_count_occ Nat.eq_dec).
    (* remove the elements of a from b *)
    assert (G : forall a b, length a = length b -> (forall x, In x a -> count_occ Nat.eq_dec a x = count_occ Nat.eq_dec b x) -> Permutation a b).
    { clear. induction a as [|x a IH]; intros b HL H.
      - destruct b; [constructor|discriminate].
      - assert (HI : In x b). { apply (count_occ_In Nat.eq_dec). rewrite <- H by (left; reflexivity). rewrite count_occ_cons_eq by reflexivity. lia. }
        apply in_split in HI as (b1 & b2 & ->). apply Permutation_cons_app. apply IH.
        + cbn in HL. rewrite app_length in *. cbn in HL. lia.
        + intros y Hy. specialize (H y (or_intror Hy)). rewrite count_occ_app in *. cbn [count_occ] in *.
          destruct (Nat.eq_dec x y); lia. }
    assert (P : Permutation a b). { apply G; auto. intros x Hx. apply Nat.eqb_eq. apply H. exact Hx. }
    apply (Permutation_count_occ Nat.eq_dec). exact P.
  - intros P. split; [apply Permutation_length; exact P|]. intros x _. apply Nat.eqb_eq. apply (Permutation_count_occ Nat.eq_dec). exact P.
Qed.

Lemma groups_perm_right a b : groups_perm a b = true <->
  Permutation (gbra a) (gbra b) /\ Permutation (gket a) (gket b) /\ Permutation (gaux a) (gaux b).
Proof. unfold groups_perm. rewrite !andb_true_iff, !perm_eqb_right. intuition. Qed.

Lemma valid_list (l : list ex) :
  (fix go l := match l with
     | [] => Ret true
     | x :: l' => bind (is_valid x) (fun b : bool => if b then go l' else Ret false)
     end) l = Ret true <-> forall x, In x l -> is_valid x = Ret true.
Proof.
  induction l as [|x l IH].
  - split; auto. intros _ x [].
  - split.
    + intros H y Hy. destruct (is_valid x) as [[|]| |] eqn:E; cbn [bind] in H; try discriminate. destruct Hy as [<-|Hy]; auto. apply IH; auto.
    + intros H. rewrite (H x (or_introl eq_refl)). cbn [bind]. apply IH. intros y Hy. apply H. right. exact Hy.
Qed.

Lemma unique_all_in l gs : unique_all l = Ret gs -> Forall2 (fun x g => get_unique_indices x = Ret g) l gs.
Proof.
  revert gs. induction l as [|x l IH]; intros gs; cbn; [intros E; inversion E; constructor|].
  destruct (get_unique_indices x) eqn:E; cbn; try discriminate. destruct (unique_all l) eqn:E2; cbn; try discriminate.
  intros H. inversion H; subst. constructor; auto.
Qed.
Lemma Forall2_unique_all l gs : Forall2 (fun x g => get_unique_indices x = Ret g) l gs -> unique_all l = Ret gs.
Proof. induction 1; cbn; auto. rewrite H, IHForall2. reflexivity. Qed.

Lemma valid_sum l : is_valid (Sum l) = Ret true <->
  (forall x, In x l -> is_valid x = Ret true) /\ l <> [] /\
  (forall x, In x l -> exists g, get_unique_indices x = Ret g) /\
  (forall x y g h, In x l -> In y l -> get_unique_indices x = Ret g -> get_unique_indices y = Ret h ->
     Permutation (gbra g) (gbra h) /\ Permutation (gket g) (gket h) /\ Permutation (gaux g) (gaux h)).
Proof.
  cbn [is_valid]. split.
  - intros H. match type of H with bind ?m _ = _ => destruct m as [[|]| |] eqn:E; cbn [bind negb] in H; try discriminate end.
    destruct (valid_list l) as [V _]. split; [apply V; exact E|]. clear E V.
    destruct l as [|x0 l]; [discriminate|]. split; [discriminate|].
    destruct (get_unique_indices x0) as [r| |] eqn:E0; cbn [bind] in H; try discriminate.
    destruct (unique_all (x0 :: l)) as [gs| |] eqn:EU; cbn [bind] in H; try discriminate.
    apply unique_all_in in EU. inversion H as [HB]. clear H. rewrite forallb_forall in HB.
    assert (K : forall x, In x (x0 :: l) -> exists g, In g gs /\ get_unique_indices x = Ret g).
    { clear - EU. induction EU; intros z [].
      - subst. exists y. split; [left; reflexivity|exact H].
      - destruct (IHEU z H0) as [g [H1 H2]]. exists g. split; [right; exact H1|exact H2]. }
    split; [intros x Hx; destruct (K x Hx) as [g [_ G]]; eauto|].
    intros x y g h Hx Hy Hg Hh. destruct (K x Hx) as [g' [G1 G2]]. destruct (K y Hy) as [h' [H1 H2]].
    assert (g' = g) by congruence. assert (h' = h) by congruence. subst.
    apply HB, groups_perm_right in G1. apply HB, groups_perm_right in H1. destruct G1 as (a1 & a2 & a3), H1 as (b1 & b2 & b3).
    split; [|split]; (etransitivity; [apply Permutation_sym; eassumption|assumption]).
  - intros (H1 & H2 & H3 & H4). rewrite (proj2 (valid_list l) H1). cbn [bind negb]. destruct l as [|x0 l]; [congruence|].
    destruct (H3 x0 (or_introl eq_refl)) as [r Hr]. rewrite Hr. cbn [bind].
    assert (EX : exists gs, Forall2 (fun x g => get_unique_indices x = Ret g) (x0 :: l) gs).
    { clear - H3. induction (x0 :: l) as [|x m IH]; [exists []; constructor|]. destruct (H3 x (or_introl eq_refl)) as [g Hg].
      destruct IH as [gs Hgs]; [intros y Hy; apply H3; right; exact Hy|]. exists (g :: gs). constructor; auto. }
    destruct EX as [gs Hgs]. rewrite (Forall2_unique_all _ _ Hgs). cbn [bind]. f_equal. apply forallb_forall.
    intros g Hg. apply groups_perm_right.
    assert (K : exists x, In x (x0 :: l) /\ get_unique_indices x = Ret g).
    { clear - Hgs Hg. induction Hgs; [destruct Hg|]. destruct Hg as [<-|Hg]; [exists x; split; [left; reflexivity|exact H]|].
      destruct (IHHgs Hg) as [z [Z1 Z2]]. exists z. split; [right; exact Z1|exact Z2]. }
    destruct K as [x [K1 K2]]. apply (H4 x0 x r g); auto. left. reflexivity.
Qed.

(** products of constants and tensors without repeated indices *)
Definition plain_factor (e : ex) : bool := match e with Scal => true | Tens t => true | _ => false end.

Lemma times_le_count x s l : times x (map (pair s) l) = count_occ Nat.eq_dec l x.
Proof.
  induction l as [|y l IH]; [reflexivity|]. cbn [map]. rewrite times_cons, IH. cbn [snd count_occ].
  destruct (Nat.eq_dec y x) as [->|E]; [rewrite Nat.eqb_refl|apply Nat.eqb_neq in E; rewrite E]; reflexivity.
Qed.
Lemma times_groups x g : times x (groups_occ g) = count_occ Nat.eq_dec (all_of_groups g) x.
Proof. unfold groups_occ, all_of_groups. rewrite !times_app, !times_le_count, !count_occ_app. reflexivity. Qed.

Lemma valid_prod l : (forall x, In x l -> no_operators x = true) -> (forall x y, In x l -> times y (occ x) <= 2) ->
  is_valid (Prod l) = Ret true <->
  (forall x, In x l -> is_valid x = Ret true) /\ (forall y, factors_with y l <= 2).
Proof.
  intros HN H2. cbn [is_valid].
  assert (U : unique_all l = Ret (map (fun x => once_groups (occ x)) l)).
  { clear - HN H2. induction l as [|x l IH]; [reflexivity|]. cbn [unique_all map]. rewrite unique_once; [|apply HN; left; reflexivity|intros y; apply H2; left; reflexivity].
    cbn [bind]. rewrite IH; auto; intros; [apply HN; right; assumption|apply H2; right; assumption]. }
  assert (C : forall y, count_occ Nat.eq_dec (flat_map all_of_groups (map (fun x => once_groups (occ x)) l)) y = factors_with y l).
  { intros y. clear. unfold factors_with. induction l as [|x l IH]; [reflexivity|]. cbn [map flat_map]. rewrite count_occ_app. unfold idx in *. rewrite IH, <- times_groups.
    rewrite times_groups_once by apply occ_slots. cbn [filter]. destruct (Nat.eqb (times y (occ x)) 1); reflexivity. }
  split.
  - intros H. match type of H with bind ?m _ = _ => destruct m as [[|]| |] eqn:E; cbn [bind negb] in H; try discriminate end.
    split; [apply (proj1 (valid_list l)); exact E|]. rewrite U in H. cbn [bind] in H. inversion H as [HB]. rewrite forallb_forall in HB.
    intros y. rewrite <- C. set (A := flat_map all_of_groups _) in *.
    destruct (in_dec Nat.eq_dec y A) as [HI|HI]; [apply Nat.leb_le, HB; exact HI|apply (count_occ_not_In Nat.eq_dec) in HI; lia].
  - intros [H1 H3]. rewrite (proj2 (valid_list l) H1). cbn [bind negb]. rewrite U. cbn [bind]. f_equal. apply forallb_forall. intros y _.
    apply Nat.leb_le. rewrite C. apply H3.
Qed.
