(** The terms of the result as a list of patterns with their signs. *)
From Coq Require Import List NArith ZArith Bool Arith Lia Permutation.
From Verif Require Import Wick_Model Wick_Spec Wick_Proofs1 Wick_Proofs2 Wick_Proofs3 Wick_Proofs4 Wick_Proofs5 Wick_Proofs6 Wick_Proofs7 Wick_Proofs8 Wick_Proofs9 Wick_Proofs10.
Import ListNotations.

Lemma re_map {X Y} (f : X -> Y) n u v : rearranged n u v -> rearranged n (map f u) (map f v).
Proof. induction 1; [constructor|]. rewrite map_app in *. cbn [map] in *. constructor. exact IHrearranged. Qed.

Lemma full_perm {X} (v : list X) m : full_matching v m -> Permutation v (pair_list m).
Proof.
  induction 1 as [|x v1 y v2 m H IH]; [constructor|]. cbn. apply perm_skip. eapply Permutation_trans; [apply Permutation_sym, Permutation_middle|]. apply perm_skip. exact IH.
Qed.
Lemma partial_perm {X} (v : list X) m rest : partial_matching v m rest -> Permutation v (pair_list m ++ rest).
Proof.
  induction 1 as [|x v m rest H IH|x v1 y v2 m rest H IH]; [constructor| |].
  - eapply Permutation_trans; [apply perm_skip; exact IH|]. apply Permutation_middle.
  - cbn. apply perm_skip. eapply Permutation_trans; [apply Permutation_sym, Permutation_middle|]. apply perm_skip. exact IH.
Qed.

Lemma partial_id {X} (v : list X) : partial_matching v [] v.
Proof. induction v; constructor; auto. Qed.

Lemma filter_perm {X} (f : X -> bool) a b : Permutation a b -> Permutation (filter f a) (filter f b).
Proof.
  induction 1; cbn; try destruct (f x); try destruct (f y); auto using perm_swap, Permutation_refl.
  eapply Permutation_trans; eassumption.
Qed.

Section Patterns.
  Context {I F : Type}.
  Variable ieqb : I -> I -> bool.
  Hypothesis ieqb_spec : forall i j, ieqb i j = true <-> i = j.
  Notation op := (op I).
  Notation nest := (list (list op)).
  Notation T := (nat * op)%type.
  Notation pattern := (list (T * T)).

  (** ** Columns and links *)
  Definition ann (o : op) : bool := negb (ocre o).
  Notation balanced := number_conserving.
  Definition opposite (m : pattern) : Prop := forall x y, In (x, y) m -> ocre (snd x) <> ocre (snd y).

  Lemma combine_fst {X Y} (a : list X) (b : list Y) : length a = length b -> map fst (combine a b) = a /\ map snd (combine a b) = b.
  Proof. revert b. induction a as [|x a IH]; intros [|y b] H; try discriminate; [split; reflexivity|]. cbn in H. destruct (IH b ltac:(lia)) as (E1 & E2). cbn. rewrite E1, E2. auto. Qed.

  Lemma partners_balanced (nop : list op) : balanced nop ->
    map fst (partners_of nop) = map oidx (filter (fun o => ocre o) nop) /\ map snd (partners_of nop) = rev (map oidx (filter ann nop)).
  Proof.
    intros H. unfold partners_of, creators, annihilators. rewrite !map_rev, !rev_involutive.
    destruct (combine_fst (rev (map oidx (filter (fun o => ocre o) nop))) (map oidx (filter (fun o => negb (ocre o)) nop))) as (E1 & E2).
    { rewrite rev_length, !map_length. exact H. }
    rewrite E1, E2, rev_involutive. auto.
  Qed.

  Lemma columns_balanced (input : nest) : Forall balanced input ->
    map fst (input_partner_indices input) = map oidx (filter (fun o => ocre o) (concat input)) /\
    Permutation (map snd (input_partner_indices input)) (map oidx (filter ann (concat input))).
  Proof.
    induction 1 as [|nop input Hb _ (IH1 & IH2)]; [split; [reflexivity|constructor]|].
    unfold input_partner_indices in *. cbn [flat_map concat]. rewrite !map_app, !filter_app, !map_app, IH1.
    destruct (partners_balanced nop Hb) as (E1 & E2). rewrite E1, E2. split; [reflexivity|].
    apply Permutation_app; [apply Permutation_sym, Permutation_rev|exact IH2].
  Qed.

  Lemma links_ann (m : pattern) : opposite m -> map fst (map link (map untag m)) = map oidx (filter ann (map snd (pair_list m))) /\
    map snd (map link (map untag m)) = map oidx (filter (fun o => ocre o) (map snd (pair_list m))).
  Proof.
    induction m as [|[x y] m IH]; intros H; [split; reflexivity|].
    specialize (IH (fun a b Hab => H a b (or_intror Hab))). specialize (H x y (or_introl eq_refl)). destruct IH as (E1 & E2).
    change (pair_list ((x, y) :: m)) with (x :: y :: pair_list m). cbn [map filter]. change (untag (x, y)) with (snd x, snd y). unfold ann in *.
    unfold link at 1 3. cbn [fst snd].
    destruct (ocre (snd x)) eqn:Ex, (ocre (snd y)) eqn:Ey; try congruence; cbn [negb map fst snd]; rewrite ?Ex, ?Ey; cbn [negb map fst snd]; rewrite E1, E2; auto.
  Qed.

  Lemma nodup_idx (b : bool) (l : list op) : NoDup l -> NoDup (map oidx (filter (fun o => Bool.eqb (ocre o) b) l)).
  Proof.
    intros H. assert (H' : NoDup (filter (fun o => Bool.eqb (ocre o) b) l)) by (apply NoDup_filter; exact H).
    assert (Hb : forall o, In o (filter (fun o => Bool.eqb (ocre o) b) l) -> ocre o = b).
    { intros o Ho. apply filter_In in Ho. apply Bool.eqb_prop. exact (proj2 Ho). }
    induction H' as [|o l' Ho H' IH] using NoDup_ind in Hb |- *.
    - constructor.
    - cbn. constructor; [|apply IH; intros; apply Hb; right; auto].
      intros Hin. apply in_map_iff in Hin. destruct Hin as (o' & E & Ho'). apply Ho.
      assert (o = o'); [|congruence]. destruct o as [i c], o' as [i' c']. cbn in E. subst i'. f_equal.
      pose proof (Hb _ (or_introl eq_refl)) as H1. pose proof (Hb _ (or_intror Ho')) as H2. cbn in *. congruence.
  Qed.
  Lemma filter_ext' {X} (f g : X -> bool) l : (forall x, f x = g x) -> filter f l = filter g l.
  Proof. intros H. induction l as [|x l IH]; [reflexivity|]. cbn. rewrite H, IH. reflexivity. Qed.
  Lemma nodup_cre l : NoDup l -> NoDup (map oidx (filter (fun o : op => ocre o) l)).
  Proof. intros H. rewrite (filter_ext' _ (fun o => Bool.eqb (ocre o) true)); [apply nodup_idx; exact H|]. intros o. destruct (ocre o); reflexivity. Qed.
  Lemma nodup_ann l : NoDup l -> NoDup (map oidx (filter ann l)).
  Proof. intros H. rewrite (filter_ext' _ (fun o => Bool.eqb (ocre o) false)); [apply nodup_idx; exact H|]. intros o. unfold ann. destruct (ocre o); reflexivity. Qed.

  Lemma balanced_length (l : list op) : length (filter (fun o => ocre o) l) + length (filter ann l) = length l.
  Proof. induction l as [|o l IH]; [reflexivity|]. cbn. unfold ann in *. destruct (ocre o); cbn; lia. Qed.
  Lemma balanced_concat (input : nest) : Forall balanced input -> balanced (concat input).
  Proof. induction 1 as [|n input H _ IH]; [reflexivity|]. unfold number_conserving in *. cbn. rewrite !filter_app, !app_length. lia. Qed.

  (** The labellings of a (partial) pattern, its contractions taken in any order. *)
  Lemma pattern_loops_gen (input : nest) (m : pattern) (rest : list T) :
    NoDup (concat input) -> Forall balanced input -> Permutation (concat input) (map snd (pair_list m) ++ map snd rest) -> opposite m ->
    let '(tp, nc) := make_target_partner_indices ieqb (input_partner_indices input) (map untag m) in
    spin_labellings ieqb (input_partner_indices input) (map link (map untag m)) = 2 ^ (nc + length tp) /\
    length (input_partner_indices input) = length m + length tp.
  Proof.
    intros Hn Hb HP Ho. destruct (columns_balanced input Hb) as (C1 & C2). destruct (links_ann m Ho) as (L1 & L2).
    pose proof (Permutation_NoDup HP Hn) as Hn2. apply nodup_app_inv in Hn2. destruct Hn2 as (Hn2 & _ & _).
    pose proof (loops_count ieqb ieqb_spec (map untag m) (input_partner_indices input) 0) as H.
    unfold make_target_partner_indices. destruct (fold_left (target_step ieqb) (map untag m) (input_partner_indices input, 0)) as [tp nc].
    destruct H as (H1 & H2).
    - intros lr Hlr. apply in_map_iff in Hlr. destruct Hlr as ([x y] & <- & Hxy). apply (Ho x y Hxy).
    - rewrite C1. apply nodup_cre. exact Hn.
    - apply (Permutation_NoDup (Permutation_sym C2)). apply nodup_ann. exact Hn.
    - rewrite L1. apply nodup_ann. exact Hn2.
    - rewrite L2. apply nodup_cre. exact Hn2.
    - rewrite Nat.mul_1_r in H1. split; [exact H1|]. rewrite map_length in H2. apply H2.
      + rewrite L1. intros i Hi. apply (Permutation_in i (Permutation_sym C2)). apply in_map_iff in Hi. destruct Hi as (o & <- & Hoo). apply in_map.
        apply filter_In in Hoo. apply filter_In. split; [|tauto]. apply (Permutation_in o (Permutation_sym HP)). apply in_app_iff. tauto.
      + rewrite L2, C1. intros i Hi. apply in_map_iff in Hi. destruct Hi as (o & <- & Hoo). apply in_map.
        apply filter_In in Hoo. apply filter_In. split; [|tauto]. apply (Permutation_in o (Permutation_sym HP)). apply in_app_iff. tauto.
  Qed.

  Lemma matching_perm (input : nest) (m : pattern) rest : partial_matching (tagged input) m rest ->
    Permutation (concat input) (map snd (pair_list m) ++ map snd rest).
  Proof. intros Hm. rewrite <- (tag_nest_snd input 0), <- map_app. apply Permutation_map. apply partial_perm. exact Hm. Qed.

  Lemma pattern_loops (input : nest) (m : pattern) (rest : list T) :
    NoDup (concat input) -> Forall balanced input -> partial_matching (tagged input) m rest -> opposite m ->
    let '(tp, nc) := make_target_partner_indices ieqb (input_partner_indices input) (map untag m) in
    spin_labellings ieqb (input_partner_indices input) (map link (map untag m)) = 2 ^ (nc + length tp) /\
    length (input_partner_indices input) = length m + length tp.
  Proof. intros Hn Hb Hm Ho. apply (pattern_loops_gen input m rest Hn Hb (matching_perm _ _ _ Hm) Ho). Qed.

  Lemma full_partial {X} (v : list X) m : full_matching v m <-> partial_matching v m [].
  Proof.
    split.
    - induction 1; constructor; auto.
    - intros H. remember [] as rest eqn:E. induction H; [constructor|discriminate|constructor; auto].
  Qed.

  Lemma pattern_loops_perm (input : nest) (m m' : pattern) :
    NoDup (concat input) -> Forall balanced input -> full_matching (tagged input) m -> opposite m -> Permutation m m' ->
    exists nc, make_target_partner_indices ieqb (input_partner_indices input) (map untag m') = ([], nc) /\
    spin_labellings ieqb (input_partner_indices input) (map link (map untag m')) = 2 ^ nc.
  Proof.
    intros Hn Hb Hm Ho Hp.
    assert (HP : Permutation (concat input) (map snd (pair_list m') ++ map snd (@nil T))).
    { eapply Permutation_trans; [apply (matching_perm _ _ _ (proj1 (full_partial _ _) Hm))|]. apply Permutation_app_tail. apply Permutation_map.
      unfold pair_list. apply Permutation_flat_map. exact Hp. }
    assert (Ho' : opposite m') by (intros x y Hxy; apply Ho; apply (Permutation_in _ (Permutation_sym Hp) Hxy)).
    pose proof (pattern_loops_gen input m' [] Hn Hb HP Ho') as H.
    destruct (make_target_partner_indices ieqb (input_partner_indices input) (map untag m')) as [tp nc]. destruct H as (H1 & H2).
    assert (El : length (input_partner_indices input) = length m').
    { assert (E : 2 * length m' = length (concat input)).
      { rewrite (Permutation_length HP), app_length, !map_length. cbn [length].
        clear. induction m' as [|xy m IH]; [reflexivity|]. cbn [pair_list flat_map length app]. fold (pair_list m). lia. }
      destruct (columns_balanced input Hb) as (C1 & _). apply (f_equal (@length _)) in C1. rewrite !map_length in C1.
      pose proof (balanced_length (concat input)) as E2. pose proof (balanced_concat input Hb) as E3. unfold number_conserving, ann in *. lia. }
    destruct tp; [|cbn in H2; lia]. exists nc. split; [reflexivity|]. rewrite H1. f_equal. cbn. lia.
  Qed.

  Lemma pattern_loops_full (input : nest) (m : pattern) :
    NoDup (concat input) -> Forall balanced input -> full_matching (tagged input) m -> opposite m ->
    exists nc, make_target_partner_indices ieqb (input_partner_indices input) (map untag m) = ([], nc) /\
    spin_labellings ieqb (input_partner_indices input) (map link (map untag m)) = 2 ^ nc.
  Proof. intros Hn Hb Hm Ho. apply (pattern_loops_perm input m m Hn Hb Hm Ho (Permutation_refl _)). Qed.

  (** ** Full contractions *)
  Variable fermi : bool.
  Variable is_qpann : op -> bool.
  Variable can_contract : op -> op -> bool.
  Variable contract : op -> op -> list F.
  Hypothesis contract_nonempty : forall l r, can_contract l r = true -> contract l r <> [].
  Hypothesis qpann_ok : forall l r, can_contract l r = true -> is_qpann l = true.
  Hypothesis opposite_ok : forall l r, can_contract l r = true -> ocre l <> ocre r.

  Notation contraction_factors := (pattern_factors contract).

  Lemma admissible_opposite (m : pattern) : admissible can_contract m -> opposite m.
  Proof. intros H x y Hxy. apply opposite_ok. apply (H x y Hxy). Qed.

  Lemma joinedb_joined (m : pattern) i j : joinedb m i j = true <-> joined m i j.
  Proof.
    unfold joinedb, joined. rewrite existsb_exists. split.
    - intros ([x y] & Hin & H). cbn in H. rewrite orb_true_iff, !andb_true_iff, !Nat.eqb_eq in H. exists x, y. auto.
    - intros (x & y & Hin & H). exists (x, y). split; [exact Hin|]. cbn. rewrite orb_true_iff, !andb_true_iff, !Nat.eqb_eq. exact H.
  Qed.

  Lemma connection_condition (input : nest) req av target avoided (m : pattern) :
    connection_masks (length input) req = Some target -> connection_masks (length input) av = Some avoided -> length input <= 32 ->
    (forall i j, In (i, j) req -> nth i input [] <> [] \/ nth j input [] <> []) ->
    full_matching (tagged input) m ->
    (avoid_ok avoided m /\ match target with [] => True | _ => forall k, members k (tagged input) <> [] -> needs target m k = 0 end) <->
    (forall i j, In (i, j) av -> ~ joined m i j) /\ (forall i j, In (i, j) req -> joined m i j).
  Proof.
    intros Hreq Hav Hlen Hne Hm.
    assert (Htag : forall x y, In (x, y) m -> fst x < length input /\ fst y < length input).
    { intros x y Hxy. destruct (partial_in (O := op) (fun _ _ _ _ => true) _ _ _ _ _ (proj1 (full_partial _ _) Hm) Hxy) as (Hx & Hy).
      pose proof (tags_ok_in _ _ _ x (tag_nest_tags input 0) Hx). pose proof (tags_ok_in _ _ _ y (tag_nest_tags input 0) Hy). lia. }
    assert (Hin_range : forall pairs masks i j, connection_masks (length input) pairs = Some masks -> In (i, j) pairs -> i < length input /\ j < length input).
    { intros pairs masks i j H Hij. unfold connection_masks in H. destruct (forallb _ pairs) eqn:E; [|discriminate]. rewrite forallb_forall in E.
      specialize (E _ Hij). apply andb_true_iff in E. rewrite !Nat.ltb_lt in E. exact E. }
    assert (H0 : length input = 0 \/ length input <> 0) by lia. destruct H0 as [H0|H0].
    { assert (req = []) by (destruct req as [|[i j] r]; [reflexivity|]; destruct (Hin_range _ _ i j Hreq (or_introl eq_refl)); lia).
      assert (av = []) by (destruct av as [|[i j] r]; [reflexivity|]; destruct (Hin_range _ _ i j Hav (or_introl eq_refl)); lia).
      subst req av. unfold connection_masks in Hreq, Hav. cbn in Hreq, Hav. injection Hreq as <-. injection Hav as <-. cbn. split; [|tauto]. intros _. split; intros ? ? []. }
    assert (HA : avoid_ok avoided m <-> forall i j, In (i, j) av -> ~ joined m i j).
    { pose proof (masks_nil _ _ _ Hav H0) as Hnil. unfold avoid_ok.
      destruct av as [|p0 av0].
      - rewrite (proj2 Hnil eq_refl). split; [intros _ ? ? []|auto].
      - assert (E : avoided <> []) by (intros E; apply Hnil in E; discriminate). destruct avoided as [|a0 avs]; [congruence|]. split.
        + intros H i j Hij (x & y & Hxy & Hcase). specialize (H x y Hxy). destruct (Htag x y Hxy) as (T1 & T2).
          destruct (masks_bit _ _ _ (fst x) (fst y) Hav ltac:(discriminate) T1 ltac:(lia)) as (_ & Hb). rewrite Hb in H. apply negb_true_iff in H.
          assert (maskp (p0 :: av0) (fst x) (fst y) = true) by (apply maskp_spec; destruct Hcase as [(-> & ->)|(-> & ->)]; auto). congruence.
        + intros H x y Hxy. destruct (Htag x y Hxy) as (T1 & T2).
          destruct (masks_bit _ _ _ (fst x) (fst y) Hav ltac:(discriminate) T1 ltac:(lia)) as (_ & Hb). rewrite Hb. apply negb_true_iff.
          destruct (maskp (p0 :: av0) (fst x) (fst y)) eqn:E2; [|reflexivity]. exfalso. apply maskp_spec in E2.
          destruct E2 as [E2|E2]; apply (H _ _ E2); exists x, y; auto. }
    assert (HT : match target with [] => True | _ => forall k, members k (tagged input) <> [] -> needs target m k = 0 end <-> forall i j, In (i, j) req -> joined m i j).
    { pose proof (masks_nil _ _ _ Hreq H0) as Hnil.
      destruct req as [|p0 req0].
      - rewrite (proj2 Hnil eq_refl). split; [intros _ ? ? []|auto].
      - assert (E : target <> []) by (intros E; apply Hnil in E; discriminate). destruct target as [|a0 avs] eqn:Et; [congruence|]. rewrite <- Et in *. clear E.
        assert (Hneeds : forall k, k < length input -> (needs target m k = 0 <-> forall i, i < 32 -> In (k, i) (p0 :: req0) \/ In (i, k) (p0 :: req0) -> joined m k i)).
        { intros k Hk. unfold needs. split.
          - intros H i Hi Hki. apply joinedb_joined. destruct (joinedb m k i) eqn:Ej; [reflexivity|]. exfalso.
            destruct (masks_bit _ _ _ k i Hreq ltac:(discriminate) Hk Hi) as (_ & Hb). rewrite (proj2 (maskp_spec _ _ _) Hki) in Hb.
            assert (Hf : In i (filter (fun i0 => negb (joinedb m k i0 || bit target k i0)) (seq 0 32))) by (apply filter_In; split; [apply in_seq; lia|rewrite Ej, Hb; reflexivity]).
            destruct (filter _ (seq 0 32)); [destruct Hf|discriminate].
          - intros H. destruct (filter (fun i => negb (joinedb m k i || bit target k i)) (seq 0 32)) as [|i l] eqn:Ef; [reflexivity|]. exfalso.
            assert (Hf : In i (filter (fun i => negb (joinedb m k i || bit target k i)) (seq 0 32))) by (rewrite Ef; left; reflexivity).
            apply filter_In in Hf. destruct Hf as (Hi & Hf). apply in_seq in Hi. apply negb_true_iff, orb_false_iff in Hf. destruct Hf as (Hj & Hb).
            destruct (masks_bit _ _ _ k i Hreq ltac:(discriminate) Hk ltac:(lia)) as (_ & Hb'). rewrite Hb in Hb'. symmetry in Hb'. apply negb_false_iff in Hb'. apply maskp_spec in Hb'.
            specialize (H i ltac:(lia) Hb'). apply joinedb_joined in H. congruence. }
        assert (Hmem : forall k, members k (tagged input) = nth k input []).
        { intros k. unfold tagged. rewrite members_tag_nest, Nat.sub_0_r. reflexivity. }
        assert (Hsym : forall i j, joined m i j -> joined m j i) by (intros i j (x & y & H1 & H2); exists x, y; tauto).
        split.
        + intros H i j Hij. destruct (Hin_range _ _ i j Hreq Hij) as (Ri & Rj).
          destruct (Hne i j Hij) as [Hi|Hj].
          * specialize (H i). rewrite Hmem in H. specialize (H Hi). apply (proj1 (Hneeds i Ri) H j); [lia|]. left. exact Hij.
          * specialize (H j). rewrite Hmem in H. specialize (H Hj). apply Hsym. apply (proj1 (Hneeds j Rj) H i); [lia|]. right. exact Hij.
        + intros H k Hk. rewrite Hmem in Hk. assert (Rk : k < length input) by (destruct (Nat.lt_ge_cases k (length input)); [assumption|rewrite nth_overflow in Hk by assumption; congruence]).
          apply (Hneeds k Rk). intros i _ [Hi|Hi]; [apply H; exact Hi|apply Hsym; apply H; exact Hi]. }
    rewrite HA, HT. reflexivity.
  Qed.

  Theorem full_patterns (spinfree : bool) req av target avoided nconn (input : nest) (prefactor : list F) depth :
    connection_masks (length input) req = Some target -> connection_masks (length input) av = Some avoided -> length input <= 32 ->
    (forall i j, In (i, j) req -> nth i input [] <> [] \/ nth j input [] <> []) ->
    NoDup (concat input) -> concat input <> [] -> opsize input < depth -> (spinfree = true -> Forall balanced input) ->
    exists patt : list (pattern * Z),
      compute ieqb fermi is_qpann can_contract contract true false spinfree target avoided nconn (input_partner_indices input) input prefactor depth =
        Ok (map (fun mz => mkt (snd mz) (prefactor ++ contraction_factors (fst mz)) []) patt, 0) /\
      compute ieqb fermi is_qpann can_contract contract true true spinfree target avoided nconn (input_partner_indices input) input prefactor depth =
        Ok ([], length patt) /\
      NoDup (map fst patt) /\
      (forall m, In m (map fst patt) <-> full_matching (tagged input) m /\ admissible can_contract m /\
         (forall i j, In (i, j) av -> ~ joined m i j) /\ (forall i j, In (i, j) req -> joined m i j)) /\
      (forall m z, In (m, z) patt -> exists k, rearranged k (tagged input) (pair_list m) /\
         z = (sign fermi k * (if spinfree then Z.of_nat (spin_labellings ieqb (input_partner_indices input) (map link (map untag m))) else 1))%Z).
  Proof.
    intros Hreq Hav Hlen Hne Hn Hops Hd Hbal.
    set (ts := gof fermi is_qpann can_contract (allow target avoided) (length (tag_nest input 0)) [] (tag_nest input 0)).
    set (weight_of := fun m : pattern => if spinfree then Z.of_nat (spin_labellings ieqb (input_partner_indices input) (map link (map untag m))) else 1%Z).
    assert (Hts : forall t, In t ts -> full_matching (tagged input) (p_pairs t) /\ admissible can_contract (p_pairs t) /\ p_rest t = []).
    { intros t Ht. apply gof_sound in Ht. destruct Ht as (H1 & H2 & H3 & _). split; [exact H1|]. split; [|exact H2].
      apply (path_admissible _ _ _ _ _ H3). }
    assert (Hout : forall t, In t ts -> out_of ieqb fermi contract true spinfree (input_partner_indices input) (length input) (start input prefactor) t =
      Ok (mkt (p_sign t * weight_of (p_pairs t)) (prefactor ++ contraction_factors (p_pairs t)) [])).
    { intros t Ht. destruct (Hts t Ht) as (H1 & H2 & H3). unfold out_of, fin, finish_term. cbn [w_contr w_scal w_fac w_nest start app].
      unfold weight_of. destruct spinfree eqn:Esf.
      - destruct (pattern_loops_full input (p_pairs t) Hn (Hbal eq_refl) H1 (admissible_opposite _ H2)) as (nc & E1 & E2).
        rewrite E1, E2. rewrite Z.mul_1_l. f_equal. f_equal. rewrite Nat2Z.inj_pow. reflexivity.
      - destruct (make_target_partner_indices ieqb (input_partner_indices input) (map untag (p_pairs t))) as [tp nc]. rewrite Z.mul_1_l, Z.mul_1_r. reflexivity. }
    exists (map (fun t => (p_pairs t, (p_sign t * weight_of (p_pairs t))%Z)) ts).
    split; [|split; [|split; [|split]]].
    - destruct (compute_full ieqb ieqb_spec fermi is_qpann can_contract contract contract_nonempty true false spinfree target avoided nconn (input_partner_indices input) input prefactor Hn Hops depth eq_refl Hd) as (os & H1 & H2).
      { intros _ t Ht. eexists. apply Hout. exact Ht. }
      rewrite H2. f_equal. f_equal. rewrite map_map. cbn [fst snd]. fold ts in H1. clear - H1 Hout.
      induction H1 as [|t o ts' os H _ IH] in Hout |- *; [reflexivity|]. cbn. rewrite (Hout t (or_introl eq_refl)) in H. injection H as <-. f_equal.
      apply IH. intros; apply Hout; right; auto.
    - pose proof (compute_full ieqb ieqb_spec fermi is_qpann can_contract contract contract_nonempty true true spinfree target avoided nconn (input_partner_indices input) input prefactor Hn Hops depth eq_refl Hd) as H.
      cbn iota in H. rewrite map_length. apply H. intros E. discriminate.
    - rewrite map_map. cbn [fst]. apply gof_nodup. apply nodup_flat. exact Hn.
    - intros m. rewrite map_map. cbn [fst]. split.
      + intros Hin. apply in_map_iff in Hin. destruct Hin as (t & <- & Ht). apply gof_sound in Ht. destruct Ht as (H1 & _ & H3 & _).
        destruct (path_sound can_contract target avoided _ _ H1 (nodup_flat input Hn) [] H3) as (H4 & H5 & H6).
        split; [exact H1|]. split; [exact H4|]. apply (connection_condition input req av target avoided (p_pairs t)); auto.
      + intros (H1 & H2 & H3). apply (connection_condition input req av target avoided m) in H3; auto. destruct H3 as (H3 & H4).
        destruct (gof_complete fermi is_qpann can_contract qpann_ok (allow target avoided) (length (tag_nest input 0)) [] (tag_nest input 0) m) as (t & Ht & Em); auto.
        * apply nodup_flat. exact Hn.
        * apply path_complete; auto.
        * apply in_map_iff. exists t. auto.
    - intros m z Hin. apply in_map_iff in Hin. destruct Hin as (t & E & Ht). injection E as <- <-.
      apply gof_sound in Ht. destruct Ht as (_ & _ & _ & k & Hk & Es). exists k. split; [exact Hk|]. rewrite Es. reflexivity.
  Qed.

  (** ** Partial contractions *)
  Theorem partial_patterns (spinfree : bool) (input : nest) (prefactor : list F) depth :
    NoDup (concat input) -> concat input <> [] -> opsize input < depth -> (spinfree = true -> Forall balanced input) ->
    exists patt : list (pattern * (Z * list op)),
      compute ieqb fermi is_qpann can_contract contract false false spinfree [] [] 0 (input_partner_indices input) input prefactor depth =
        Ok (map (fun mz => mkt (fst (snd mz)) (prefactor ++ contraction_factors (fst mz)) (snd (snd mz))) patt, 0) /\
      compute ieqb fermi is_qpann can_contract contract false true spinfree [] [] 0 (input_partner_indices input) input prefactor depth =
        Ok ([], length patt) /\
      NoDup (map fst patt) /\
      (forall m, In m (map fst patt) <-> (exists rest, partial_matching (tagged input) m rest) /\ admissible can_contract m) /\
      (forall m z o, In (m, (z, o)) patt ->
         (exists k w, rearranged k (concat input) (map snd (pair_list m) ++ o) /\ z = (sign fermi k * w)%Z /\
            if spinfree then (w * 2 ^ Z.of_nat (length (input_partner_indices input) - length m))%Z = Z.of_nat (spin_labellings ieqb (input_partner_indices input) (map link (map untag m)))
            else w = 1%Z) /\
         (exists c a, o = c ++ a /\ Forall (fun x => ocre x = true) c /\ Forall (fun x => ocre x = false) a)).
  Proof.
    intros Hn Hops Hd Hbal.
    set (ts := go fermi can_contract (allow (I := I) [] []) (length (tag_nest input 0)) [] [] (tag_nest input 0)).
    set (tp_of := fun m : pattern => make_target_partner_indices ieqb (input_partner_indices input) (map untag m)).
    set (norm_of := fun t : pterm op => normalize ieqb fermi (unflat (length input) (p_rest t)) (fst (tp_of (p_pairs t)))).
    set (w_of := fun m : pattern => if spinfree then (2 ^ Z.of_nat (snd (tp_of m)))%Z else 1%Z).
    set (entry := fun t : pterm op => (p_pairs t, ((p_sign t * w_of (p_pairs t) * fst (norm_of t))%Z, normal_operator (snd (norm_of t))))).
    assert (Hout : forall t, out_of ieqb fermi contract false spinfree (input_partner_indices input) (length input) (start input prefactor) t =
      Ok (mkt (p_sign t * w_of (p_pairs t) * fst (norm_of t)) (prefactor ++ contraction_factors (p_pairs t)) (normal_operator (snd (norm_of t))))).
    { intros t. unfold out_of, fin, finish_term, norm_of, w_of, tp_of. cbn [w_contr w_scal w_fac w_nest start app].
      destruct (make_target_partner_indices ieqb (input_partner_indices input) (map untag (p_pairs t))) as [tp nc]. cbn [fst snd].
      destruct (normalize ieqb fermi (unflat (length input) (p_rest t)) tp) as [ph ca]. cbn [fst snd]. rewrite Z.mul_1_l. reflexivity. }
    assert (Hent : forall t rest, In t ts \/ t = mkp 1 [] (tag_nest input 0) -> partial_matching (tagged input) (p_pairs t) rest -> p_rest t = rest ->
      (exists k, rearranged k (tagged input) (pair_list (p_pairs t) ++ rest) /\ p_sign t = sign fermi k) -> admissible can_contract (p_pairs t) ->
      (exists k w, rearranged k (concat input) (map snd (pair_list (p_pairs t)) ++ snd (snd (entry t))) /\ fst (snd (entry t)) = (sign fermi k * w)%Z /\
            if spinfree then (w * 2 ^ Z.of_nat (length (input_partner_indices input) - length (p_pairs t)))%Z = Z.of_nat (spin_labellings ieqb (input_partner_indices input) (map link (map untag (p_pairs t))))
            else w = 1%Z) /\
      (exists c a, snd (snd (entry t)) = c ++ a /\ Forall (fun x => ocre x = true) c /\ Forall (fun x => ocre x = false) a)).
    { intros t rest _ Hm Hr (k & Hk & Es) Had. unfold entry. cbn [fst snd].
      pose proof (normalize_sign ieqb fermi (unflat (length input) (p_rest t)) (fst (tp_of (p_pairs t)))) as Hns. fold (norm_of t) in Hns.
      destruct (norm_of t) as [ph ca]. destruct Hns as (k2 & -> & Hre & Hc & Ha). cbn [fst snd].
      rewrite concat_unflat in Hre by (rewrite Hr; apply (tags_ok_partial _ _ _ _ _ Hm); apply tag_nest_tags).
      split.
      - exists (k2 + k), (w_of (p_pairs t)). split; [|split].
        + apply (re_map snd) in Hk. unfold tagged in Hk. rewrite tag_nest_snd, map_app in Hk.
          apply (re_trans _ _ _ _ _ Hk). apply re_prefix. rewrite <- Hr. exact Hre.
        + rewrite sign_add, Es. ring.
        + unfold w_of. destruct spinfree eqn:Esf; [|reflexivity].
          pose proof (pattern_loops input (p_pairs t) rest Hn (Hbal eq_refl) Hm (admissible_opposite _ Had)) as Hl. fold (tp_of (p_pairs t)) in Hl.
          destruct (tp_of (p_pairs t)) as [tp nc]. destruct Hl as (H1 & H2). cbn [snd]. rewrite H1, H2.
          replace (length (p_pairs t) + length tp - length (p_pairs t)) with (length tp) by lia.
          rewrite Nat.pow_add_r, Nat2Z.inj_mul, !Nat2Z.inj_pow. reflexivity.
      - exists (fst ca), (rev (snd ca)). split; [reflexivity|]. split; [exact Hc|]. apply Forall_rev. exact Ha. }
    assert (Hid : partial_matching (tagged input) [] (tagged input)) by apply partial_id.
    assert (Hts : forall t, In t ts -> exists rest, partial_matching (tagged input) (p_pairs t) rest /\ p_rest t = rest /\ p_pairs t <> [] /\
      (exists k, rearranged k (tagged input) (pair_list (p_pairs t) ++ rest) /\ p_sign t = sign fermi k) /\ admissible can_contract (p_pairs t)).
    { intros t Ht. apply go_sound in Ht. destruct Ht as ((x & y & tl & E & _) & Hp & rest & H1 & H2 & H3). exists rest. split; [exact H1|]. split; [exact H2|].
      split; [congruence|]. split; [exact H3|]. apply (path_admissible _ _ _ _ _ Hp). }
    set (t0 := mkp 1%Z [] (tag_nest input 0) : pterm op).
    assert (Hnorm0 : norm_of t0 = normalize ieqb fermi input (input_partner_indices input)).
    { unfold norm_of, tp_of, t0. cbn [p_rest p_pairs map]. rewrite unflat_flat. reflexivity. }
    exists (map entry (ts ++ [t0])).
    split; [|split; [|split; [|split]]].
    - destruct (compute_partial ieqb ieqb_spec fermi is_qpann can_contract contract contract_nonempty false false spinfree [] [] 0 (input_partner_indices input) input prefactor Hn Hops depth eq_refl Hd) as (os & H1 & H2).
      rewrite H2. cbn [Nat.eqb]. f_equal. f_equal. rewrite map_map, map_app. cbn [map]. f_equal.
      + fold ts in H1. clear - H1 Hout. induction H1 as [|t o ts' os H _ IH]; [reflexivity|]. cbn. rewrite (Hout t) in H. injection H as <-. f_equal. exact IH.
      + unfold entry. rewrite Hnorm0. destruct (normalize ieqb fermi input (input_partner_indices input)) as [ph ca]. cbn [fst snd p_pairs p_sign t0]. f_equal. f_equal.
        * unfold w_of, tp_of. cbn. destruct spinfree; destruct ph; reflexivity.
        * cbn. rewrite app_nil_r. reflexivity.
    - pose proof (compute_partial ieqb ieqb_spec fermi is_qpann can_contract contract contract_nonempty false true spinfree [] [] 0 (input_partner_indices input) input prefactor Hn Hops depth eq_refl Hd) as H.
      cbn iota in H. rewrite H. rewrite map_length, app_length. reflexivity.
    - rewrite map_map. cbn [fst entry]. rewrite map_app. apply nodup_app.
      + apply go_nodup. apply nodup_flat. exact Hn.
      + cbn. repeat constructor. auto.
      + intros m Hm [<-|[]]. apply in_map_iff in Hm. destruct Hm as (t & E & Ht). destruct (Hts t Ht) as (_ & _ & _ & Hne & _). contradiction.
    - intros m. rewrite map_map. cbn [fst entry]. split.
      + intros Hin. apply in_map_iff in Hin. destruct Hin as (t & <- & Ht). apply in_app_iff in Ht. destruct Ht as [Ht|[<-|[]]].
        * destruct (Hts t Ht) as (rest & H1 & _ & _ & _ & H2). split; [exists rest; exact H1|exact H2].
        * split; [exists (tagged input); exact Hid|]. intros ? ? [].
      + intros ((rest & Hm) & Had). apply in_map_iff. destruct m as [|xy m].
        * exists t0. split; [reflexivity|]. apply in_app_iff. right. left. reflexivity.
        * destruct (go_complete fermi can_contract (allow (I := I) [] []) (length (tag_nest input 0)) [] [] (tag_nest input 0) (xy :: m) rest) as (t & Ht & E & _); auto.
          -- discriminate.
          -- apply nodup_flat. exact Hn.
          -- apply (path_free can_contract _ _ rest Hm Had [] []).
          -- exists t. split; [exact E|]. apply in_app_iff. left. exact Ht.
    - intros m z o Hin. apply in_map_iff in Hin. destruct Hin as (t & E & Ht). unfold entry in E. injection E as <- <- <-.
      apply in_app_iff in Ht. destruct Ht as [Ht|[<-|[]]].
      + destruct (Hts t Ht) as (rest & H1 & H2 & _ & H3 & H4). exact (Hent t rest (or_introl Ht) H1 H2 H3 H4).
      + apply (Hent t0 (tagged input) (or_intror eq_refl)); [exact Hid|reflexivity| |intros ? ? []].
        exists 0. split; [constructor|]. rewrite sign_0. reflexivity.
  Qed.
End Patterns.
