(* Theorems about biorthogonalization (C126-C131). *)
From Coq Require Import List Arith Bool PeanoNat Lia QArith Qcanon Permutation.
From Verif Require Import Bio_Model Bio_Spec Bio_Proofs1 Bio_Proofs2 Bio_Proofs3 Bio_Proofs4.
Import ListNotations.
Local Open Scope nat_scope.

(* ---- C126: ranking and overlap ---- *)

Theorem C126_ranking : forall n,
  (forall r, r < fact n -> is_perm n (unrank r n) /\ rank (unrank r n) n = r) /\
  (forall s, is_perm n s -> rank s n < fact n /\ unrank (rank s n) n = s) /\
  unrank (fact n - 1) n = seq 0 n.
Proof.
  intros n. split; [|split].
  - intros r L. split; [apply unrank_is_perm|apply rank_unrank; exact L].
  - apply unrank_rank.
  - apply unrank_last.
Qed.

Theorem C126_cycles : forall n s, is_perm n s -> cycle_number n s (n_cycles s).
Proof. exact n_cycles_spec. Qed.

Theorem C126_overlap_matrix : forall conv n r c, r < fact n -> c < fact n ->
  ent (overlap_matrix conv n) r c = ent (overlap_matrix conv n) c r /\
  exists k, cycle_number n (mulp conv (unrank c n) (invp (unrank r n))) k /\
            ent (overlap_matrix conv n) r c = overlap_value n k.
Proof.
  intros conv n r c Lr Lc. split; [apply overlap_sym; assumption|].
  eexists. split; [|apply overlap_ent; assumption]. apply n_cycles_spec.
  apply mulp_is_perm; [apply unrank_is_perm|]. apply invp_is_perm, unrank_is_perm.
Qed.

(* ---- C127: the hard-coded coefficients ---- *)

Theorem C127_pseudoinverse_unique : forall N A X Y,
  pseudoinverse N A X -> pseudoinverse N A Y -> meq N X Y.
Proof. exact pseudoinverse_unique. Qed.

Theorem C127_available : forall n, (exists row, bio_row n = Some row /\ length row = fact n) <-> 1 <= n <= 5.
Proof.
  intros n. split.
  - intros (row & E & _). destruct n as [|n]; [discriminate|].
    do 5 (destruct n as [|n]; [lia|]). discriminate.
  - intros H. destruct (row_checks n H) as (L & _). unfold row_of in L.
    destruct (bio_row n) as [row|]; [exists row; auto|]. cbn in L. pose proof (lt_O_fact n). lia.
Qed.

Theorem C127_first_row : forall conv n row, bio_row n = Some row ->
  exists X, pseudoinverse (fact n) (ent (overlap_matrix conv n)) X /\
    (norm_factor n * sumq (map (fun r => mprod (fact n) (ent (overlap_matrix conv n)) X r r)
                               (seq 0 (fact n))))%Qc = Q2Qc (inject_Z (Z.of_nat (fact n))) /\
    forall k, k < fact n ->
      nth k row 0%Qc = (norm_factor n * X 0%nat k)%Qc /\
      bio_entry conv row n (fact n - 1) k = (norm_factor n * X (fact n - 1)%nat k)%Qc.
Proof.
  intros conv n row R.
  assert (H : 1 <= n <= 5).
  { apply C127_available. exists row. split; [exact R|].
    destruct n as [|n]; [discriminate|].
    do 5 (destruct n as [|n]; [injection R as <-; reflexivity|]). discriminate. }
  exists (mscale (/ norm_factor n) (rel conv n (row_coef n))).
  split; [apply row_pseudoinverse; exact H|]. split; [apply trace_check; exact H|].
  intros k L. destruct (row_checks n H) as (_ & _ & R1 & R2 & _).
  unfold row_of in R1, R2. rewrite R in R1, R2.
  pose proof (norm_nz n) as Z. unfold mscale. split.
  - rewrite <- (R1 conv k L). field. exact Z.
  - rewrite (R2 conv k L). unfold rel. rewrite unrank_last, invp_id, mulp_id_r by apply unrank_is_perm.
    field. exact Z.
Qed.

(* ---- C128: the transform of one result ---- *)

Theorem C128_single : forall conv tconv computed e,
  good_pairing e -> one_space e -> 1 <= length e <= 5 ->
  exists ts, transform conv tconv computed [e] = BOk [ts] /\
  forall (V : Type) (E : nat -> (ix -> V) -> Qc) L asg,
    (forall k a b, (forall i, a i = b i) -> E k a = E k b) ->
    all_perms (length e) L ->
    terms_value E ts asg =
    sumq (map (fun s => (row_coef (length e) s *
                         E 0%nat (fun i => asg (permute_seconds e s i)))%Qc) L).
Proof.
  intros conv tconv computed e G O H. set (n := length e) in *.
  destruct (row_checks n H) as (LR & _ & _ & R2 & _). unfold row_of in LR, R2.
  destruct (bio_row n) as [row|] eqn:R; [|cbn in LR; pose proof (lt_O_fact n); lia].
  eexists. split.
  - apply (transform_single conv tconv computed e (bio_entry conv row n)); [exact G|exact O|].
    unfold coeffs_of. fold n. replace (n <=? 5) with true by (symmetry; apply Nat.leb_le; lia).
    rewrite R. reflexivity.
  - intros V E L asg PE A. rewrite terms_single by assumption. fold n.
    transitivity (sumq (map (fun s => (row_coef n s * E 0%nat (fun i => asg (permute_seconds e s i)))%Qc) (perms n))).
    + unfold perms. rewrite map_map. apply sumq_map_ext. intros r I1. apply in_seq in I1.
      rewrite R2 by lia. reflexivity.
    + apply sumq_perm, Permutation_map. apply (all_perms_Permutation n); [apply perms_all|exact A].
Qed.

Theorem C128_scalar_throws : forall conv tconv computed es,
  transform conv tconv computed ([] :: es) = BThrow.
Proof. reflexivity. Qed.

(* Expressions that depend on the external second indices through f only. *)
Theorem C128_undoes_overlap : forall conv tconv computed e,
  good_pairing e -> one_space e -> 1 <= length e <= 5 ->
  exists ts, transform conv tconv computed [e] = BOk [ts] /\
  forall (V : Type) (d : V) (F : list V -> Qc) L,
    all_perms (length e) L ->
    let S := perm_sum L (ovl_coef (length e)) d in
    exists g,
      (forall asg, terms_value (fun _ a => S F (map a (map snd e))) ts asg = g (map asg (map snd e))) /\
      forall x, S g x = (norm_factor (length e) * S F x)%Qc.
Proof.
  intros conv tconv computed e G O H.
  destruct (C128_single conv tconv computed e G O H) as (ts & ET & VT).
  exists ts. split; [exact ET|]. intros V d F L A S.
  set (n := length e) in *.
  exists (perm_sum L (row_coef n) d (S F)). split.
  - intros asg. rewrite (VT V _ L asg).
    + apply sumq_map_ext. intros s I1. f_equal.
      rewrite (permuted_values V e s asg d G); [reflexivity|]. apply (proj2 A), I1.
    + intros k a b Q. f_equal. apply map_ext. exact Q.
    + exact A.
  - intros x. destruct (checks n H) as (C1 & C2 & C3 & C4 & _).
    pose proof (perms_all n) as P.
    unfold S. rewrite (perm_sum_comp V n) by exact A.
    rewrite (perm_sum_comp V n) by exact A.
    rewrite <- perm_sum_scale.
    apply (perm_sum_ext V n); [exact A| |reflexivity].
    intros s Hs.
    rewrite (gconv_ext n L _ (nns_coef n) _ (ovl_coef n)); [|exact A|exact Hs| |reflexivity].
    + rewrite (gconv_perm n L (perms n)) by assumption. apply C3, Hs.
    + intros t Ht. rewrite (gconv_perm n L (perms n)) by assumption. apply C1, Ht.
Qed.

(* ---- C129: projection on the non-null space ---- *)

Theorem C129_small_unchanged : forall b k arr, b + k <= 4 \/ k <= 2 -> nns_project b k arr = Some arr.
Proof.
  intros b k arr H. unfold nns_project. destruct (b + k <=? 4) eqn:E; [reflexivity|].
  apply Nat.leb_gt in E. replace (k <? 3) with true; [reflexivity|]. symmetry. apply Nat.ltb_lt. lia.
Qed.

(* The weight of a permutation is the matching element of (overlap) x
   (normalized pseudoinverse). *)
Theorem C129_weights : forall conv n w, nns_row n = Some w ->
  exists X, pseudoinverse (fact n) (ent (overlap_matrix conv n)) X /\
    forall k, k < fact n ->
      nth k w 0%Qc =
      (norm_factor n * mprod (fact n) (ent (overlap_matrix conv n)) X (fact n - 1) k)%Qc.
Proof.
  intros conv n w W.
  assert (H : 1 <= n <= 5).
  { destruct n as [|n]; [discriminate|]. do 5 (destruct n as [|n]; [lia|]). discriminate. }
  exists (mscale (/ norm_factor n) (rel conv n (row_coef n))).
  split; [apply row_pseudoinverse; exact H|]. intros k L.
  destruct (prod_rel_nns conv n H) as (P1 & _). pose proof (lt_O_fact n) as F.
  rewrite mprod_scale_r by lia. unfold mscale.
  rewrite (mprod_ext _ _ _ _ _ (ovl_is_rel conv n) (meq_refl _ _)) by lia.
  rewrite P1 by lia. unfold rel. rewrite unrank_last, invp_id, mulp_id_r by apply unrank_is_perm.
  unfold nns_coef. rewrite W, rank_unrank by exact L. field. apply norm_nz.
Qed.

Lemma project_sum : forall b k arr, 3 <= k <= 5 -> 5 <= b + k ->
  exists out, nns_project b k arr = Some out /\
    forall xb xk, out xb xk = perm_sum (perms k) (nns_coef k) 0 (arr xb) xk.
Proof.
  intros b k arr Hk Hb. destruct (nns_perm_sum b k arr [] [] Hk Hb) as (out & E & _).
  exists out. split; [exact E|]. intros xb xk.
  destruct (nns_perm_sum b k arr xb xk Hk Hb) as (out' & E' & V). rewrite E in E'. injection E' as <-. exact V.
Qed.

(* An array that is already an overlap-weighted or biorthogonalized sum over
   permutations of the ket only gets the factor n!/rank. *)
Theorem C129_keeps_range : forall b k L (a : perm -> Qc) (F : list nat -> list nat -> Qc),
  3 <= k <= 5 -> 5 <= b + k -> all_perms k L -> a = ovl_coef k \/ a = row_coef k ->
  exists out, nns_project b k (fun xb => perm_sum L a 0 (F xb)) = Some out /\
    forall xb xk, out xb xk = (norm_factor k * perm_sum L a 0%nat (F xb) xk)%Qc.
Proof.
  intros b k L a F Hk Hb A Ha.
  destruct (project_sum b k (fun xb => perm_sum L a 0 (F xb)) Hk Hb) as (out & E & V).
  exists out. split; [exact E|]. intros xb xk. rewrite V.
  destruct (checks k ltac:(lia)) as (C1 & C2 & C3 & C4 & C5 & C6 & C7 & _).
  pose proof (perms_all k) as P.
  rewrite (perm_sum_perm nat k (perms k) L) by assumption.
  rewrite (perm_sum_comp nat k) by exact A. rewrite <- perm_sum_scale.
  apply (perm_sum_ext nat k); [exact A| |reflexivity]. intros s Hs.
  rewrite (gconv_perm k L (perms k)) by assumption.
  destruct Ha as [-> | ->]; [apply C3, Hs|apply C5, Hs].
Qed.

(* The projected array is an overlap-weighted sum over permutations. *)
Theorem C129_lands_in_range : forall b k L arr,
  3 <= k <= 5 -> 5 <= b + k -> all_perms k L ->
  exists out F, nns_project b k arr = Some out /\
    forall xb xk, out xb xk = perm_sum L (ovl_coef k) 0 (F xb) xk.
Proof.
  intros b k L arr Hk Hb A. destruct (project_sum b k arr Hk Hb) as (out & E & V).
  exists out, (fun xb => perm_sum L (row_coef k) 0 (arr xb)). split; [exact E|].
  intros xb xk. rewrite V. destruct (checks k ltac:(lia)) as (C1 & _).
  pose proof (perms_all k) as P.
  rewrite (perm_sum_perm nat k (perms k) L) by assumption.
  rewrite (perm_sum_comp nat k) by exact A.
  apply (perm_sum_ext nat k); [exact A| |reflexivity]. intros s Hs.
  rewrite (gconv_perm k L (perms k)) by assumption. symmetry. apply C1, Hs.
Qed.

Theorem C129_twice : forall b k arr out, 3 <= k <= 5 -> 5 <= b + k ->
  nns_project b k arr = Some out ->
  exists out2, nns_project b k out = Some out2 /\
    forall xb xk, out2 xb xk = (norm_factor k * out xb xk)%Qc.
Proof.
  intros b k arr out Hk Hb E.
  destruct (project_sum b k arr Hk Hb) as (o1 & E1 & V1). rewrite E in E1. injection E1 as <-.
  destruct (project_sum b k out Hk Hb) as (o2 & E2 & V2). exists o2. split; [exact E2|].
  intros xb xk. rewrite V2, V1. pose proof (perms_all k) as P.
  destruct (checks k ltac:(lia)) as (_ & _ & _ & _ & _ & _ & C7 & _).
  rewrite (perm_sum_ext nat k _ _ (nns_coef k) _ _ (perm_sum (perms k) (nns_coef k) 0 (arr xb)));
    [|exact P|reflexivity|intros y; apply V1].
  rewrite (perm_sum_comp nat k) by exact P. rewrite <- perm_sum_scale.
  apply (perm_sum_ext nat k); [exact P|exact C7|reflexivity].
Qed.

(* ---- C130: every term permutes the external indices ---- *)

Theorem C130_terms_partial : forall conv tconv computed e,
  good_pairing e -> one_space e -> 1 <= length e ->
  exists ts, transform conv tconv computed [e] = BOk [ts] /\ length ts = fact (length e) /\
    forall t, In t ts ->
      fst (snd t) = 0 /\
      Permutation (map (lookup_ix (snd (snd t))) (map fst e ++ map snd e)) (map fst e ++ map snd e) /\
      (forall i, In i (map fst e) -> lookup_ix (snd (snd t)) i = i) /\
      (forall i, isp (lookup_ix (snd (snd t)) i) = isp i).
Proof.
  intros conv tconv computed e G O H.
  assert (C : exists cf, coeffs_of conv computed (length e) = Some cf).
  { unfold coeffs_of. destruct (length e <=? 5) eqn:L5; [|eexists; reflexivity].
    apply Nat.leb_le in L5. destruct (proj2 (C127_available (length e))) as (row & R & _); [lia|].
    rewrite R. eexists; reflexivity. }
  destruct C as (cf & C). rewrite (transform_single conv tconv computed e cf G O C).
  eexists. split; [reflexivity|]. split; [rewrite map_length, seq_length; reflexivity|].
  intros t I1. apply in_map_iff in I1. destruct I1 as (r & <- & _). cbn [fst snd].
  pose proof (unrank_is_perm (length e) r) as P. set (s := unrank r (length e)) in *. clearbody s.
  assert (LK : forall i, lookup_ix (replacements e e s) i = permute_seconds e s i)
    by (intros i; apply lookup_repl; assumption).
  assert (FS : forall i, In i (map fst e) -> permute_seconds e s i = i).
  { intros i I1. unfold permute_seconds.
    destruct (find_pos (fun x => ix_eqb (snd x) i) e <? length e) eqn:Q; [exfalso|reflexivity].
    apply Nat.ltb_lt in Q.
    assert (X : forall l : pairing, find_pos (fun x => ix_eqb (snd x) i) l < length l -> In i (map snd l)).
    { induction l as [|x l IH]; cbn; [lia|]. destruct (ix_eqb (snd x) i) eqn:W.
      - intros _. left. apply ix_eqb_eq, W.
      - intros L. right. apply IH. lia. }
    apply X in Q. unfold good_pairing in G.
    apply in_split in I1. destruct I1 as (l1 & l2 & E1). rewrite E1 in G. rewrite <- app_assoc in G.
    apply NoDup_remove_2 in G. apply G. apply in_or_app. right. apply in_or_app. right. exact Q. }
  split; [reflexivity|]. split; [|split].
  - rewrite map_app. apply Permutation_app.
    + rewrite (map_ext_in _ (fun i => i)); [rewrite map_id; apply Permutation_refl|].
      intros i I1. rewrite LK. apply FS, I1.
    + rewrite (map_ext _ (fun i => (fun j => j) (permute_seconds e s i))) by exact LK.
      rewrite (permuted_values ix e s (fun j => j) dix G P), map_id.
      apply Permutation_trans with (map (fun i => nth i (map snd e) dix) (seq 0 (length e))).
      * apply Permutation_map. exact P.
      * replace (map (fun i => nth i (map snd e) dix) (seq 0 (length e))) with (map snd e); [apply Permutation_refl|].
        apply (nth_ext _ _ dix dix); rewrite !map_length, ?seq_length; [reflexivity|].
        intros i L. rewrite nth_map_seq by exact L. reflexivity.
  - intros i I1. rewrite LK. apply FS, I1.
  - intros i. rewrite LK. unfold permute_seconds.
    destruct (find_pos (fun x => ix_eqb (snd x) i) e <? length e) eqn:Q; [|reflexivity].
    apply Nat.ltb_lt in Q.
    assert (X : forall l : pairing, find_pos (fun x => ix_eqb (snd x) i) l < length l ->
                  snd (nth (find_pos (fun x => ix_eqb (snd x) i) l) l (dix, dix)) = i).
    { induction l as [|x l IH]; cbn; [lia|]. destruct (ix_eqb (snd x) i) eqn:W.
      - intros _. apply ix_eqb_eq, W.
      - intros L. apply IH. lia. }
    specialize (X e Q). set (k := find_pos (fun x => ix_eqb (snd x) i) e) in *.
    rewrite <- X at 1. destruct (psnd_In e (img s k)) as (a & Ia & Ea & _); [apply (img_lt (length e)); assumption|].
    rewrite Ea. apply O; [exact Ia|]. apply nth_In. exact Q.
Qed.

(* ---- C131: the filter ---- *)

Theorem C131_filter : forall n ts,
  (n <= 2 -> wk_filter n ts = ts) /\
  (2 < n -> (forall t, In t (wk_filter n ts) -> is_product t) /\
            forall h, group h (wk_filter n ts) = largest (group h ts)).
Proof.
  intros n ts. split.
  - intros L. unfold wk_filter. apply Nat.leb_le in L. rewrite L. reflexivity.
  - intros L. split; [intros t; apply wk_filter_products; exact L|intros h; apply wk_filter_groups; exact L].
Qed.

Theorem C131_no_group_lost : forall n ts s h id, In (FProd s h id) ts ->
  exists s' id', In (FProd s' h id') (wk_filter n ts) /\ (qabs s <= qabs s')%Qc.
Proof.
  intros n ts s h id I1. destruct (le_lt_dec n 2) as [L|L].
  - exists s, id. rewrite (proj1 (C131_filter n ts) L). split; [exact I1|apply Qcle_refl].
  - assert (IG : forall l s0 i0, In (s0, i0) (group h l) <-> In (FProd s0 h i0) l).
    { intros l s0 i0. unfold group. rewrite in_flat_map. split.
      - intros (t & It & K). destruct t as [s1 h1 i1|i1]; [|destruct K].
        destruct (h1 =? h) eqn:E; [|destruct K]. apply Nat.eqb_eq in E.
        destruct K as [K|[]]. injection K as -> ->. subst h1. exact It.
      - intros It. exists (FProd s0 h i0). split; [exact It|]. rewrite Nat.eqb_refl. left; reflexivity. }
    apply IG in I1.
    destruct (largest_exists (group h ts)) as ((s', id') & Im & M); [intros Q; rewrite Q in I1; destruct I1|].
    exists s', id'. split.
    + apply IG. rewrite (wk_filter_groups n ts h L). apply in_largest. auto.
    + apply (M (s, id) I1).
Qed.

Module BioExamples.

(* three particles, distinct external indices in two spaces *)
Definition e3 : pairing :=
  [(Ix 1 1, Ix 11 2); (Ix 2 1, Ix 12 2); (Ix 3 1, Ix 13 2)].
Example e3_good : good_pairing e3 /\ one_space e3 /\ 1 <= length e3 <= 5.
Proof.
  split; [|split].
  - unfold good_pairing, e3. cbn.
    repeat (constructor; [cbn; intuition discriminate|]). constructor.
  - intros a b Ia Ib. cbn in Ia, Ib. intuition (subst; reflexivity).
  - cbn. lia.
Qed.
Example perms_exist : all_perms 3 (perms 3).
Proof. apply perms_all. Qed.
Example e3_coefficients :
  match transform true true (fun _ _ => 0%Qc) [e3] with
  | BOk [ts] => map (fun t => this (fst t)) ts
  | _ => []
  end = [(-7 # 120); (-7 # 120); (-1 # 120); (-1 # 120); (-1 # 120); (17 # 120)]%Q.
Proof. vm_compute. reflexivity. Qed.
Example overlap_2 : map (map this) (overlap_matrix true 2) = [[4 # 1; -2 # 1]; [-2 # 1; 4 # 1]]%Q.
Proof. vm_compute. reflexivity. Qed.
Example project_case : nns_project 3 3 (fun _ xk => if list_eqb xk [0; 1; 2] then 1%Qc else 0%Qc) <> None.
Proof. discriminate. Qed.

(* Projecting twice is not the same as projecting once. *)
Theorem C129_idempotent_refuted :
  ~ (forall b k arr out out2, nns_project b k arr = Some out -> nns_project b k out = Some out2 ->
       forall xb xk, out2 xb xk = out xb xk).
Proof.
  intros H.
  specialize (H 3 3 (fun _ xk => if list_eqb xk [0; 1; 2] then 1%Qc else 0%Qc) _ _ eq_refl eq_refl [] [0; 1; 2]).
  apply (f_equal (fun q : Qc => Qeq_bool (this q) (1 # 1))) in H. vm_compute in H. discriminate.
Qed.

(* The matrix built from the hard-coded row is not the normalized
   pseudoinverse: it is not even symmetric for three particles. *)
Theorem C127_matrix_refuted : forall conv,
  ~ (forall n row, bio_row n = Some row ->
       forall r c, r < fact n -> c < fact n ->
         bio_entry conv row n r c = bio_entry conv row n c r).
Proof.
  intros conv H. destruct (bio_row 3) as [row|] eqn:R; [|discriminate].
  assert (K : forallb (fun r => forallb (fun c => qc_eqb (bio_entry conv row 3 r c) (bio_entry conv row 3 c r))
                 (seq 0 6)) (seq 0 6) = true).
  { apply forallb_forall. intros r Ir. apply forallb_forall. intros c Ic.
    apply in_seq in Ir. apply in_seq in Ic.
    unfold qc_eqb. rewrite (H 3 row R r c); [|cbn; lia|cbn; lia]. apply Qeq_bool_refl. }
  injection R as <-. destruct conv; vm_compute in K; discriminate.
Qed.

(* Six results, one for each pairing of three particles in six spaces. *)
Definition firsts := [Ix 1 1; Ix 2 2; Ix 3 3].
Definition seconds := [Ix 11 4; Ix 12 5; Ix 13 6].
Definition e6 : list pairing :=
  map (fun s => combine firsts (map (fun i => nth i seconds dix) s)) (rev (perms 3)).

(* In the exact transform every result contains its own expression with the
   coefficient of the identity, 17/120.  The first result does, the second
   does not. *)
Theorem C128_several_results_refuted : forall conv tconv computed,
  exists ls, transform conv tconv computed e6 = BOk ls /\
    row_coef 3 (seq 0 3) = Q2Qc (17 # 120) /\
    In (Q2Qc (17 # 120), (0, [])) (nth 0 ls []) /\
    In (Q2Qc (-1 # 120), (1, [])) (nth 1 ls []) /\
    ~ In (Q2Qc (17 # 120), (1, [])) (nth 1 ls []).
Proof.
  intros conv tconv computed.
  assert (R : row_coef 3 (seq 0 3) = Q2Qc (17 # 120)) by (apply qc_eqb_eq; vm_compute; reflexivity).
  assert (H : exists ls, transform conv tconv computed e6 = BOk ls /\
     existsb (fun t => qc_eqb (fst t) (Q2Qc (17 # 120)) && (fst (snd t) =? 0) && (length (snd (snd t)) =? 0)) (nth 0 ls []) = true /\
     existsb (fun t => qc_eqb (fst t) (Q2Qc (-1 # 120)) && (fst (snd t) =? 1) && (length (snd (snd t)) =? 0)) (nth 1 ls []) = true /\
     existsb (fun t => qc_eqb (fst t) (Q2Qc (17 # 120)) && (fst (snd t) =? 1) && (length (snd (snd t)) =? 0)) (nth 1 ls []) = false).
  { destruct conv, tconv; (eexists; split; [vm_compute; reflexivity|]);
      (split; [vm_compute; reflexivity|split; vm_compute; reflexivity]). }
  destruct H as (ls & E & A & B & C). exists ls. split; [exact E|]. split; [exact R|].
  assert (G : forall q k l, existsb (fun t : bterm => qc_eqb (fst t) q && (fst (snd t) =? k) && (length (snd (snd t)) =? 0)) l = true
                -> In (q, (k, [])) l).
  { intros q k l X. apply existsb_exists in X. destruct X as ((c & k' & rp) & I1 & X). cbn [fst snd] in X.
    rewrite !andb_true_iff in X. destruct X as ((X1 & X2) & X3).
    apply qc_eqb_eq in X1. apply Nat.eqb_eq in X2. apply Nat.eqb_eq in X3.
    destruct rp; [|discriminate]. subst. exact I1. }
  split; [apply G, A|]. split; [apply G, B|].
  intros I1. apply Bool.not_true_iff_false in C. apply C. apply existsb_exists.
  exists (Q2Qc (17 # 120), (1, [])). split; [exact I1|]. vm_compute. reflexivity.
Qed.

(* Three particles whose second indices are in two spaces: a term in which an
   external index occurs twice and another one is lost. *)
Definition emix : pairing :=
  [(Ix 1 1, Ix 11 2); (Ix 2 1, Ix 12 2); (Ix 3 1, Ix 13 3)].
Theorem C130_mixed_spaces_refuted : forall conv tconv computed,
  good_pairing emix /\
  exists ts t, transform conv tconv computed [emix] = BOk [ts] /\ In t ts /\
    lookup_ix (snd (snd t)) (Ix 1 1) = Ix 1 1 /\
    lookup_ix (snd (snd t)) (Ix 3 1) = Ix 1 1 /\
    ~ In (Ix 2 1) (map (lookup_ix (snd (snd t))) (map fst emix ++ map snd emix)) /\
    fst t <> 0%Qc.
Proof.
  intros conv tconv computed. split.
  { unfold good_pairing, emix. cbn.
    repeat (constructor; [cbn; intuition discriminate|]). constructor. }
  assert (H : exists ts, transform conv tconv computed [emix] = BOk [ts] /\
     existsb (fun t => ix_eqb (lookup_ix (snd (snd t)) (Ix 1 1)) (Ix 1 1) &&
                       ix_eqb (lookup_ix (snd (snd t)) (Ix 3 1)) (Ix 1 1) &&
                       negb (existsb (ix_eqb (Ix 2 1)) (map (lookup_ix (snd (snd t))) (map fst emix ++ map snd emix))) &&
                       negb (qc_eqb (fst t) 0%Qc)) ts = true).
  { destruct conv, tconv; (eexists; split; [vm_compute; reflexivity|vm_compute; reflexivity]). }
  destruct H as (ts & E & X). apply existsb_exists in X. destruct X as (t & I1 & X).
  rewrite !andb_true_iff in X. destruct X as (((X1 & X2) & X3) & X4).
  exists ts, t. split; [exact E|]. split; [exact I1|].
  apply ix_eqb_eq in X1. apply ix_eqb_eq in X2. split; [exact X1|]. split; [exact X2|]. split.
  - intros I2. apply negb_true_iff in X3. apply Bool.not_true_iff_false in X3. apply X3.
    apply existsb_exists. exists (Ix 2 1). split; [exact I2|apply ix_eqb_refl].
  - intros Q. rewrite Q in X4. vm_compute in X4. discriminate.
Qed.

(* With three or more external groups a term that is not a product is lost. *)
Theorem C131_bare_terms_refuted :
  ~ (forall n ts id, In (FOther id) ts -> In (FOther id) (wk_filter n ts)).
Proof.
  intros H. specialize (H 3 [FProd 1%Qc 5 1; FOther 7] 7 (or_intror (or_introl eq_refl))).
  cbn in H. destruct H as [H|[]]. discriminate.
Qed.
Example filter_case :
  wk_filter 3 [FProd (Q2Qc (1 # 2)) 5 1; FProd (Q2Qc (-1 # 1)) 5 2; FProd (Q2Qc (1 # 3)) 4 3] =
  [FProd (Q2Qc (1 # 3)) 4 3; FProd (Q2Qc (-1 # 1)) 5 2].
Proof. reflexivity. Qed.

End BioExamples.
