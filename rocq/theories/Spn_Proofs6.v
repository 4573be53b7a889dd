(** Sums over orbitals and spins; the enumeration of spin cases. *)
From Coq Require Import ZArith NArith QArith Qcanon List Arith Bool Permutation Sorted Lia Ring.
From Verif Require Import Alg_Model Alg_Spec Alg_Proofs1 Alg_Proofs2 Spn_Model Spn_Spec Spn_Proofs1 Spn_Proofs2 Spn_Proofs3 Spn_Proofs4 Spn_Proofs5.
Import ListNotations.
Local Open Scope nat_scope.

Definition resp {X Y} (F : (nat -> X) -> Y) : Prop := forall b1 b2, (forall j, b1 j = b2 j) -> F b1 = F b2.

Lemma existsb_In x l : existsb (Nat.eqb x) l = true <-> In x l.
Proof.
  rewrite existsb_exists. split; [intros (y & H & E); apply Nat.eqb_eq in E; subst; auto|]. intros H. exists x. split; auto. apply Nat.eqb_refl.
Qed.
Lemma existsb_notIn x l : existsb (Nat.eqb x) l = false <-> ~ In x l.
Proof. rewrite <- existsb_In. destruct (existsb (Nat.eqb x) l); split; intros; try discriminate; auto. destruct H; auto. Qed.

Section Sums.
  Context {K : qalg}.
  Local Open Scope q_scope.
  Add Ring Kring14 : (qring K).

  Lemma index_sum_ext {X} range is (F G : (nat -> X) -> K) : (forall b, F b = G b) -> forall b, index_sum range is F b = index_sum range is G b.
  Proof. intros H. induction is as [|i is IH]; intros b; cbn; auto. apply sum_ext. auto. Qed.
  Lemma update_ext {X} (b1 b2 : nat -> X) i o : (forall j, b1 j = b2 j) -> forall j, update b1 i o j = update b2 i o j.
  Proof. intros H j. unfold update. destruct (Nat.eqb j i); auto. Qed.
  Lemma index_sum_resp {X} range is (F : (nat -> X) -> K) : resp F -> resp (index_sum range is F).
  Proof.
    intros H. induction is as [|i is IH]; intros b1 b2 E; cbn; auto. apply sum_ext. intros o _. apply IH. apply update_ext. auto.
  Qed.
  Lemma index_sum_sum {X Y} range is (F : Y -> (nat -> X) -> K) l b : index_sum range is (fun b' => sum (fun y => F y b') l) b = sum (fun y => index_sum range is (F y) b) l.
  Proof.
    revert b. induction is as [|i is IH]; intros b; cbn; auto. rewrite (sum_ext _ (fun o => sum (fun y => index_sum range is (F y) (update b i o)) l)) by auto. apply sum_swap.
  Qed.
  Lemma index_sum_mul {X} range is c (F : (nat -> X) -> K) b : index_sum range is (fun b' => c * F b') b = c * index_sum range is F b.
  Proof. revert b. induction is as [|i is IH]; intros b; cbn; auto. rewrite <- sum_mul_l. apply sum_ext. auto. Qed.
  Lemma index_sum_perm {X} range is is' (F : (nat -> X) -> K) : Permutation is is' -> resp F -> forall b, index_sum range is F b = index_sum range is' F b.
  Proof.
    intros P R. induction P as [|i is is' P IH|i j is|is1 is2 is3 P1 IH1 P2 IH2]; intros b; cbn; auto.
    - apply sum_ext. auto.
    - destruct (Nat.eq_dec i j) as [->|Hn]; auto. rewrite sum_swap. apply sum_ext. intros o _. apply sum_ext. intros o' _.
      apply index_sum_resp; auto. intros x. unfold update. destruct (Nat.eqb_spec x i), (Nat.eqb_spec x j); subst; auto. destruct Hn. auto.
    - rewrite IH1. auto.
  Qed.

  Lemma spin_sum_ext gs (F G : (nat -> bool) -> K) : (forall s, F s = G s) -> forall s, spin_sum gs F s = spin_sum gs G s.
  Proof. intros H. induction gs as [|g gs IH]; intros s; cbn; auto. rewrite !IH. auto. Qed.
  Lemma set_group_ext g v (s1 s2 : nat -> bool) : (forall j, s1 j = s2 j) -> forall j, set_group g v s1 j = set_group g v s2 j.
  Proof. intros H j. unfold set_group. destruct (existsb _ _); auto. Qed.
  Lemma spin_sum_resp gs (F : (nat -> bool) -> K) : resp F -> resp (spin_sum gs F).
  Proof.
    intros H. induction gs as [|g gs IH]; intros s1 s2 E; cbn; auto. f_equal; apply IH; apply set_group_ext; auto.
  Qed.
  Lemma spin_sum_perm gs gs' (F : (nat -> bool) -> K) : Permutation gs gs' -> NoDup (concat gs) -> resp F -> forall s, spin_sum gs F s = spin_sum gs' F s.
  Proof.
    intros P. induction P as [|g gs gs' P IH|g h gs|gs1 gs2 gs3 P1 IH1 P2 IH2]; intros N R s; cbn [spin_sum]; auto.
    - cbn in N. apply NoDup_parts in N. rewrite !IH by tauto. auto.
    - cbn in N. apply NoDup_parts in N. destruct N as (_ & _ & D).
      assert (E : forall v w, spin_sum gs F (set_group g v (set_group h w s)) = spin_sum gs F (set_group h w (set_group g v s))).
      { intros v w. apply spin_sum_resp; auto. intros j. unfold set_group. destruct (existsb (Nat.eqb j) g) eqn:E1, (existsb (Nat.eqb j) h) eqn:E2; auto.
        apply existsb_In in E1, E2. destruct (D j); auto. apply in_app_iff. auto. }
      rewrite !E. ring.
    - rewrite IH1, IH2; auto. apply (Permutation_NoDup (l := concat gs1)); auto.
      clear - P1. induction P1; cbn; auto; [apply Permutation_app_head; auto|rewrite !app_assoc; apply Permutation_app_tail, Permutation_app_comm|eapply Permutation_trans; eauto].
  Qed.

  (** The spin of every index in a spin case given by the spins of the groups ([true]: beta). *)
  Fixpoint assign (beta_at : nat -> bool) (gs : list (list nat)) (s : nat -> bool) : nat -> bool :=
    match gs with
    | [] => s
    | g :: gs' => assign (fun j => beta_at (S j)) gs' (set_group g (negb (beta_at 0%nat)) s)
    end.
  Lemma assign_ext gs : forall f1 f2 s1 s2, (forall j, f1 j = f2 j) -> (forall j, s1 j = s2 j) -> forall x, assign f1 gs s1 x = assign f2 gs s2 x.
  Proof.
    induction gs as [|g gs IH]; intros f1 f2 s1 s2 H1 H2 x; cbn; auto. apply IH; auto. intros j. rewrite H1. apply set_group_ext. auto.
  Qed.
  Definition bits (c : nat) (j : nat) : bool := N.testbit (N.of_nat c) (N.of_nat j).

  Lemma seq_halves n : Permutation (seq 0 (2 ^ S n)) (map (fun c => 2 * c)%nat (seq 0 (2 ^ n)) ++ map (fun c => S (2 * c))%nat (seq 0 (2 ^ n))).
  Proof.
    assert (G : forall m, Permutation (seq 0 (2 * m)) (map (fun c => 2 * c)%nat (seq 0 m) ++ map (fun c => S (2 * c))%nat (seq 0 m))).
    { induction m as [|m IH]; auto. replace (2 * S m)%nat with (S (S (2 * m))) by lia. rewrite !seq_S, !map_app. cbn [map]. rewrite !Nat.add_0_l.
      eapply Permutation_trans; [apply Permutation_app_tail, Permutation_app_tail, IH|]. rewrite <- !app_assoc. apply Permutation_app_head.
      cbn [app]. eapply Permutation_trans; [apply Permutation_app_comm|]. cbn [app]. apply perm_skip. apply Permutation_cons_append. }
    apply G.
  Qed.
  Lemma bits_even c : bits (2 * c) 0 = false /\ forall j, bits (2 * c) (S j) = bits c j.
  Proof.
    unfold bits. replace (N.of_nat (2 * c)) with (2 * N.of_nat c)%N by lia. split; [apply N.testbit_even_0|].
    intros j. replace (N.of_nat (S j)) with (N.succ (N.of_nat j)) by lia. apply N.testbit_even_succ. lia.
  Qed.
  Lemma bits_odd c : bits (S (2 * c)) 0 = true /\ forall j, bits (S (2 * c)) (S j) = bits c j.
  Proof.
    unfold bits. replace (N.of_nat (S (2 * c))) with (2 * N.of_nat c + 1)%N by lia. split; [apply N.testbit_odd_0|].
    intros j. replace (N.of_nat (S j)) with (N.succ (N.of_nat j)) by lia. apply N.testbit_odd_succ. lia.
  Qed.

  Lemma spin_sum_cases gs (F : (nat -> bool) -> K) : resp F -> forall s, spin_sum gs F s = sum (fun c => F (assign (bits c) gs s)) (seq 0 (2 ^ length gs)).
  Proof.
    intros R. induction gs as [|g gs IH]; intros s; [unfold sum; cbn; ring|].
    cbn [length]. rewrite (sum_perm _ _ _ (seq_halves (length gs))), sum_app, !sum_map. cbn [spin_sum]. rewrite !IH. f_equal; apply sum_ext; intros c _; apply R; intros x; cbn [assign].
    - destruct (bits_even c) as (E0 & E1). apply assign_ext; auto. intros j. rewrite E0. reflexivity.
    - destruct (bits_odd c) as (E0 & E1). apply assign_ext; auto. intros j. rewrite E0. reflexivity.
  Qed.

  Lemma index_spin_sum {X} range is gs (F : (nat -> X) -> (nat -> bool) -> K) b s : (forall b, resp (F b)) ->
    index_sum range is (fun b' => spin_sum gs (F b') s) b = sum (fun c => index_sum range is (fun b' => F b' (assign (bits c) gs s)) b) (seq 0 (2 ^ length gs)).
  Proof.
    intros R. rewrite (index_sum_ext range is _ (fun b' => sum (fun c => F b' (assign (bits c) gs s)) (seq 0 (2 ^ length gs)))) by (intros; apply spin_sum_cases; auto).
    apply index_sum_sum.
  Qed.
End Sums.

(** ** Spin cases *)
Lemma spin_bit_ok c j : (j < 64)%nat -> spin_bit c j = if N.testbit c (N.of_nat j) then 1%N else 0%N.
Proof.
  intros H. unfold spin_bit. apply N.bits_inj. intros k. rewrite N.shiftr_spec by lia.
  destruct (N.eq_dec k 0) as [->|Hk].
  - rewrite N.mod_pow2_bits_low by lia. rewrite N.shiftl_spec_high by lia.
    replace (0 + 63 - N.of_nat (64 - j - 1))%N with (N.of_nat j) by lia. destruct (N.testbit c (N.of_nat j)); reflexivity.
  - rewrite N.mod_pow2_bits_high by lia. destruct (N.testbit c (N.of_nat j)); [|rewrite N.bits_0; auto].
    change 1%N with (2 ^ 0)%N. rewrite N.pow2_bits_false by lia. reflexivity.
Qed.

Definition flag (b : bool) : spin := if b then alpha else beta.

Lemma assign_out gs : forall f s x, ~ In x (concat gs) -> assign f gs s x = s x.
Proof.
  induction gs as [|g gs IH]; intros f s x H; cbn; auto. cbn in H. rewrite IH by (rewrite in_app_iff in H; tauto). unfold set_group.
  rewrite (proj2 (existsb_notIn x g)); auto. rewrite in_app_iff in H. tauto.
Qed.
Lemma spin_any_names l i : spin_any l -> snd i = any -> In (fst i) (names l) -> In i l.
Proof.
  intros H E Hi. apply in_map_iff in Hi. destruct Hi as (j & E' & Hj). specialize (H j Hj). destruct i, j. cbn in *. subst. auto.
Qed.
Lemma names_NoDup l : spin_any l -> NoDup l -> NoDup (names l).
Proof.
  intros H N. induction N as [|x l Hx N IH]; cbn; constructor.
  - intros H'. apply Hx. apply (spin_any_names l x); auto; [intros y Hy; apply H; right; auto|apply H; left; auto].
  - apply IH. intros y Hy. apply H. right. auto.
Qed.
Lemma concat_names gs : concat (map names gs) = names (concat gs).
Proof. unfold names. rewrite concat_map. reflexivity. Qed.

Lemma entries_keys c : forall gs j, map fst (spincase_entries c j gs) = concat gs.
Proof.
  induction gs as [|g gs IH]; intros j; cbn; auto. rewrite map_app, map_map, IH. f_equal. cbn. apply map_id.
Qed.
Lemma entries_lookup c : forall gs j s i, (j + length gs <= 64)%nat -> NoDup (concat gs) -> spin_any (concat gs) -> In i (concat gs) ->
  In (i, with_spin (flag (assign (fun x => N.testbit c (N.of_nat (j + x))) (map names gs) s (fst i))) i) (spincase_entries c j gs).
Proof.
  induction gs as [|g gs IH]; intros j s i L N A Hi; [destruct Hi|]. cbn [length] in L. cbn [spincase_entries map assign]. cbn in N, Hi.
  destruct (NoDup_parts _ _ N) as (N1 & N2 & D). apply in_app_iff in Hi. apply in_app_iff. destruct Hi as [Hi|Hi].
  - left. apply in_map_iff. exists i. split; auto. f_equal. rewrite assign_out.
    + rewrite spin_bit_ok by lia. unfold set_group. rewrite (proj2 (existsb_In (fst i) (names g))) by (apply in_map; auto).
      rewrite Nat.add_0_r. destruct (N.testbit c (N.of_nat j)); reflexivity.
    + rewrite concat_names. intros H. apply (D i Hi). apply spin_any_names; auto.
      * intros y Hy. apply A. cbn. apply in_app_iff. auto.
      * apply A. cbn. apply in_app_iff. auto.
  - right.
    assert (E : forall s', assign (fun x => N.testbit c (N.of_nat (j + S x))) (map names gs) s' (fst i) = assign (fun x => N.testbit c (N.of_nat (S j + x))) (map names gs) s' (fst i)).
    { intros s'. apply assign_ext; auto. intros x. rewrite Nat.add_succ_r. reflexivity. }
    rewrite E. apply IH; auto; [lia|]. intros y Hy. apply A. cbn. apply in_app_iff. auto.
Qed.

Section Cases.
  Variable lt : index -> index -> bool.
  Hypothesis TO : total_order lt.

  Definition case_map (gs : list (list index)) (c : nat) : list (index * index) := map_of lt (spincase_entries (N.of_nat c) 0 gs).
  Lemma spincases_ok gs : length gs <= 63 -> spincases lt gs = Some (map (case_map gs) (seq 0 (2 ^ length gs))).
  Proof. intros H. unfold spincases. rewrite (proj2 (Nat.leb_le _ _) H). reflexivity. Qed.

  Lemma case_lookup gs c i s : length gs <= 63 -> NoDup (concat gs) -> spin_any (concat gs) ->
    lookup (case_map gs c) i = if mem i (concat gs) then with_spin (flag (assign (bits c) (map names gs) s (fst i))) i else i.
  Proof.
    intros L N A. unfold case_map. rewrite lookup_map_of by (auto; rewrite entries_keys; auto).
    destruct (mem i (concat gs)) eqn:E.
    - apply existsb_exists in E. destruct E as (j & Hj & E). apply index_eqb_eq in E. subst j.
      apply lookup_In; [rewrite entries_keys; auto|].
      pose proof (entries_lookup (N.of_nat c) gs 0 s i ltac:(lia) N A Hj) as H. cbn in H. exact H.
    - apply lookup_notin. rewrite entries_keys. intros H. assert (E' : mem i (concat gs) = true) by (apply existsb_exists; exists i; split; auto; apply index_eqb_refl). congruence.
  Qed.
  Lemma case_fst gs c i : length gs <= 63 -> NoDup (concat gs) -> spin_any (concat gs) -> fst (lookup (case_map gs c) i) = fst i.
  Proof. intros L N A. rewrite (case_lookup gs c i (fun _ => true)) by auto. destruct (mem _ _); auto. Qed.

  (** An index sees its spin. *)
  Lemma case_spin gs c i s : length gs <= 63 -> NoDup (concat gs) -> spin_any (concat gs) ->
    (In i (concat gs) \/ (~ In (fst i) (names (concat gs)) /\ spin_value (snd i) = s (fst i))) ->
    spin_value (snd (lookup (case_map gs c) i)) = assign (bits c) (map names gs) s (fst i).
  Proof.
    intros L N A H. rewrite (case_lookup gs c i s) by auto. destruct H as [H|(H & E)].
    - assert (E' : mem i (concat gs) = true) by (apply existsb_exists; exists i; split; auto; apply index_eqb_refl). rewrite E'. cbn.
      destruct (assign _ _ _ _); reflexivity.
    - destruct (mem i (concat gs)) eqn:E'.
      + apply existsb_exists in E'. destruct E' as (j & Hj & E'). apply index_eqb_eq in E'. subst. destruct H. apply in_map. auto.
      + rewrite assign_out; auto. rewrite concat_names. auto.
  Qed.
End Cases.

(** ** Names of indices *)
Lemma all_indices_rename f fs : (forall i, fst (f i) = fst i) -> all_indices (map (rename_factor f) fs) = all_indices fs.
Proof.
  intros H. unfold all_indices. induction fs as [|x fs IH]; cbn [map flat_map]; auto. rewrite IH. f_equal. destruct x as [t|v]; cbn; auto.
  rewrite !map_app, !map_map. f_equal; [|f_equal]; apply map_ext; auto.
Qed.
Lemma orbital_indices_rename f fs : (forall i, fst (f i) = fst i) -> orbital_indices (map (rename_factor f) fs) = orbital_indices fs.
Proof.
  intros H. unfold orbital_indices. induction fs as [|x fs IH]; cbn [map flat_map]; auto. rewrite IH. f_equal. destruct x as [t|v]; cbn; auto.
  rewrite !map_app, !map_map. f_equal; apply map_ext; auto.
Qed.
Definition same_indices (t t' : tensor) : Prop := t_aux t' = t_aux t /\ Permutation (t_bra t) (t_bra t') /\ Permutation (t_ket t) (t_ket t').
Lemma all_indices_rel (R : tensor -> tensor -> Prop) fs fs' : (forall t t', R t t' -> same_indices t t') -> Forall2 (factor_rel R) fs fs' -> Permutation (all_indices fs) (all_indices fs').
Proof.
  intros HR H. induction H as [|x y fs fs' Hx H IH]; cbn; auto. apply Permutation_app; auto.
  destruct x as [t|v], y as [t'|v']; cbn in Hx; try contradiction; auto. destruct (HR _ _ Hx) as (E & P1 & P2). rewrite E.
  apply Permutation_map. apply Permutation_app; auto. apply Permutation_app; auto.
Qed.
Lemma summed_perm ext l l' : Permutation l l' -> Permutation (summed ext l) (summed ext l').
Proof.
  intros P. unfold summed. apply NoDup_Permutation; [apply NoDup_nodup..|]. intros x. rewrite !nodup_In, !filter_In.
  split; intros (H1 & H2); split; auto; [eapply Permutation_in|eapply Permutation_in; [apply Permutation_sym|]]; eauto.
Qed.
