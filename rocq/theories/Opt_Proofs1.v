(** Lemmas about the subset index tables. *)
From Coq Require Import NArith ZArith List Arith Lia Bool Sorted Permutation.
From Verif Require Import Bits_Model Bits_Spec Bits_Proofs Opt_Model Opt_Spec.
Import ListNotations.
Local Arguments Nat.ltb : simpl never.
Local Arguments N.shiftl : simpl never.
Local Arguments N.sub : simpl never.

(* ---------- strictly sorted nat lists ---------- *)
Lemma SS_nat_ext l1 : forall l2,
  StronglySorted lt l1 -> StronglySorted lt l2 ->
  (forall x, In x l1 <-> In x l2) -> l1 = l2.
Proof.
  induction l1 as [|a l1 IH]; intros l2 S1 S2 E.
  - destruct l2 as [|b l2]; auto. destruct (proj2 (E b)); left; auto.
  - destruct l2 as [|b l2]. { destruct (proj1 (E a)); left; auto. }
    inversion S1 as [|? ? S1' F1]; subst. inversion S2 as [|? ? S2' F2]; subst.
    rewrite Forall_forall in F1, F2.
    assert (a = b).
    { destruct (proj1 (E a) (or_introl eq_refl)) as [|Ha]; auto.
      destruct (proj2 (E b) (or_introl eq_refl)) as [|Hb]; auto.
      specialize (F1 b Hb). specialize (F2 a Ha). lia. }
    subst b. f_equal. apply IH; auto.
    intros x. split; intros Hx.
    + destruct (proj1 (E x) (or_intror Hx)) as [<-|]; auto. specialize (F1 a Hx). lia.
    + destruct (proj2 (E x) (or_intror Hx)) as [<-|]; auto. specialize (F2 a Hx). lia.
Qed.

Lemma set_emplace_In x s y : In y (set_emplace x s) <-> y = x \/ In y s.
Proof.
  induction s as [|z s IH]; cbn.
  - intuition.
  - destruct (Nat.ltb_spec x z); [cbn; intuition|].
    destruct (Nat.eqb_spec x z); [subst; cbn; intuition|].
    cbn. rewrite IH. intuition.
Qed.

Lemma set_emplace_sorted x s : StronglySorted lt s -> StronglySorted lt (set_emplace x s).
Proof.
  induction 1 as [|z s S IH F]; cbn; [repeat constructor|].
  destruct (Nat.ltb_spec x z).
  - constructor; [constructor; auto|]. constructor; auto.
    rewrite Forall_forall in *. intros y Hy. specialize (F y Hy). lia.
  - destruct (Nat.eqb_spec x z); [constructor; auto|].
    constructor; auto. rewrite Forall_forall in *. intros y Hy.
    apply set_emplace_In in Hy as [->|Hy]; [lia|auto].
Qed.

Lemma fold_emplace_if {A} (f : A -> idx) (p : A -> bool) l : forall s,
  StronglySorted lt s ->
  let r := fold_left (fun s x => if p x then set_emplace (f x) s else s) l s in
  StronglySorted lt r /\ (forall y, In y r <-> In y s \/ exists x, In x l /\ p x = true /\ f x = y).
Proof.
  induction l as [|a l IH]; cbn; intros s S.
  - split; auto. intros y. split; auto. intros [|(x & [] & _)]; auto.
  - destruct (p a) eqn:Ep.
    + destruct (IH _ (set_emplace_sorted (f a) s S)) as (S' & H). split; auto.
      intros y. rewrite H, set_emplace_In. split.
      * intros [[->|]|(x & Hx & Hp & <-)]; eauto 6.
      * intros [Hy|(x & [<-|Hx] & Hp & <-)]; eauto 6.
    + destruct (IH _ S) as (S' & H). split; auto.
      intros y. rewrite H. split.
      * intros [|(x & Hx & Hp & <-)]; eauto 6.
      * intros [Hy|(x & [<-|Hx] & Hp & <-)]; eauto 6. congruence.
Qed.

Lemma fold_emplace l : forall s,
  StronglySorted lt s ->
  let r := fold_left (fun s x => set_emplace x s) l s in
  StronglySorted lt r /\ (forall y, In y r <-> In y s \/ In y l).
Proof.
  intros s S. destruct (fold_emplace_if (fun x : idx => x) (fun _ => true) l s S) as (S' & H).
  split; auto. intros y. rewrite H. split.
  - intros [|(x & Hx & _ & <-)]; auto.
  - intros [|Hy]; eauto.
Qed.

Lemma set_of_list_sorted l : StronglySorted lt (set_of_list l).
Proof. apply (fold_emplace l []). constructor. Qed.
Lemma set_of_list_In l y : In y (set_of_list l) <-> In y l.
Proof. unfold set_of_list. rewrite (proj2 (fold_emplace l [] ltac:(constructor)) y). cbn. tauto. Qed.
Lemma set_of_list_ext l l' : (forall y, In y l <-> In y l') -> set_of_list l = set_of_list l'.
Proof.
  intros H. apply SS_nat_ext; try apply set_of_list_sorted.
  intros x. rewrite !set_of_list_In. apply H.
Qed.

(* ---------- count maps ---------- *)
Fixpoint getc (m : list (idx * nat)) (k : idx) : nat :=
  match m with
  | [] => 0
  | (y, c) :: m' => if Nat.eqb k y then c else getc m' k
  end.

Definition okmap (m : list (idx * nat)) : Prop :=
  StronglySorted lt (map fst m) /\ (forall k v, In (k, v) m -> 0 < v).

Lemma getc_notin m k : ~ In k (map fst m) -> getc m k = 0.
Proof.
  induction m as [|(y & c) m IH]; cbn; auto.
  intros H. destruct (Nat.eqb_spec k y); [subst; tauto|]. auto.
Qed.

Lemma getc_In m k v : okmap m -> In (k, v) m -> v = getc m k.
Proof.
  intros (S & _). induction m as [|(y & c) m IH]; cbn; [tauto|].
  cbn in S. inversion S as [|? ? S' F]; subst. rewrite Forall_forall in F.
  intros [E|H].
  - injection E as -> ->. rewrite Nat.eqb_refl. auto.
  - destruct (Nat.eqb_spec k y).
    + subst. specialize (F y (in_map fst _ _ H)). lia.
    + auto.
Qed.

Lemma getc_pos m k : okmap m -> 0 < getc m k <-> In (k, getc m k) m.
Proof.
  intros (S & P). split.
  - clear P. induction m as [|(y & c) m IH]; cbn; [lia|].
    inversion S; subst. destruct (Nat.eqb_spec k y); subst; auto.
  - apply P.
Qed.

Lemma map_contains_spec m k : okmap m -> map_contains m k = true <-> 0 < getc m k.
Proof.
  intros H. unfold map_contains. rewrite existsb_exists. split.
  - intros ((y & c) & Hin & E). cbn in E. apply Nat.eqb_eq in E. subst.
    rewrite <- (getc_In m k c H Hin). apply (proj2 H k). auto.
  - intros Hp. apply getc_pos in Hp; auto. exists (k, getc m k). split; auto. cbn. apply Nat.eqb_refl.
Qed.

Lemma count_bump_keys x m y : In y (map fst (count_bump x m)) <-> y = x \/ In y (map fst m).
Proof.
  induction m as [|(z & c) m IH]; cbn; [intuition|].
  destruct (Nat.ltb_spec x z); [cbn; intuition|].
  destruct (Nat.eqb_spec x z); [subst; cbn; intuition|].
  cbn. rewrite IH. intuition.
Qed.

Lemma count_bump_ok x m : okmap m -> okmap (count_bump x m).
Proof.
  intros (S & P). split.
  - clear P. induction m as [|(z & c) m IH]; cbn; [repeat constructor|].
    inversion S as [|? ? S' F]; subst. cbn in *.
    destruct (Nat.ltb_spec x z).
    + cbn. constructor; auto. constructor; auto.
      rewrite Forall_forall in *. intros y Hy. specialize (F y Hy). lia.
    + destruct (Nat.eqb_spec x z); cbn; [subst; constructor; auto|].
      constructor; auto. rewrite Forall_forall in *. intros y Hy.
      apply count_bump_keys in Hy as [->|Hy]; [lia|auto].
  - clear S. induction m as [|(z & c) m IH]; cbn.
    + intros k v [E|[]]. injection E as <- <-. lia.
    + destruct (Nat.ltb x z).
      * intros k v [E|H]; [injection E as <- <-; lia|]. apply (P k v H).
      * destruct (Nat.eqb x z).
        -- intros k v [E|H]; [injection E as <- <-; lia|]. apply (P k v). right; auto.
        -- intros k v [E|H]; [apply (P k v); left; auto|]. eapply IH; eauto.
           intros k' v' H'. apply (P k' v'). right; auto.
Qed.

Lemma count_bump_getc x m k : okmap m ->
  getc (count_bump x m) k = getc m k + (if Nat.eqb k x then 1 else 0).
Proof.
  intros (S & _). induction m as [|(z & c) m IH]; cbn.
  - destruct (Nat.eqb k x); lia.
  - inversion S as [|? ? S' F]; subst. cbn in *. rewrite Forall_forall in F.
    destruct (Nat.ltb_spec x z).
    + cbn. destruct (Nat.eqb_spec k x); [|lia]. subst.
      destruct (Nat.eqb_spec x z); [lia|].
      rewrite (getc_notin m x); [lia|]. intros Hx. specialize (F x Hx). lia.
    + destruct (Nat.eqb_spec x z).
      * subst. cbn. destruct (Nat.eqb_spec k z); lia.
      * cbn. rewrite IH; auto. destruct (Nat.eqb_spec k z), (Nat.eqb_spec k x); lia.
Qed.

Lemma fold_bump l : forall m, okmap m ->
  okmap (fold_left (fun m ix => count_bump ix m) l m) /\
  (forall k, getc (fold_left (fun m ix => count_bump ix m) l m) k
             = getc m k + count_occ Nat.eq_dec l k).
Proof.
  induction l as [|x l IH]; cbn; intros m H.
  - split; auto.
  - destruct (IH _ (count_bump_ok x m H)) as (H1 & H2). split; auto.
    intros k. rewrite H2, count_bump_getc by auto.
    destruct (Nat.eq_dec x k), (Nat.eqb_spec k x); subst; try congruence; lia.
Qed.

Lemma fold_counts rng A : forall m, okmap m ->
  let r := fold_left (fun m k => fold_left (fun m ix => count_bump ix m) (nth k rng []) m) A m in
  okmap r /\ (forall k, getc r k = getc m k + occurrences rng A k).
Proof.
  induction A as [|a A IH]; cbn; intros m H.
  - split; auto.
  - destruct (fold_bump (nth a rng []) m H) as (H1 & H2).
    destruct (IH _ H1) as (H3 & H4). split; auto.
    intros k. rewrite H4, H2. unfold occurrences, list_sum. lia.
Qed.

Lemma okmap_nil : okmap [].
Proof. split; [constructor|intros ? ? []]. Qed.

Lemma subset_counts_ok rng needed i :
  okmap (subset_index_counts rng needed i) /\
  (needed i = true -> forall k, getc (subset_index_counts rng needed i) k = occurrences rng (nbits i) k).
Proof.
  unfold subset_index_counts. destruct (N.eqb_spec i 0).
  - split; [apply okmap_nil|]. subst. reflexivity.
  - destruct (needed i); cbn [negb].
    + rewrite on_bits_index_eq. destruct (fold_counts rng (nbits i) [] okmap_nil) as (H1 & H2).
      split; auto.
    + split; [apply okmap_nil|discriminate].
Qed.

(* ---------- masks below 2^n ---------- *)
Lemma table_size_eq n : table_size n = (2 ^ N.of_nat n)%N.
Proof. unfold table_size. apply N.shiftl_1_l. Qed.

Definition full (n : nat) : N := (table_size n - 1)%N.

Lemma full_ones n : full n = N.ones (N.of_nat n).
Proof. unfold full. rewrite table_size_eq, N.ones_equiv. lia. Qed.

Lemma has_full n i : has (full n) i <-> i < n.
Proof.
  rewrite full_ones. unfold has. destruct (Nat.ltb_spec i n).
  - rewrite N.ones_spec_low by lia. tauto.
  - rewrite N.ones_spec_high by lia. split; [discriminate|lia].
Qed.

Lemma lt_table n i : (i < table_size n)%N <-> subset_of i (full n).
Proof.
  rewrite table_size_eq. split.
  - intros H k Hk. apply has_full. unfold has in Hk.
    destruct (Nat.ltb_spec k n); auto.
    rewrite N.bits_above_log2 in Hk; [discriminate|].
    destruct (N.eq_dec i 0) as [->|Hi]; [rewrite N.bits_0 in Hk; discriminate|].
    apply N.log2_lt_pow2 in H; lia.
  - intros H. assert (E : N.land i (full n) = i) by (apply land_subset; auto).
    rewrite full_ones, N.land_ones in E. rewrite <- E. apply N.mod_lt.
    apply N.pow_nonzero. discriminate.
Qed.

Lemma lt_table_bits n i : (i < table_size n)%N -> forall k, has i k -> k < n.
Proof. intros H k Hk. apply lt_table in H. apply H in Hk. apply has_full in Hk. auto. Qed.

Lemma has_compl n i : (i < table_size n)%N -> forall k,
  has (full n - i)%N k <-> k < n /\ ~ has i k.
Proof.
  intros H k. apply lt_table in H. pose proof (compl_add i (full n) H) as E.
  replace (full n - i)%N with (N.lxor i (full n)) by lia.
  rewrite has_lxor, has_full. specialize (H k). rewrite has_full in H.
  pose proof (has_dec i k). tauto.
Qed.

Lemma popcount_bound n i : (i < table_size n)%N -> popcount i <= n.
Proof.
  intros H. rewrite <- nbits_length. rewrite <- (seq_length n 0).
  apply NoDup_incl_length.
  - pose proof (nbits_sorted i) as S. induction S as [|x l S IH F]; constructor; auto.
    intros Hx. rewrite Forall_forall in F. specialize (F x Hx). lia.
  - intros k Hk. apply nbits_In in Hk. apply in_seq. apply lt_table_bits with (n:=n) in Hk; auto. lia.
Qed.

Lemma nbits_NoDup i : NoDup (nbits i).
Proof.
  pose proof (nbits_sorted i) as S. induction S as [|x l S IH F]; constructor; auto.
  intros Hx. rewrite Forall_forall in F. specialize (F x Hx). lia.
Qed.

Lemma nbits_single k : nbits (N.shiftl 1 (N.of_nat k)) = [k].
Proof.
  apply SS_nat_ext.
  - apply nbits_sorted.
  - repeat constructor.
  - intros x. rewrite nbits_In, has_shiftl1. cbn. intuition.
Qed.

Lemma popcount_1 n : popcount n = 1 <-> exists k, n = N.shiftl 1 (N.of_nat k).
Proof.
  split.
  - intros H. rewrite <- nbits_length in H.
    destruct (nbits n) as [|k [|? ?]] eqn:E; try discriminate.
    exists k. apply has_ext. intros i. rewrite has_shiftl1, <- nbits_In, E. cbn. intuition.
  - intros (k & ->). rewrite <- nbits_length, nbits_single. reflexivity.
Qed.

(* ---------- occurrences ---------- *)
Lemma occurrences_perm net A B k : Permutation A B -> occurrences net A k = occurrences net B k.
Proof.
  intros P. unfold occurrences. induction P; cbn [map]; rewrite ?list_sum_cons; cbn [list_sum fold_right]; unfold list_sum in *; cbn [fold_right]; lia.
Qed.
Lemma occurrences_app net A B k : occurrences net (A ++ B) k = occurrences net A k + occurrences net B k.
Proof. unfold occurrences. rewrite map_app, list_sum_app. reflexivity. Qed.

Lemma list_sum_pos l : 0 < list_sum l <-> exists x, In x l /\ 0 < x.
Proof.
  unfold list_sum. induction l as [|a l IH]; cbn [fold_right].
  - split; [lia|intros (x & [] & _)].
  - split.
    + intros H. destruct a as [|a].
      * destruct (proj1 IH) as (x & ? & ?); [lia|]. exists x. cbn; auto.
      * exists (S a). split; [left; auto|]. lia.
    + intros (x & [<-|Hx] & Hp); [lia|]. assert (0 < fold_right Nat.add 0 l); [|lia]. apply IH. eauto.
Qed.

Lemma occurrences_pos net A k : 0 < occurrences net A k <-> exists i, In i A /\ In k (nth i net []).
Proof.
  unfold occurrences. rewrite list_sum_pos. split.
  - intros (x & Hx & Hp). apply in_map_iff in Hx as (i & <- & Hi). exists i. split; auto.
    apply (count_occ_In Nat.eq_dec). lia.
  - intros (i & Hi & Hk). exists (count_occ Nat.eq_dec (nth i net []) k). split.
    + apply in_map_iff. eauto.
    + apply (count_occ_In Nat.eq_dec) in Hk. lia.
Qed.

Lemma others_In net A i : In i (others net A) <-> i < length net /\ ~ In i A.
Proof.
  unfold others. rewrite filter_In, in_seq, negb_true_iff, <- not_true_iff_false, existsb_exists.
  split.
  - intros (H1 & H2). split; [lia|]. intros H. apply H2. exists i. split; auto. apply Nat.eqb_refl.
  - intros (H1 & H2). split; [lia|]. intros (x & Hx & E). apply Nat.eqb_eq in E. subst. auto.
Qed.

Lemma others_perm net A B : Permutation A B -> others net A = others net B.
Proof.
  intros P. apply SS_nat_ext.
  - unfold others. generalize (seq_length (length net) 0). intros _.
    assert (H : StronglySorted lt (seq 0 (length net))).
    { generalize 0. induction (length net); cbn; constructor; auto.
      rewrite Forall_forall. intros x Hx. apply in_seq in Hx. lia. }
    induction H as [|x l S IH F]; cbn; [constructor|].
    destruct (negb _); auto. constructor; auto.
    rewrite Forall_forall in *. intros y Hy. apply filter_In in Hy as (Hy & _). auto.
  - unfold others.
    assert (H : StronglySorted lt (seq 0 (length net))).
    { generalize 0. induction (length net); cbn; constructor; auto.
      rewrite Forall_forall. intros x Hx. apply in_seq in Hx. lia. }
    induction H as [|x l S IH F]; cbn; [constructor|].
    destruct (negb _); auto. constructor; auto.
    rewrite Forall_forall in *. intros y Hy. apply filter_In in Hy as (Hy & _). auto.
  - intros x. rewrite !others_In. split; intros (H1 & H2); split; auto; intros H3; apply H2;
      [apply Permutation_sym in P|]; eapply Permutation_in; eauto.
Qed.

Lemma seq_sorted a n : StronglySorted lt (seq a n).
Proof.
  revert a. induction n; cbn; constructor; auto.
  rewrite Forall_forall. intros x Hx. apply in_seq in Hx. lia.
Qed.

Lemma filter_sorted p l : StronglySorted lt l -> StronglySorted lt (filter p l).
Proof.
  induction 1 as [|x l S IH F]; cbn; [constructor|].
  destruct (p x); auto. constructor; auto.
  rewrite Forall_forall in *. intros y Hy. apply filter_In in Hy as (Hy & _). auto.
Qed.

Lemma open_list_perm net A B : Permutation A B -> open_list net A = open_list net B.
Proof.
  intros P. unfold open_list. apply filter_ext. intros k. unfold is_open.
  rewrite (occurrences_perm net A B k P), (others_perm net A B P), (Permutation_length P). reflexivity.
Qed.

Lemma open_list_sorted net A : StronglySorted lt (open_list net A).
Proof. apply filter_sorted, seq_sorted. Qed.

Lemma open_list_In net A k : In k (open_list net A) <-> is_open net A k = true.
Proof.
  unfold open_list. rewrite filter_In, in_seq. split; [tauto|].
  intros H. split; auto. split; [lia|].
  unfold is_open in H. apply andb_true_iff in H as (H & _). apply Nat.ltb_lt in H.
  apply occurrences_pos in H as (i & Hi & Hk).
  assert (In k (concat net)).
  { apply in_concat. exists (nth i net []). split; auto.
    destruct (nth_in_or_default i net []) as [|E]; auto. rewrite E in Hk. destruct Hk. }
  pose proof (proj1 (list_max_le (concat net) (list_max (concat net))) (le_n _)) as F.
  rewrite Forall_forall in F. specialize (F k H). lia.
Qed.

Lemma contains_In l x : contains l x = true <-> In x l.
Proof.
  unfold contains. rewrite existsb_exists. split.
  - intros (y & Hy & E). apply Nat.eqb_eq in E. subst. auto.
  - intros H. exists x. split; auto. apply Nat.eqb_refl.
Qed.

(** What the code stores in a cell that the pruning mask keeps. *)
Lemma target_cell net tixs conn i :
  conn i = true -> (i < table_size (length net))%N ->
  let r := subset_target_indices net tixs conn i in
  StronglySorted lt r /\
  (forall k, In k r <->
     0 < occurrences net (nbits i) k /\
     (popcount i = 1 \/ occurrences net (nbits i) k = 1 \/
      0 < occurrences net (others net (nbits i)) k \/
      (i = full (length net) /\ In k tixs))).
Proof.
  intros Hc Hi. unfold subset_target_indices. rewrite Hc.
  set (S := table_size (length net)) in *.
  set (needed := fun j => conn j || conn (S - 1 - j)%N).
  set (counts := subset_index_counts net needed).
  assert (Ni : needed i = true) by (unfold needed; rewrite Hc; reflexivity).
  assert (Hci : (S - i - 1 = full (length net) - i)%N) by (unfold full; fold S; lia).
  assert (Nc : needed (S - i - 1)%N = true).
  { unfold needed. replace (S - 1 - (S - i - 1))%N with i by lia. rewrite Hc. apply orb_true_r. }
  (* the complement *)
  assert (Oc : forall k, 0 < occurrences net (nbits (S - i - 1)) k <-> 0 < occurrences net (others net (nbits i)) k).
  { intros k. rewrite !occurrences_pos. rewrite Hci.
    split; intros (j & Hj & Hk); exists j; split; auto.
    - apply others_In. apply nbits_In in Hj. apply has_compl in Hj; auto. rewrite nbits_In. tauto.
    - apply others_In in Hj. rewrite nbits_In in Hj. apply nbits_In. apply has_compl; auto. }
  destruct (subset_counts_ok net needed i) as (Oki & Gi). specialize (Gi Ni).
  destruct (subset_counts_ok net needed (S - i - 1)%N) as (Okc & Gc). specialize (Gc Nc).
  fold counts in Oki, Gi, Okc, Gc.
  (* stage 1 *)
  set (r1 := fold_left _ (seq 0 (length net)) []).
  assert (R1 : StronglySorted lt r1 /\ forall k, In k r1 <-> popcount i = 1 /\ 0 < occurrences net (nbits i) k).
  { assert (G : forall A s, NoDup A -> (forall a, In a A -> a < length net) -> StronglySorted lt s ->
      let r := fold_left (fun s k => if N.eqb i (N.shiftl 1 (N.of_nat k))
                                  then fold_left (fun s ix => set_emplace ix s) (nth k net []) s
                                  else s) A s in
      StronglySorted lt r /\ forall k, In k r <-> In k s \/ exists a, In a A /\ i = N.shiftl 1 (N.of_nat a) /\ In k (nth a net [])).
    { induction A as [|a A IH]; cbn; intros s ND Hb Ss.
      - split; auto. intros k. split; auto. intros [|(? & [] & _)]; auto.
      - inversion ND; subst. destruct (N.eqb_spec i (N.shiftl 1 (N.of_nat a))) as [E|E].
        + destruct (fold_emplace (nth a net []) s Ss) as (S1 & I1).
          destruct (IH _ H2 (fun b Hb' => Hb b (or_intror Hb')) S1) as (S2 & I2).
          split; auto. intros k. rewrite I2, I1. split.
          * intros [[|]|(b & Hb1 & Hb2 & Hb3)]; eauto 7.
          * intros [|(b & [<-|Hb1] & Hb2 & Hb3)]; eauto 7.
        + destruct (IH _ H2 (fun b Hb' => Hb b (or_intror Hb')) Ss) as (S2 & I2).
          split; auto. intros k. rewrite I2. split.
          * intros [|(b & Hb1 & Hb2 & Hb3)]; eauto 7.
          * intros [|(b & [<-|Hb1] & Hb2 & Hb3)]; eauto 7. congruence. }
    destruct (G (seq 0 (length net)) [] (seq_NoDup _ _) (fun a Ha => proj2 (proj1 (in_seq _ _ _) Ha)) ltac:(constructor)) as (G1 & G2).
    split; auto. intros k. unfold r1. rewrite G2. rewrite popcount_1. split.
    - intros [[]|(a & Ha & E & Hk)]. split; eauto. subst i. rewrite nbits_single.
      apply occurrences_pos. exists a. cbn. auto.
    - intros ((a & E) & Hk). right. exists a. subst i. rewrite nbits_single in Hk.
      apply occurrences_pos in Hk as (b & [<-|[]] & Hk). split; auto. apply in_seq.
      split; [lia|]. cbn. apply (lt_table_bits _ _ Hi). apply has_shiftl1. reflexivity. }
  destruct R1 as (SR1 & IR1).
  (* stage 2 *)
  set (r2 := if (i =? S - 1)%N then _ else r1).
  assert (R2 : StronglySorted lt r2 /\ forall k, In k r2 <-> In k r1 \/
     (i = full (length net) /\ 0 < occurrences net (nbits i) k /\ (occurrences net (nbits i) k = 1 \/ In k tixs))).
  { unfold r2, full. fold S. destruct (N.eqb_spec i (S - 1)) as [E|E].
    - rewrite <- E.
      destruct (fold_emplace_if fst (fun kv => Nat.eqb (snd kv) 1 || contains tixs (fst kv)) (counts i) r1 SR1) as (S2 & I2).
      split; auto. intros k. rewrite I2. split.
      + intros [|((y & v) & Hin & Hp & E')]; auto. cbn in *. subst y. right. split; auto.
        pose proof (getc_In _ _ _ Oki Hin) as Ev. pose proof (proj2 Oki _ _ Hin).
        rewrite Gi in Ev. split; [lia|].
        apply orb_true_iff in Hp as [Hp|Hp]; [left; apply Nat.eqb_eq in Hp; lia|right; apply contains_In; auto].
      + intros [|(_ & Hp & Hq)]; auto. right. exists (k, getc (counts i) k). cbn. split; [|split; auto].
        * apply getc_pos; auto. rewrite Gi. auto.
        * rewrite Gi. apply orb_true_iff. destruct Hq as [Hq|Hq]; [left; apply Nat.eqb_eq; auto|right; apply contains_In; auto].
    - split; auto. intros k. split; auto. intros [|(E' & _)]; auto. contradiction. }
  destruct R2 as (SR2 & IR2).
  destruct (fold_emplace_if fst (fun kv => Nat.eqb (snd kv) 1 || (Nat.ltb 0 (snd kv) && map_contains (counts (S - i - 1)%N) (fst kv))) (counts i) r2 SR2) as (S3 & I3).
  split; [exact S3|]. intros k. rewrite I3, IR2, IR1. clear I3.
  assert (Hlast : (exists x : idx * nat, In x (counts i) /\
     (Nat.eqb (snd x) 1 || (Nat.ltb 0 (snd x) && map_contains (counts (S - i - 1)%N) (fst x))) = true /\ fst x = k)
     <-> 0 < occurrences net (nbits i) k /\ (occurrences net (nbits i) k = 1 \/ 0 < occurrences net (others net (nbits i)) k)).
  { split.
    - intros ((y & v) & Hin & Hp & E). cbn in *. subst y.
      pose proof (getc_In _ _ _ Oki Hin) as Ev. pose proof (proj2 Oki _ _ Hin). rewrite Gi in Ev.
      split; [lia|]. apply orb_true_iff in Hp as [Hp|Hp].
      + left. apply Nat.eqb_eq in Hp. lia.
      + right. apply andb_true_iff in Hp as (_ & Hp). apply map_contains_spec in Hp; auto.
        rewrite Gc in Hp. apply Oc. auto.
    - intros (Hp & Hq). exists (k, getc (counts i) k). cbn. split; [|split; auto].
      + apply getc_pos; auto. rewrite Gi. auto.
      + rewrite Gi. apply orb_true_iff. destruct Hq as [Hq|Hq].
        * left. apply Nat.eqb_eq; auto.
        * right. apply andb_true_iff. split; [apply Nat.ltb_lt; auto|].
          apply map_contains_spec; auto. rewrite Gc. apply Oc. auto. }
  rewrite Hlast. clear Hlast. intuition.
Qed.

Lemma cell_open net conn i :
  conn i = true -> (i < table_size (length net))%N ->
  subset_target_indices net [] conn i = open_list net (nbits i).
Proof.
  intros Hc Hi. destruct (target_cell net [] conn i Hc Hi) as (S & H).
  apply SS_nat_ext; auto. { apply open_list_sorted. }
  intros k. rewrite H, open_list_In. unfold is_open.
  rewrite nbits_length, andb_true_iff, !orb_true_iff, !Nat.ltb_lt, !Nat.eqb_eq. cbn. tauto.
Qed.
