(** Theorems for C15: reordering a sum keeps every term exactly once; what the clusters are. *)
From Coq Require Import List Arith Bool Lia Relations Permutation Sorting.Sorted ZArith Ring_theory.
From Verif Require Import Idx_Model Bin_Model Bin_Spec Bin_Sums Bin_Proofs Bin_Props Sto_Model Sto_Spec Sto_Proofs Sto_Props Clu_Model Clu_Spec Clu_Proofs.
Import ListNotations.
Local Arguments Nat.ltb : simpl never.
Local Arguments Nat.eqb : simpl never.

Lemma clustering_split c vis r : clustering c vis r -> forall pre k l post, r = pre ++ (k :: l) :: post ->
  forall x, In x (k :: l) <-> clos_refl_trans nat (step c) k x /\ ~ In x (vis ++ concat pre).
Proof.
  intros H. induction H as [vis|vis k0 l0 r N D A H IH]; intros pre k l post E x; [destruct pre; discriminate|].
  destruct pre as [|y pre].
  - cbn in E. injection E as <- <- <-. cbn [concat]. rewrite app_nil_r. apply A.
  - cbn in E. injection E as <- ->. rewrite (IH pre k l post eq_refl x). cbn [concat]. rewrite app_assoc. reflexivity.
Qed.
Lemma clusters_run hs : exists f0, forall f, f0 <= f -> exists r, clusters f hs = Some r.
Proof.
  unfold clusters. apply clusters_stop with (n := length hs).
  - intros p q H. apply c_children in H. apply H.
  - intros p q H. apply c_children in H as [(h & _ & H) _]. eapply has_lt. exact H.
Qed.
Lemma clusters_clustering f hs r : clusters f hs = Some r -> clustering (connections (positions hs)) [] r.
Proof. apply collect_clustering. Qed.
Lemma clusters_in f hs r : clusters f hs = Some r -> forall x, In x (concat r) <-> exists h, has_at hs x h.
Proof.
  intros H x. assert (C := clusters_clustering f hs r H). split.
  - intros Hx. apply in_concat in Hx as (cl & Hc & Hx). destruct (in_split cl r Hc) as (pre & post & E).
    assert (NE : exists k l, cl = k :: l) by (destruct cl; [destruct Hx|eauto]). destruct NE as (k & l & ->).
    assert (Hk : In k (map fst (connections (positions hs)))) by (eapply (collect_heads _ f _ []); [exact H|exact Hc]).
    apply (c_keys hs) in Hk as (h & Hk). apply (clustering_split _ _ _ C pre k l post E x) in Hx as [Hx _].
    assert (L : leads hs k x) by (apply leads_children; exact Hx). clear - Hk L. unfold leads in L. apply clos_rt_rtn1 in L. destruct L as [|y z (g & _ & Hg) _]; [exists h; apply Hk|exists g; exact Hg].
  - intros (h & Hh). destruct (exists_first hs h x Hh) as (p & Hp).
    assert (Kp : In p (map fst (connections (positions hs)))) by (apply c_keys; eauto).
    destruct (collect_keys _ f _ _ _ H p Kp) as [[]|Q].
    destruct (clustering_closed _ [] r C ltac:(intros ? ? []) p x Q) as [[]|Q2]; [|exact Q2].
    apply leads_children. apply rt_step. exists h. auto.
Qed.
Lemma leads_le hs p q : leads hs p q -> p <= q.
Proof. intros H. induction H as [x y (h & H1 & H2)|x|x y z H1 IH1 H2 IH2]; [apply H1; exact H2|lia|lia]. Qed.

(** The search always terminates. Every term that has an intermediate is in exactly one cluster; a
    cluster consists of the terms that its first term leads to by a chain of shared intermediates
    (each time from the first term with that intermediate), except those in earlier clusters. *)
Theorem C15_clusters : forall hs, exists f0, forall f, f0 <= f -> exists r,
  clusters f hs = Some r /\ NoDup (concat r) /\
  (forall x, In x (concat r) <-> exists h, has_at hs x h) /\
  (forall pre cl post, r = pre ++ cl :: post ->
     exists k l, cl = k :: l /\ (forall x, In x cl <-> leads hs k x /\ ~ In x (concat pre)) /\
       (forall x, In x cl -> k <= x)).
Proof.
  intros hs. destruct (clusters_run hs) as [f0 R]. exists f0. intros f L. destruct (R f L) as [r E]. exists r.
  assert (C := clusters_clustering f hs r E). split; [exact E|]. split; [apply (clustering_nodup _ _ _ C)|]. split; [apply (clusters_in f); exact E|].
  intros pre cl post Er. assert (NE : exists k l, cl = k :: l).
  { clear - C Er. revert pre post Er. induction C as [vis|vis k l r N D A H IH]; intros pre post Er; [destruct pre; discriminate|]. destruct pre as [|y pre]; [cbn in Er; injection Er as <- _; eauto|]. cbn in Er. injection Er as _ Er. eapply IH; eauto. }
  destruct NE as (k & l & ->). exists k, l. split; [reflexivity|].
  assert (Q : forall x, In x (k :: l) <-> leads hs k x /\ ~ In x (concat pre)).
  { intros x. rewrite (clustering_split _ _ _ C pre k l post Er x). cbn [app]. rewrite leads_children. reflexivity. }
  split; [exact Q|]. intros x Hx. apply leads_le with (hs := hs). apply Q. exact Hx.
Qed.

(** A term that has an intermediate first found in term p is in the cluster of p or in an earlier one. *)
Theorem C15_shared : forall f hs r, clusters f hs = Some r ->
  forall pre cl post, r = pre ++ cl :: post -> forall p q h, In p cl -> first_at hs p h -> has_at hs q h ->
  In q cl \/ In q (concat pre).
Proof.
  intros f hs r E pre cl post Er p q h Hp H1 H2. assert (C := clusters_clustering f hs r E). destruct cl as [|k l]; [destruct Hp|].
  assert (Q := clustering_split _ _ _ C pre k l post Er). apply Q in Hp as [Hp _].
  destruct (in_dec Nat.eq_dec q (concat pre)) as [I|I]; [auto|]. left. apply Q. split; [|exact I].
  apply leads_children. eapply rt_trans; [apply leads_children; exact Hp|]. apply rt_step. exists h. auto.
Qed.

(** Reordering is a permutation of the terms: nothing is lost, duplicated or changed. *)
Theorem C15_reorder : forall (X : Type) (sum : list X) hs, length hs = length sum -> Forall (fun l => l <> []) hs ->
  exists f0, forall f, f0 <= f -> exists r, reorder f hs sum = Ret r /\ Permutation r sum.
Proof.
  intros X sum hs L NE. destruct (clusters_run hs) as [f0 R]. exists f0. intros f Lf. destruct (R f Lf) as [cs E].
  assert (P : Permutation (concat cs) (seq 0 (length sum))).
  { apply NoDup_Permutation; [apply (clustering_nodup _ _ _ (clusters_clustering f hs cs E))|apply seq_NoDup|]. intros x. rewrite (clusters_in f hs cs E x), in_seq. split.
    - intros (h & H). apply has_lt in H. lia.
    - intros [_ H]. cbn in H. rewrite <- L in H. destruct (nth_error hs x) as [l|] eqn:EX; [|apply nth_error_None in EX; lia].
      rewrite Forall_forall in NE. assert (l <> []) by (apply NE; eapply nth_error_In; exact EX). destruct l as [|h l]; [congruence|]. exists h, (h :: l). split; [exact EX|left; reflexivity]. }
  set (g := fun p => match nth_error sum p with Some x => [x] | None => [] end).
  assert (PM : Permutation (flat_map g (concat cs)) sum).
  { assert (Q : forall l m, Permutation l m -> Permutation (flat_map g l) (flat_map g m)).
    { intros l m H. induction H; cbn; auto; [apply Permutation_app_head; assumption|rewrite !app_assoc; apply Permutation_app_tail; apply Permutation_app_comm|eapply Permutation_trans; eassumption]. }
    eapply Permutation_trans; [apply Q; exact P|]. clear. subst g.
    assert (G : forall pre, flat_map (fun p => match nth_error (pre ++ sum) p with Some x => [x] | None => [] end) (seq (length pre) (length sum)) = sum).
    { induction sum as [|x sum IH]; intros pre; [reflexivity|]. cbn [length seq flat_map]. rewrite nth_error_app2 by lia. rewrite Nat.sub_diag. cbn [nth_error app].
      f_equal. specialize (IH (pre ++ [x])). rewrite app_length, Nat.add_1_r in IH. rewrite <- app_assoc in IH. exact IH. }
    specialize (G []). cbn [app length] in G. rewrite G. apply Permutation_refl. }
  exists (flat_map g (concat cs)). split; [|exact PM]. unfold reorder. rewrite E. fold g. rewrite (Permutation_length PM), Nat.eqb_refl. reflexivity.
Qed.

(** If sharing an intermediate is transitive, then terms that share an intermediate are in the same
    cluster (the clusters are the classes). *)
Definition shareb (hs : list (list nat)) (p q : nat) : bool :=
  match nth_error hs p, nth_error hs q with Some a, Some b => existsb (fun h => member h b) a | _, _ => false end.
Lemma shareb_ok hs p q : shareb hs p q = true <-> share hs p q.
Proof.
  unfold shareb, share, has_at. destruct (nth_error hs p) as [a|], (nth_error hs q) as [b|].
  - rewrite existsb_exists. split.
    + intros (h & H1 & H2). apply member_in in H2. exists h. split; eauto.
    + intros (h & (a' & E1 & H1) & (b' & E2 & H2)). injection E1 as <-. injection E2 as <-. exists h. split; [exact H1|apply member_in; exact H2].
  - split; [discriminate|]. intros (h & _ & (b & E & _)). discriminate.
  - split; [discriminate|]. intros (h & (z & E & _) & _). discriminate.
  - split; [discriminate|]. intros (h & (z & E & _) & _). discriminate.
Qed.
Lemma heads_sorted c f : forall ks vis r, sorted ks -> collect_clusters f c ks vis = Some r ->
  forall pre k l post, r = pre ++ (k :: l) :: post -> forall k' l', In (k' :: l') pre -> k' < k.
Proof.
  induction ks as [|k0 ks IH]; intros vis r S H pre k l post Er k' l' Hp; [cbn in H; injection H as <-; destruct pre; discriminate|].
  cbn [collect_clusters] in H. destruct (StronglySorted_inv S) as [S1 S2]. destruct (member k0 vis) eqn:M; [eapply IH; eauto|].
  destruct (dfs f c [k0] vis []) as [[vis' cl]|] eqn:E; [|discriminate]. destruct (collect_clusters f c ks vis') as [r'|] eqn:E2; [|discriminate]. injection H as <-.
  apply member_not in M. destruct (dfs_ok _ _ _ _ _ _ _ E) as (new & -> & N & A & B & C). destruct (C M) as [l0 ->]. destruct pre as [|y pre]; [destruct Hp|]. cbn [app] in Er, Hp. injection Er as <- Er.
  destruct Hp as [Hp|Hp].
  - injection Hp as <- <-. assert (Hk : In k ks) by (eapply (collect_heads c f ks vis' r' E2); rewrite Er; apply in_or_app; right; left; reflexivity).
    rewrite Forall_forall in S2. apply S2. exact Hk.
  - eapply IH; eauto.
Qed.
Theorem C15_same_cluster_partial : forall f hs r, clusters f hs = Some r ->
  (forall p q s, share hs p q -> share hs q s -> share hs p s) ->
  forall p q, share hs p q -> exists cl, In cl r /\ In p cl /\ In q cl.
Proof.
  intros f hs r E TR.
  assert (SY : forall p q, share hs p q -> share hs q p) by (intros p q (h & A & B); exists h; auto).
  assert (LS : forall p q h, has_at hs p h -> leads hs p q -> share hs p q).
  { intros p q h Hp L. unfold leads in L. apply clos_rt_rt1n in L. revert h Hp. induction L as [x|x y z (g & G1 & G2) L IH]; intros h Hp; [exists h; auto|].
    assert (Q := IH g G2). destruct Q as (g' & Q1 & Q2). apply (TR x y z); [exists g; split; [apply G1|exact G2]|exists g'; auto]. }
  assert (C := clusters_clustering f hs r E).
  (* the first term m of the class *)
  assert (MIN : forall p q, share hs p q -> exists m, share hs m p /\ forall x, share hs x p -> m <= x).
  { intros p q SH. assert (SP : share hs p p) by (destruct SH as (h & A & _); exists h; auto).
    assert (W : forall n p', p' < n -> share hs p' p -> exists m, share hs m p /\ forall x, share hs x p -> m <= x).
    { induction n as [|n IH]; intros p' L Sp; [lia|]. destruct (existsb (fun x => shareb hs x p) (seq 0 p')) eqn:X.
      - apply existsb_exists in X as (y & Hy & Sy). apply in_seq in Hy. apply shareb_ok in Sy. apply (IH y); [lia|exact Sy].
      - exists p'. split; [exact Sp|]. intros x Sx. destruct (le_lt_dec p' x) as [|Lx]; [assumption|]. exfalso.
        assert (Y : existsb (fun x => shareb hs x p) (seq 0 p') = true) by (apply existsb_exists; exists x; split; [apply in_seq; lia|apply shareb_ok; exact Sx]). congruence. }
    apply (W (S p) p); [lia|exact SP]. }
  assert (ALL : forall p q, share hs p q -> exists pre k l post, r = pre ++ (k :: l) :: post /\ In q (k :: l) /\ (forall x, share hs x q -> k <= x) /\ share hs k q).
  { intros p q SH. assert (SQ := SY _ _ SH). destruct (MIN q p SQ) as (m & Sm & Lm).
    assert (LK : link hs m q).
    { destruct Sm as (h & H1 & H2). exists h. split; [|exact H2]. split; [exact H1|]. intros x Hx. apply Lm. exists h. auto. }
    assert (Hm : exists h, has_at hs m h) by (destruct Sm as (h & H1 & _); eauto).
    apply (clusters_in f hs r E) in Hm. apply in_concat in Hm as (cl & Hc & Hm). destruct (in_split cl r Hc) as (pre & post & Er). destruct cl as [|k l]; [destruct Hm|].
    assert (Q := clustering_split _ _ _ C pre k l post Er).
    assert (Hk : exists h, has_at hs k h) by (apply (clusters_in f hs r E); apply in_concat; exists (k :: l); split; [exact Hc|left; reflexivity]). destruct Hk as (hk & Hk).
    assert (Hm2 := Hm). apply Q in Hm2 as [Hm2 _]. apply leads_children in Hm2.
    assert (SK : share hs k q) by (apply (TR k m q); [eapply LS; eauto|exact Sm]).
    assert (KM : k = m) by (assert (A1 := leads_le hs k m Hm2); assert (A2 := Lm k SK); lia). subst k.
    exists pre, m, l, post. split; [exact Er|]. split; [|split; [exact Lm|exact Sm]].
    apply Q. split; [apply leads_children; apply rt_step; exact LK|]. cbn [app]. intros Hq. apply in_concat in Hq as (cl' & Hc' & Hq).
    destruct cl' as [|k' l']; [destruct Hq|]. assert (KL : k' < m) by (eapply (heads_sorted _ f _ _ _ (c_sorted hs) E pre m l post Er); exact Hc').
    destruct (in_split _ _ Hc') as (pre' & post' & Er'). assert (Er2 : r = pre' ++ (k' :: l') :: (post' ++ (m :: l) :: post)) by (rewrite Er, Er', <- app_assoc; reflexivity).
    apply (clustering_split _ _ _ C pre' k' l' _ Er2) in Hq as [Hq _]. apply leads_children in Hq.
    assert (Hk' : exists h, has_at hs k' h) by (apply (clusters_in f hs r E); apply in_concat; exists (k' :: l'); split; [rewrite Er; apply in_or_app; left; exact Hc'|left; reflexivity]). destruct Hk' as (hk' & Hk').
    assert (A2 := Lm k' (LS k' q hk' Hk' Hq)). lia. }
  intros p q SH. destruct (ALL q p (SY _ _ SH)) as (pre1 & k1 & l1 & post1 & E1 & I1 & M1 & S1). destruct (ALL p q SH) as (pre2 & k2 & l2 & post2 & E2 & I2 & M2 & S2).
  assert (KE : k1 = k2).
  { assert (A1 := M1 k2 (TR _ _ _ S2 (SY _ _ SH))). assert (A2 := M2 k1 (TR _ _ _ S1 SH)). lia. }
  subst k2. exists (k1 :: l1). split; [rewrite E1; apply in_or_app; right; left; reflexivity|]. split; [exact I1|].
  assert (Q1 := clustering_split _ _ _ C pre1 k1 l1 post1 E1). assert (Q2 := clustering_split _ _ _ C pre2 k1 l2 post2 E2).
  apply Q1. assert (I3 := I2). apply Q2 in I3 as [I3 _]. split; [exact I3|].
  (* the clusters with the same first term are the same *)
  assert (EE : pre1 = pre2).
  { assert (ND := proj1 (clustering_nodup _ _ _ C)). rewrite E1 in E2. rewrite E1 in ND. clear - E2 ND. revert pre2 E2. induction pre1 as [|y pre1 IH]; intros pre2 E2; destruct pre2 as [|z pre2]; cbn [app] in E2.
    - reflexivity.
    - exfalso. injection E2 as <- ->. cbn in ND. inversion ND as [|? ? N _]; subst. apply N. apply in_or_app. right. rewrite concat_app. apply in_or_app. right. left. reflexivity.
    - exfalso. injection E2 as -> <-. cbn in ND. inversion ND as [|? ? N _]; subst. apply N. apply in_or_app. right. rewrite concat_app. apply in_or_app. right. left. reflexivity.
    - injection E2 as <- E2. f_equal. apply IH; [|exact E2]. cbn in ND. clear - ND. induction y as [|x y IHy]; [exact ND|]. cbn in ND. inversion ND; subst. apply IHy. assumption. }
  subst pre2. apply Q2. exact I2.
Qed.

(** The search may need exponentially many steps: visited terms are expanded again. *)
Definition chain (n : nat) : list (list nat) := map (fun i => [2 * i; 2 * i + 1; 2 * i + 2; 2 * i + 3]) (seq 0 (S n)).
Lemma chain_at n p h : has_at (chain n) p h <-> p <= n /\ 2 * p <= h <= 2 * p + 3.
Proof.
  unfold has_at, chain. split.
  - intros (l & E & H). assert (L : p < S n) by (rewrite <- (seq_length (S n) 0), <- (map_length (fun i => [2 * i; 2 * i + 1; 2 * i + 2; 2 * i + 3])); apply nth_error_Some; congruence).
    rewrite (map_nth_error _ p (seq 0 (S n)) (d := p)) in E; [|rewrite nth_error_nth' with (d := 0) by (rewrite seq_length; exact L); rewrite seq_nth by exact L; reflexivity].
    injection E as <-. cbn in H. lia.
  - intros [L H]. exists [2 * p; 2 * p + 1; 2 * p + 2; 2 * p + 3]. split; [|cbn; lia].
    apply (map_nth_error (fun i => [2 * i; 2 * i + 1; 2 * i + 2; 2 * i + 3])). rewrite nth_error_nth' with (d := 0) by (rewrite seq_length; lia). rewrite seq_nth by lia. reflexivity.
Qed.
Lemma children_is m : forall c k, sorted (keys c) -> children (fold_left (fun (c : list (nat * list nat)) (kv : nat * list nat) => match snd kv with [] => c | p :: qs => connect p qs c end) m c) k
  = children c k ++ flat_map (fun kv : nat * list nat => match snd kv with p :: qs => if Nat.eqb k p then qs else [] | [] => [] end) m.
Proof.
  induction m as [|[h s] m IH]; intros c k S; cbn [fold_left flat_map snd]; [rewrite app_nil_r; reflexivity|]. destruct s as [|p qs]; [apply IH; exact S|].
  rewrite IH by (apply connect_sorted; exact S). rewrite connect_children by exact S. destruct (Nat.eqb k p); [rewrite app_assoc; reflexivity|reflexivity].
Qed.
Definition weight (n : nat) (st : list nat) : nat := list_sum (map (fun p => if p <=? n then 2 ^ (n - p) else 0) st).
Lemma weight_app n a b : weight n (a ++ b) = weight n a + weight n b.
Proof. unfold weight. rewrite map_app, list_sum_app. reflexivity. Qed.
Lemma dfs_weight c n : (forall p, p < n -> 2 <= count_occ Nat.eq_dec (children c p) (S p)) ->
  forall f st vis cl r, dfs f c st vis cl = Some r -> weight n st < f.
Proof.
  intros H. induction f as [|f IH]; intros st vis cl r E; [discriminate|]. cbn [dfs] in E. destruct st as [|p st]; [cbn; lia|]. rewrite push_all in E.
  assert (W : weight n (children c p ++ st) < f) by (destruct (member p vis); eapply IH; exact E). rewrite weight_app in W.
  change (weight n (p :: st)) with ((if p <=? n then 2 ^ (n - p) else 0) + weight n st). destruct (Nat.leb_spec p n) as [L|L]; [|lia].
  destruct (Nat.eq_dec p n) as [->|NE]; [rewrite Nat.sub_diag; cbn [Nat.pow]; lia|].
  assert (Q : 2 * 2 ^ (n - S p) <= weight n (children c p)).
  { assert (Cn := H p ltac:(lia)). assert (G : forall l, count_occ Nat.eq_dec l (S p) * 2 ^ (n - S p) <= weight n l).
    { induction l as [|y l IHl]; [cbn; lia|]. change (weight n (y :: l)) with ((if y <=? n then 2 ^ (n - y) else 0) + weight n l). cbn [count_occ]. destruct (Nat.eq_dec y (S p)) as [->|].
      - destruct (Nat.leb_spec (S p) n); [|lia]. cbn [Nat.mul]. lia.
      - lia. }
    specialize (G (children c p)). eapply Nat.le_trans; [|exact G]. apply Nat.mul_le_mono_r. exact Cn. }
  replace (n - p) with (S (n - S p)) by lia. rewrite Nat.pow_succ_r'. lia.
Qed.
Theorem C15_exponential : forall n,
  length (chain n) = S n /\ Forall (fun l => length l = 4) (chain n) /\
  forall f r, clusters f (chain n) = Some r -> 2 ^ n < f.
Proof.
  intros n. split; [unfold chain; rewrite map_length, seq_length; reflexivity|]. split; [apply Forall_forall; intros l H; apply in_map_iff in H as (i & <- & _); reflexivity|].
  intros f r H. unfold clusters in H. set (c := connections (positions (chain n))) in *.
  assert (F0 : first_at (chain n) 0 0) by (split; [apply chain_at; lia|intros; lia]).
  assert (K0 : exists ks, map fst c = 0 :: ks).
  { assert (I0 : In 0 (keys c)) by (apply c_keys; exists 0; exact F0). assert (S := c_sorted (chain n)). fold c in S. unfold keys in *. destruct (map fst c) as [|k ks]; [destruct I0|]. exists ks.
    destruct I0 as [->|I0]; [reflexivity|]. inversion S as [|? ? _ F]; subst. rewrite Forall_forall in F. apply F in I0. lia. }
  destruct K0 as [ks K0]. rewrite K0 in H. cbn [collect_clusters member existsb] in H.
  destruct (dfs f c [0] [] []) as [[vis cl]|] eqn:E; [|discriminate].
  assert (CH : forall p, p < n -> 2 <= count_occ Nat.eq_dec (children c p) (S p)).
  { intros p L. unfold c, connections. rewrite children_is by constructor. cbn [app children find].
    assert (KEY : forall h, h = 2 * p + 2 \/ h = 2 * p + 3 -> exists qs, In (h, p :: qs) (positions (chain n)) /\ In (S p) qs).
    { intros h Hh. assert (FP : first_at (chain n) p h) by (split; [apply chain_at; lia|intros q Hq; apply chain_at in Hq; lia]).
      destruct (first_at_key _ _ _ FP) as (qs & Q1 & Q2). exists qs. split; [exact Q1|]. assert (Q := proj2 (Q2 (S p))). destruct Q as [Q|Q]; [apply chain_at; lia|lia|exact Q]. }
    destruct (KEY (2 * p + 2) (or_introl eq_refl)) as (q1 & A1 & B1). destruct (KEY (2 * p + 3) (or_intror eq_refl)) as (q2 & A2 & B2).
    destruct (in_split _ _ A1) as (m1 & m2 & EM). rewrite EM in A2 |- *. rewrite flat_map_app, count_occ_app. cbn [flat_map snd]. rewrite Nat.eqb_refl, count_occ_app.
    assert (ONE : 1 <= count_occ Nat.eq_dec q1 (S p)) by (apply (count_occ_In Nat.eq_dec); exact B1).
    set (g := fun kv : nat * list nat => match snd kv with p0 :: qs => if Nat.eqb p p0 then qs else [] | [] => [] end).
    assert (TWO : forall m, In (2 * p + 3, p :: q2) m -> 1 <= count_occ Nat.eq_dec (flat_map g m) (S p)).
    { intros m Hm. apply (count_occ_In Nat.eq_dec). apply in_flat_map. exists (2 * p + 3, p :: q2). split; [exact Hm|]. unfold g. cbn [snd]. rewrite Nat.eqb_refl. exact B2. }
    fold g. apply in_app_or in A2 as [A2|[A2|A2]]; [assert (Q := TWO m1 A2); lia|injection A2 as A2; lia|assert (Q := TWO m2 A2); lia]. }
  assert (W := dfs_weight c n CH f [0] [] [] _ E). change (weight n [0]) with ((if 0 <=? n then 2 ^ (n - 0) else 0) + 0) in W.
  replace (0 <=? n) with true in W by reflexivity. rewrite Nat.sub_0_r in W. lia.
Qed.

(** ** sums of expressions *)
(** Every term that can be binarized has an intermediate: no term is lost by the clustering. *)
Lemma fold_prod_node K is_proto merge im : forall acc o r a b rest, acc = Node o r a b -> exists o' r' a' b', fold_prod K is_proto merge acc im rest = Node o' r' a' b'.
Proof.
  induction im as [|u im IH]; intros acc o r a b rest ->; destruct rest; cbn [fold_prod]; eauto 8.
Qed.
Lemma fold_sum_node K merge t : forall rest acc, (exists o r a b, acc = Node o r a b) \/ rest <> [] -> exists o' r' a' b', fold_sum K merge t acc rest = Node o' r' a' b'.
Proof.
  unfold fold_sum. induction rest as [|x rest IH]; intros acc H; cbn [fold_left]; [destruct H as [(o & r & a & b & ->)|H]; [eauto|congruence]|]. apply IH. left. eauto.
Qed.
Theorem C15_terms_have_intermediates : forall (K : Type) is_one proto merge (hash : node K -> nat) e keep n,
  binarize K is_one proto merge e keep = Ret n -> term_hashes K hash e n <> [].
Proof.
  intros K is_one proto merge hash e keep n H. unfold term_hashes. destruct (single_atom K e) eqn:SA; [discriminate|].
  assert (G : exists o r a b, n = Node o r a b); [|destruct G as (o & r & a & b & ->); discriminate].
  revert keep n H SA. induction e as [c|v|t|l IH|c l IH] using bex_ind2; intros keep n H SA; try discriminate.
  - destruct l as [|x [|y l]]; [discriminate| |].
    + cbn [binarize] in H. destruct (binarize K is_one proto merge x keep) as [m| |] eqn:E; [|discriminate|discriminate]. cbn [bind] in H.
      inversion IH as [|? ? IH1 _]; subst. destruct (IH1 keep m E SA) as (o & r & a & b & ->).
      destruct (forallb _ _); [injection H as <-; cbn; eauto|]. destruct (forallb _ _); [injection H as <-; cbn; eauto|discriminate].
    + cbn [binarize] in H. destruct (binarize K is_one proto merge x keep) as [m| |]; [|discriminate|discriminate]. cbn [bind] in H. destruct (binarize K is_one proto merge y keep) as [m2| |]; [|discriminate|discriminate]. cbn [bind] in H.
      match type of H with context [bind ?q (fun r => Ret (m2 :: r))] => destruct q as [ms| |]; [|discriminate|discriminate] end.
      cbn [bind] in H. destruct (forallb _ _); [injection H as <-; apply fold_sum_node; left; eauto|]. destruct (forallb _ _); [injection H as <-; apply fold_sum_node; left; eauto|discriminate].
  - destruct l as [|x [|y l]]; [discriminate| |].
    + cbn [binarize map ltr bind fst snd] in H. match type of H with context [binarize K is_one proto merge x ?k] => destruct (binarize K is_one proto merge x k) as [m| |] eqn:E; [|discriminate|discriminate] end.
      cbn [bind] in H. inversion IH as [|? ? IH1 _]; subst. destruct (IH1 _ m E SA) as (o & r & a & b & ->). cbn in H. destruct (is_one c); injection H as <-; eauto.
    + cbn [binarize map] in H. unfold ltr in H. cbn [map bind fst snd length seq tl] in H.
      match type of H with context [binarize K is_one proto merge x ?k] => destruct (binarize K is_one proto merge x k) as [m| |]; [|discriminate|discriminate] end. cbn [bind] in H.
      match type of H with context [binarize K is_one proto merge y ?k] => destruct (binarize K is_one proto merge y k) as [m2| |]; [|discriminate|discriminate] end. cbn [bind] in H.
      match type of H with context [bind ?q (fun r => Ret (m2 :: r))] => destruct q as [ms| |]; [|discriminate|discriminate] end. cbn [bind fold_prod] in H.
      match type of H with (if _ then Ret ?p else _) = _ => assert (P : exists o' r' a' b', p = Node o' r' a' b') by (eapply fold_prod_node; reflexivity) end.
      destruct (is_one c); injection H as <-; [exact P|eauto].
Qed.

(** Optimising a sum with reordering: the optimised terms can be binarized, reordering them
    terminates, and the result has the value of the sum. *)
Theorem C15_optimized_sum : forall (K : Type) (zero one : K) (add mul : K -> K -> K),
  semi_ring_theory zero one add mul eq ->
  forall is_one : K -> bool, (forall c, is_one c = true -> c = one) ->
  forall proto : idx -> list idx, (forall x, proto x = []) ->
  forall (placeholder : nat -> nat) (find_label : nat -> option nat),
  (forall i, find_label (placeholder i) = Some i) ->
  forall (max : nat) (seq_of : list (bex K) -> list Z), good_seq K max seq_of ->
  forall (merge : bool) (hash : node K -> nat) (l : list (bex K)),
  good_expr K one find_label max (Add l) -> gok K [] (Add l) ->
  exists l' ns f0,
    optimize K one mul placeholder find_label seq_of (Add l) = Ret (Add l') /\
    Forall2 (fun e n => binarize K is_one proto merge e [] = Ret n) l' ns /\
    forall f, f0 <= f -> exists r,
      reorder f (map (fun en => term_hashes K hash (fst en) (snd en)) (combine l' ns)) l' = Ret r /\
      Permutation r l' /\
      same_set (gopen K [] (Add l)) (gopen K [] (Add r)) /\
      forall dom var tens rr, gden K zero one add mul dom var tens [] (Add l) rr = gden K zero one add mul dom var tens [] (Add r) rr.
Proof.
  intros K zero one add mul SR is_one H1 proto H2 placeholder find_label D max seq_of GS merge hash l G OK.
  destruct (C14_optimize_partial K zero one add mul SR placeholder find_label D max seq_of GS (Add l) G) as (e' & E & Q).
  assert (EL : exists l', e' = Add l').
  { cbn [optimize] in E. match type of E with bind ?q _ = _ => destruct q; [|discriminate|discriminate] end. cbn [bind] in E. injection E as <-. eauto. }
  destruct EL as [l' ->].
  destruct (Q (fun _ => []) (fun _ => zero) (fun _ _ => zero) [] OK) as (OK' & SO & _).
  assert (BN : exists ns, Forall2 (fun e n => binarize K is_one proto merge e [] = Ret n) l' ns).
  { destruct OK' as (_ & _ & OL). rewrite gok_list in OL. clear - OL SR H1 H2. induction l' as [|x l' IH]; [exists []; constructor|].
    destruct (C65_binarize_partial K zero one add mul SR is_one H1 proto H2 merge (fun _ => []) (fun _ => zero) (fun _ _ => zero) x [] (OL x (or_introl eq_refl))) as (n & En & _).
    destruct (IH (fun y Hy => OL y (or_intror Hy))) as (ns & Hns). exists (n :: ns). constructor; assumption. }
  destruct BN as [ns BN].
  assert (LEN : length ns = length l') by (clear - BN; induction BN; cbn; congruence).
  destruct (C15_reorder _ l' (map (fun en => term_hashes K hash (fst en) (snd en)) (combine l' ns))) as [f0 R].
  { rewrite map_length, combine_length. lia. }
  { clear - BN. induction BN as [|e n l' ns B BN IH]; cbn [combine map]; constructor; [|exact IH]. eapply C15_terms_have_intermediates. exact B. }
  exists l', ns, f0. split; [exact E|]. split; [exact BN|]. intros f Lf. destruct (R f Lf) as (r & Er & P). exists r. split; [exact Er|]. split; [exact P|]. split.
  - intros x. rewrite (SO x). destruct OK' as (NE & SS & _). destruct l' as [|a l']; [congruence|]. destruct r as [|b r]; [apply Permutation_length in P; discriminate|].
    cbn [gopen]. apply SS; [left; reflexivity|]. eapply Permutation_in; [exact P|left; reflexivity].
  - intros dom var tens rr. destruct (Q dom var tens [] OK) as (_ & _ & V). rewrite V. cbn [gden]. apply Permutation_sym in P. clear - P SR.
    assert (KS : forall a b, Permutation a b -> ksum K zero add a = ksum K zero add b).
    { intros a b H. induction H; cbn [ksum]; auto; [rewrite IHPermutation; reflexivity| |congruence]. rewrite !(SRadd_assoc SR). f_equal. apply (SRadd_comm SR). }
    apply KS. apply Permutation_map. exact P.
Qed.

Module CluExample.
  (** terms 0 and 2 share the intermediate 10, terms 1 and 2 the intermediate 20 *)
  Definition hs := [[10]; [20]; [10; 20]].
  Theorem C15_same_cluster_refuted :
    clusters 100 hs = Some [[0; 2]; [1]] /\ share hs 1 2 /\
    ~ (forall p q, share hs p q -> exists cl, In cl [[0; 2]; [1]] /\ In p cl /\ In q cl).
  Proof.
    assert (S : share hs 1 2) by (exists 20; split; [exists [20]|exists [10; 20]]; split; try reflexivity; cbn; auto).
    split; [reflexivity|]. split; [exact S|]. intros H. destruct (H 1 2 S) as (cl & [<-|[<-|[]]] & H1 & H2); cbn in H1, H2; lia.
  Qed.
  (** three terms, the first and the last of which share an intermediate, are reordered *)
  Example reordered : reorder 100 [[10; 11]; [20]; [10; 12]] [5; 6; 7] = Ret [5; 7; 6].
  Proof. reflexivity. Qed.
  Example chain_clusters : clusters 40 (chain 3) = Some [[0; 1; 2; 3]].
  Proof. reflexivity. Qed.
  (** the same search with seven terms is not finished after 64 steps *)
  Example chain_slow : clusters 64 (chain 6) = None.
  Proof. vm_compute. reflexivity. Qed.
End CluExample.

Print Assumptions C15_clusters.
Print Assumptions C15_shared.
Print Assumptions C15_reorder.
Print Assumptions C15_same_cluster_partial.
Print Assumptions C15_exponential.
Print Assumptions C15_terms_have_intermediates.
Print Assumptions C15_optimized_sum.
