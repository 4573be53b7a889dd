(** The canonical form by the graph is unique: networks. *)
From Coq Require Import ZArith List Arith Bool Permutation Sorted Lia.
From Verif Require Import Alg_Model Alg_Spec Alg_Proofs1 Alg_Proofs2 Tsr_Model Tsr_Spec Tsr_Proofs2 Tsr_Proofs3 Tsr_Proofs4 Net_Model Net_Spec Net_Spec2 Net_Proofs2 Net_Proofs3 Net_Proofs4 Net_Proofs5 Net_Proofs6 Net_Proofs7 Net_Proofs8 Net_Proofs9.
Import ListNotations.
Open Scope nat_scope.

Lemma map_opt_nth {A B} (f : A -> option B) l : forall m n x, map_opt f l = Some m -> nth_error l n = Some x ->
  exists y, f x = Some y /\ nth_error m n = Some y.
Proof.
  induction l as [|a l IH]; intros m n x; cbn; [destruct n; discriminate|].
  destruct (f a) as [b|] eqn:F; [|discriminate]. destruct (map_opt f l) as [l'|] eqn:E; [|discriminate]. cbn. intros [= <-].
  destruct n as [|n]; cbn; [intros [= <-]; eauto|]. intros X. apply (IH l'); auto.
Qed.
Lemma number_nth {A} (l : list A) n x : nth_error l n = Some x -> nth_error (number l) n = Some (n, x).
Proof.
  unfold number. assert (G : forall k, nth_error l n = Some x -> nth_error (combine (seq k (length l)) l) n = Some (k + n, x)).
  { revert n. induction l as [|a l IH]; intros [|n] k; cbn; try discriminate.
    - intros [= <-]. rewrite Nat.add_0_r. auto.
    - intros X. rewrite IH; auto. rewrite Nat.add_succ_r. auto. }
  apply (G 0).
Qed.
Lemma nodup_keys {A} (k : A -> nat) l : NoDup l -> (forall x y, In x l -> In y l -> k x = k y -> x = y) -> NoDup (map k l).
Proof.
  intros ND. induction ND as [|x l X ND IH]; cbn; intros I; constructor.
  - rewrite in_map_iff. intros (y & E & Y). apply X. rewrite <- (I y x); auto.
  - apply IH. intros; apply I; auto.
Qed.
Lemma perm_inj {A} (f : A -> nat) l n : Permutation (map f l) (seq 0 n) -> forall x y, In x l -> In y l -> f x = f y -> x = y.
Proof.
  intros P. assert (ND : NoDup (map f l)) by (apply (Permutation_NoDup (Permutation_sym P)), seq_NoDup). clear P.
  induction l as [|a l IH]; cbn; [tauto|]. cbn in ND. inversion ND as [|? ? A1 A2]; subst. intros x y [<-|X] [<-|Y] E; auto.
  - destruct A1. rewrite E. apply in_map. auto.
  - destruct A1. rewrite <- E. apply in_map. auto.
Qed.

Section Networks.
  Variable S : space -> Prop.
  Hypothesis R : one_registry S.
  Notation plain := (plain S).
  Notation proper := (proper S).
  Variable named : list index.
  Hypothesis Pn : Forall plain named.
  Hypothesis On : ordered named.
  Variable bliss : graph -> vtx -> nat.
  Hypothesis Bl : canonical_labelling bliss.

  Lemma labels_match N M i1 i2 : Forall plain (indices N) -> Forall plain (indices M) -> init_edges N = Some i1 -> init_edges M = Some i2 ->
    iso named N M -> matching named N M (bliss (create_graph named true N i1)) (bliss (create_graph named true M i2)).
  Proof.
    intros P1 P2 I1 I2 Is. pose proof (iso_isomorphic S R named Pn On N M i1 i2 P1 P2 I1 I2 Is) as G.
    set (g := create_graph named true N i1) in *. set (h := create_graph named true M i2) in *.
    assert (Vg : forall v, In v (g_verts g) <-> vertex N v) by (intros; apply (graph_verts S R); auto).
    assert (Vh : forall v, In v (g_verts h) <-> vertex M v) by (intros; apply (graph_verts S R); auto).
    assert (Ng : NoDup (g_verts g)) by (apply (graph_nodup S R); auto). assert (Nh : NoDup (g_verts h)) by (apply (graph_nodup S R); auto).
    destruct Bl as (B1 & B2). pose proof (B1 g Ng) as Qg. pose proof (B1 h Nh) as Qh. specialize (B2 g h Ng Nh G).
    assert (L : length (g_verts g) = length (g_verts h)).
    { destruct G as (f & Pm & _). apply Permutation_length in Pm. rewrite map_length in Pm. auto. }
    split; [|split; [|split; [|split]]].
    - intros v V. apply Vg in V. apply (in_map (bliss g)), (Permutation_in _ Qg) in V. rewrite L in V.
      apply (Permutation_in _ (Permutation_sym Qh)) in V. apply in_map_iff in V. destruct V as (w & E & W). exists w. split; auto. apply Vh. auto.
    - intros v V. apply Vh in V. apply (in_map (bliss h)), (Permutation_in _ Qh) in V. rewrite <- L in V.
      apply (Permutation_in _ (Permutation_sym Qg)) in V. apply in_map_iff in V. destruct V as (w & E & W). exists w. split; auto. apply Vg. auto.
    - intros u v U V. apply (perm_inj _ _ _ Qg); apply Vg; auto.
    - intros u v U V. apply (perm_inj _ _ _ Qh); apply Vh; auto.
    - intros u u' v v' U V U' V' E F. destruct (B2 u u' v v') as (C & D); [apply Vg; auto|apply Vg; auto|apply Vh; auto|apply Vh; auto|auto|auto|].
      split.
      + unfold g, h in C. rewrite (graph_color named N i1 u U) in C. rewrite (graph_color named M i2 u' U') in C. exact C.
      + unfold adjacent, g, h in D. rewrite !(graph_edges S R named N i1 P1 I1), !(graph_edges S R named M i2 P2 I2) in D. unfold adj. tauto.
  Qed.

  Lemma graph_complete N M N' M' o1 o2 s1 s2 : Forall proper N -> Forall proper M -> Forall orientable N ->
    iso named N M ->
    canonicalize_graph bliss named false N = Some (N', o1, s1) -> canonicalize_graph bliss named false M = Some (M', o2, s2) -> N' = M'.
  Proof.
    intros Pp1 Pp2 Or Is. unfold canonicalize_graph.
    destruct (init_edges N) as [i1|] eqn:I1; [|discriminate]. destruct (init_edges M) as [i2|] eqn:I2; [|discriminate]. cbn [negb].
    pose proof (proper_indices S N Pp1) as P1. pose proof (proper_indices S M Pp2) as P2.
    pose proof (labels_match N M i1 i2 P1 P2 I1 I2 Is) as H.
    set (p := bliss (create_graph named true N i1)) in *. set (q := bliss (create_graph named true M i2)) in *. clearbody p q.
    pose proof (edges_idx S R N i1 P1 I1) as X1. pose proof (edges_idx S R M i2 P2 I2) as X2.
    pose proof (edges_plain S R N i1 P1 I1) as F1. pose proof (edges_plain S R M i2 P2 I2) as F2.
    pose proof (edges_nodup S R N i1 P1 I1) as D1. pose proof (edges_nodup S R M i2 P2 I2) as D2.
    set (e1 := map e_idx (ei_edges i1)) in *. set (e2 := map e_idx (ei_edges i2)) in *. clearbody e1 e2.
    set (l1 := stable_sort (fun a b => p (VIndex a) <? p (VIndex b)) e1). set (l2 := stable_sort (fun a b => q (VIndex a) <? q (VIndex b)) e2).
    assert (V1 : forall i, In i e1 -> vertex N (VIndex i)) by (intros i I; apply X1; auto).
    assert (V2 : forall i, In i e2 -> vertex M (VIndex i)) by (intros i I; apply X2; auto).
    assert (S1 : StronglySorted lt (map (fun i => p (VIndex i)) l1)).
    { apply (stable_keys (fun i => p (VIndex i))). apply nodup_keys; auto. intros x y Ix Iy E.
      destruct H as (_ & _ & H & _). apply H in E; auto. congruence. }
    assert (S2 : StronglySorted lt (map (fun i => q (VIndex i)) l2)).
    { apply (stable_keys (fun i => q (VIndex i))). apply nodup_keys; auto. intros x y Ix Iy E.
      destruct H as (_ & _ & _ & H & _). apply H in E; auto. congruence. }
    assert (Pl1 : Permutation e1 l1) by apply stable_perm. assert (Pl2 : Permutation e2 l2) by apply stable_perm.
    clearbody l1 l2.
    assert (In1 : forall i, In i l1 <-> In i (indices N)).
    { intros i. rewrite <- X1. split; apply Permutation_in; auto using Permutation_sym. }
    assert (In2 : forall i, In i l2 <-> In i (indices M)).
    { intros i. rewrite <- X2. split; apply Permutation_in; auto using Permutation_sym. }
    set (f := fun i => negb (named_in named i)).
    destruct (make_replacements named [] (filter f l1)) as [m1|] eqn:M1; [|discriminate].
    destruct (make_replacements named [] (filter f l2)) as [m2|] eqn:M2; [intros E1 E2|destruct (map_opt _ N); [destruct (map_opt _ (number l)); [destruct (sort_via_ordinals _ _ _) as [(?, ?)|]|]|]; discriminate].
    assert (Fl1 : Forall plain l1) by (apply (Permutation_Forall Pl1); auto). assert (Fl2 : Forall plain l2) by (apply (Permutation_Forall Pl2); auto).
    assert (Nd1 : NoDup (filter f l1)) by (apply NoDup_filter, (Permutation_NoDup Pl1); auto).
    assert (Nd2 : NoDup (filter f l2)) by (apply NoDup_filter, (Permutation_NoDup Pl2); auto).
    assert (Ff1 : forall i, In i (filter f l1) <-> In i (indices N) /\ ~ In i named).
    { intros i. unfold f. rewrite (filter_negb_In S R); auto. rewrite In1. tauto. }
    assert (Ff2 : forall i, In i (filter f l2) <-> In i (indices M) /\ ~ In i named).
    { intros i. unfold f. rewrite (filter_negb_In S R); auto. rewrite In2. tauto. }
    assert (Pf1 : Forall plain (filter f l1)). { apply Forall_forall. intros i I. apply filter_In in I. rewrite Forall_forall in Fl1. apply Fl1. tauto. }
    assert (Pf2 : Forall plain (filter f l2)). { apply Forall_forall. intros i I. apply filter_In in I. rewrite Forall_forall in Fl2. apply Fl2. tauto. }
    assert (Cl : forall i j, mt N M p q (VIndex i) (VIndex j) -> ix_space j = ix_space i /\ (In i named -> j = i) /\ (~ In i named -> ~ In j named)).
    { intros i j X. pose proof (mt_color named N M p q H _ _ X) as C. cbn in C. apply (index_color_same S R named Pn On) in C; auto.
      - rewrite Forall_forall in P1. apply P1. apply X.
      - rewrite Forall_forall in P2. apply P2. apply X. }
    assert (Al : Forall2 (fun i j => In i (filter f l1) /\ In j (filter f l2) /\ p (VIndex i) = q (VIndex j)) (filter f l1) (filter f l2)).
    { apply (align (fun i => p (VIndex i)) (fun i => q (VIndex i))); [apply sorted_filter; auto|apply sorted_filter; auto| |].
      - intros i I. apply Ff1 in I. destruct (mt_index named N M p q H i) as (j & X & _); [apply I|]. exists j. split; [|apply X]. apply Ff2.
        split; [apply X|]. apply (Cl i j X). tauto.
      - intros j J. apply Ff2 in J. destruct (mt_index named M N q p (matching_sym _ _ _ _ _ H) j) as (i & X & _); [apply J|]. apply mt_sym in X.
        exists i. split; [|apply X]. apply Ff1. split; [apply X|]. intros Ni. apply (Cl i j X) in Ni as E. subst. tauto. }
    assert (Al' : Forall2 (fun i j => mt N M p q (VIndex i) (VIndex j)) (filter f l1) (filter f l2)).
    { eapply forall2_imp; [|exact Al]. cbv beta. intros i j (A & B & C). split; [apply Ff1; auto|]. split; [apply Ff2; auto|auto]. }
    assert (Ms : map (rho m1) (filter f l1) = map (rho m2) (filter f l2)).
    { apply (make_same S R named Pn (filter f l1) (filter f l2) [] m1 m2); auto. eapply forall2_imp; [|exact Al']. cbv beta.
      intros i j X. symmetry. apply (Cl i j X). }
    destruct (rename_equivalent S R named (filter f l1) m1 N Pn P1 Pf1 Nd1 Ff1 M1) as (_ & _ & _ & _ & Fx1 & _).
    destruct (rename_equivalent S R named (filter f l2) m2 M Pn P2 Pf2 Nd2 Ff2 M2) as (_ & _ & _ & _ & Fx2 & _).
    destruct (rename_step S R named (filter f l1) m1 N Pn Pp1 Nd1 Ff1 M1) as (T1 & R1 & Q1 & _ & Pr1 & _).
    destruct (rename_step S R named (filter f l2) m2 M Pn Pp2 Nd2 Ff2 M2) as (T2 & R2 & Q2 & _ & Pr2 & _).
    rewrite R1 in E1. rewrite R2 in E2. clear R1 R2.
    assert (Hr : forall i j, mt N M p q (VIndex i) (VIndex j) -> rho m1 i = rho m2 j).
    { intros i j X. destruct (in_dec index_eq_dec i named) as [Ni|Ni].
      - destruct (Cl i j X) as (_ & A & _). specialize (A Ni). subst j. rewrite Fx1, Fx2; auto; apply X.
      - assert (I : In i (filter f l1)) by (apply Ff1; split; auto; apply X). clear - H X I Al' Ms.
        induction Al' as [|a b la lb A Al IH]; [destruct I|]. cbn in Ms. injection Ms as Mh Mt. destruct I as [->|I]; auto.
        pose proof (mt_fun named N M p q H _ _ _ X A) as E. injection E as ->. auto. }
    destruct (map_opt _ (number T1)) as [u1|] eqn:U1; [|discriminate]. destruct (map_opt _ (number T2)) as [u2|] eqn:U2; [|discriminate].
    destruct (sort_via_ordinals _ _ (map fst u1)) as [(w1, z1)|] eqn:W1; [|discriminate].
    destruct (sort_via_ordinals _ _ (map fst u2)) as [(w2, z2)|] eqn:W2; [|discriminate].
    injection E1 as <- _ _. injection E2 as <- _ _. apply sort_via_spec in W1, W2.
    destruct W1 as (d1 & k1 & B1 & _ & [= -> _]), W2 as (d2 & k2 & B2 & _ & [= -> _]).
    assert (L1 : length (map fst u1) = length N).
    { rewrite map_length, (map_opt_length _ _ _ U1). unfold number. rewrite combine_length, seq_length, Nat.min_id, Q1, map_length. auto. }
    assert (L2 : length (map fst u2) = length M).
    { rewrite map_length, (map_opt_length _ _ _ U2). unfold number. rewrite combine_length, seq_length, Nat.min_id, Q2, map_length. auto. }
    rewrite L1 in B1. rewrite L2 in B2.
    apply (bubble_keys (fun n => p (VCore n))) in B1.
    2: { apply nodup_keys; [apply seq_NoDup|]. intros x y Ix Iy E. apply in_seq in Ix, Iy. destruct H as (_ & _ & H & _).
         apply H in E; [congruence|cbn; lia|cbn; lia]. }
    apply (bubble_keys (fun n => q (VCore n))) in B2.
    2: { apply nodup_keys; [apply seq_NoDup|]. intros x y Ix Iy E. apply in_seq in Ix, Iy. destruct H as (_ & _ & _ & H & _).
         apply H in E; [congruence|cbn; lia|cbn; lia]. }
    destruct B1 as (Pd1 & Sd1), B2 as (Pd2 & Sd2). unfold pick. apply forall2_map.
    eapply forall2_imp; [|apply (align (fun n => p (VCore n)) (fun n => q (VCore n)) d1 d2 Sd1 Sd2)].
    - cbv beta. intros n n' (A & B & C). apply (Permutation_in _ (Permutation_sym Pd1)), in_seq in A.
      apply (Permutation_in _ (Permutation_sym Pd2)), in_seq in B.
      assert (X : mt N M p q (VCore n) (VCore n')) by (split; [cbn; lia|split; [cbn; lia|auto]]).
      destruct (mt_bundles named N M p q H n n' X) as (fl & Hf & Hb).
      assert (A1 : nth_error T1 n = Some (renamed (rho m1) (ten N n))).
      { rewrite Q1, nth_error_map. rewrite ten_nth by lia. auto. }
      assert (A2 : nth_error T2 n' = Some (renamed (rho m2) (ten M n'))).
      { rewrite Q2, nth_error_map. rewrite ten_nth by lia. auto. }
      destruct (map_opt_nth _ _ _ _ _ U1 (number_nth _ _ _ A1)) as ((y1, g1) & Y1 & Z1).
      destruct (map_opt_nth _ _ _ _ _ U2 (number_nth _ _ _ A2)) as ((y2, g2) & Y2 & Z2). cbn [fst snd] in Y1, Y2.
      rewrite (nth_error_nth (map fst u1) n no_tensor (x := y1)) by (rewrite nth_error_map, Z1; auto).
      rewrite (nth_error_nth (map fst u2) n' no_tensor (x := y2)) by (rewrite nth_error_map, Z2; auto).
      apply nth_error_In in A1, A2. rewrite Forall_forall in Pr1, Pr2, Or.
      apply (permute_same S named N M p q H (rho m1) (rho m2) Hr n n' X (Pr1 _ A1) (Pr2 _ A2) fl Hf Hb) with (3 := Y2) (s1 := g1); auto.
      intros Cn. apply (Or (ten N n)); auto. apply nth_In. lia.
    - intros n A. apply (Permutation_in _ (Permutation_sym Pd1)), in_seq in A. destruct (mt_ex named N M p q H (VCore n)) as (w & W); [cbn; lia|].
      destruct (mt_core named N M p q H n w W) as (n' & -> & _). exists n'. split; [|apply W]. apply (Permutation_in _ Pd2), in_seq. destruct W as (_ & W & _). cbn in W. lia.
    - intros n A. apply (Permutation_in _ (Permutation_sym Pd2)), in_seq in A.
      destruct (mt_ex named M N q p (matching_sym _ _ _ _ _ H) (VCore n)) as (w & W); [cbn; lia|].
      destruct (mt_core named M N q p (matching_sym _ _ _ _ _ H) n w W) as (n' & -> & _). apply mt_sym in W. exists n'. split; [|apply W].
      apply (Permutation_in _ Pd1), in_seq. destruct W as (W & _ & _). cbn in W. lia.
  Qed.
End Networks.
