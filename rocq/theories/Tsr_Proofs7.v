(** The canonical blocks, and the order of tensors. *)
From Coq Require Import ZArith List Arith Bool Permutation Sorted Lia.
From Verif Require Import Tsr_Model Tsr_Spec Tsr_Proofs1 Tsr_Proofs2 Tsr_Proofs3 Tsr_Proofs4 Tsr_Proofs5 Tsr_Proofs6 Alg_Spec Alg_Model Alg_Proofs1 Alg_Proofs2.
Import ListNotations.

(* ---------- orientation ---------- *)

Lemma compare_spaces_shape S i j : one_registry S -> over S i -> over S j -> space_less i j = key_less hcmp shape i j.
Proof. intros R O O'. unfold space_less. rewrite (compare_spaces_key S); auto. rewrite zof_neg. auto. Qed.

Lemma sorted_ext {A} (lt lt' : A -> A -> bool) l : (forall x y, In x l -> In y l -> lt x y = lt' x y) ->
  in_sorted_order lt l -> in_sorted_order lt' l.
Proof.
  unfold in_sorted_order. intros H. induction l as [|x l IH]; intros S; constructor; inversion S as [|? ? S1 S2]; subst.
  - apply IH; auto. intros; apply H; right; auto.
  - rewrite Forall_forall in *. intros y Hy. rewrite <- H; [auto|right; auto|left; auto].
Qed.

Lemma sorts_key S sort l : one_registry S -> sorts (over S) space_less sort -> Forall (over S) l ->
  Permutation l (sort l) /\ in_sorted_order (key_less hcmp shape) (sort l) /\ Forall (over S) (sort l).
Proof.
  intros R So F. destruct (So l F) as (P & I). split; auto.
  assert (F' : Forall (over S) (sort l)) by (eapply Permutation_Forall; eauto).
  split; auto. rewrite Forall_forall in F'. eapply sorted_ext; [|exact I]. intros x y X Y. apply (compare_spaces_shape S); auto.
Qed.

Definition wcmp (sort : list index -> list index) (t : tensor) : comparison :=
  lcmp hcmp (map shape (sort (t_bra t))) (map shape (sort (t_ket t))).
Lemma wants_key S sort t : one_registry S -> sorts (over S) space_less sort -> Forall (over S) (t_bra t) -> Forall (over S) (t_ket t) ->
  wants_swap sort t = match wcmp sort t with Lt => true | _ => false end.
Proof.
  intros R So Fb Fk. unfold wants_swap, wcmp.
  destruct (sorts_key S sort _ R So Fb) as (_ & _ & Ob). destruct (sorts_key S sort _ R So Fk) as (_ & _ & Ok).
  rewrite (lex_less_lcmp (fun x y => hcmp (shape x) (shape y))).
  - assert (M : forall l m, lcmp (fun x y => hcmp (shape x) (shape y)) l m = lcmp hcmp (map shape l) (map shape m)).
    { induction l as [|x l IH]; intros [|y m]; cbn; auto. rewrite IH. auto. }
    rewrite M. auto.
  - intros x y. apply TO_hcmp.
  - rewrite Forall_forall in Ob, Ok. intros x y X Y. split; rewrite (compare_spaces_shape S); auto.
Qed.
Lemma shape_perm_sorted (s1 s2 : list index) : in_sorted_order (key_less hcmp shape) s1 -> in_sorted_order (key_less hcmp shape) s2 ->
  Permutation (map shape s1) (map shape s2) -> map shape s1 = map shape s2.
Proof.
  intros S1 S2 P. revert s2 S2 P. induction s1 as [|x l IH]; intros [|y m] S2 P; cbn in *; auto.
  - apply Permutation_nil in P. discriminate.
  - apply Permutation_sym, Permutation_nil in P. discriminate.
  - inversion S1 as [|? ? S1' F1]; subst. inversion S2 as [|? ? S2' F2]; subst. rewrite Forall_forall in F1, F2.
    assert (E : shape x = shape y).
    { assert (Hy : In (shape y) (shape x :: map shape l)) by (eapply Permutation_in; [apply Permutation_sym; exact P|left; auto]).
      assert (Hx : In (shape x) (shape y :: map shape m)) by (eapply Permutation_in; [exact P|left; auto]).
      destruct Hy as [Hy|Hy]; auto. destruct Hx as [Hx|Hx]; auto.
      apply in_map_iff in Hy. destruct Hy as (v & Ev & Hv). apply in_map_iff in Hx. destruct Hx as (w & Ew & Hw).
      specialize (F1 _ Hv). specialize (F2 _ Hw). cbn in F1, F2. unfold key_less in F1, F2. rewrite Ev in F1. rewrite Ew in F2.
      assert (G1 : key_less hcmp shape y x = false) by exact F1. assert (G2 : key_less hcmp shape x y = false) by exact F2.
      destruct (key_not_less _ _ TO_hcmp _ _ G1) as [G|G]; auto. congruence. }
    f_equal; auto. apply IH; auto. rewrite E in P. apply Permutation_cons_inv in P. auto.
Qed.

Lemma sort_shapes S sort sort' l m : one_registry S -> sorts (over S) space_less sort -> sorts (over S) space_less sort' ->
  Forall (over S) l -> Forall (over S) m -> Permutation (map shape l) (map shape m) -> map shape (sort l) = map shape (sort' m).
Proof.
  intros R So So' Fl Fm P. destruct (sorts_key S sort l R So Fl) as (P1 & I1 & _). destruct (sorts_key S sort' m R So' Fm) as (P2 & I2 & _).
  apply shape_perm_sorted; auto.
  eapply perm_trans; [apply Permutation_sym, Permutation_map; exact P1|]. eapply perm_trans; [exact P|]. apply Permutation_map. auto.
Qed.
Lemma wcmp_same S sort sort' t u : one_registry S -> sorts (over S) space_less sort -> sorts (over S) space_less sort' ->
  Forall (over S) (t_bra t ++ t_ket t) -> Forall (over S) (t_bra u ++ t_ket u) ->
  Permutation (map shape (t_bra t)) (map shape (t_bra u)) -> Permutation (map shape (t_ket t)) (map shape (t_ket u)) ->
  wcmp sort t = wcmp sort' u.
Proof.
  intros R So So' Ft Fu Pb Pk. apply Forall_app in Ft, Fu. destruct Ft, Fu. unfold wcmp.
  rewrite (sort_shapes S sort sort' (t_bra t) (t_bra u)), (sort_shapes S sort sort' (t_ket t) (t_ket u)); auto.
Qed.
Lemma wcmp_swap sort t : wcmp sort (swapped t) = CompOpp (wcmp sort t).
Proof. unfold wcmp. cbn. apply (TO_list _ TO_hcmp). Qed.
Lemma wcmp_eq S sort t : one_registry S -> sorts (over S) space_less sort -> Forall (over S) (t_bra t ++ t_ket t) ->
  wcmp sort t = Eq -> Permutation (map shape (t_bra t)) (map shape (t_ket t)).
Proof.
  intros R So F E. apply Forall_app in F. destruct F as (Fb & Fk). apply (TO_list _ TO_hcmp) in E.
  destruct (So _ Fb) as (P1 & _), (So _ Fk) as (P2 & _).
  eapply perm_trans; [apply Permutation_map; exact P1|]. rewrite E. apply Permutation_sym, Permutation_map. auto.
Qed.

(* ---------- related tensors stay so when bra and ket are exchanged ---------- *)

Lemma combine_flip {A B} (l : list A) : forall (m : list B), combine m l = map (fun p => (snd p, fst p)) (combine l m).
Proof. induction l as [|x l IH]; intros [|y m]; cbn; auto. f_equal. auto. Qed.
Lemma related_swapped t u sg : related t u sg -> related (swapped t) (swapped u) sg.
Proof.
  unfold related, swapped. cbn. intros (H1 & H2 & H3 & H4 & H5 & H6 & H7 & H). do 7 (split; [auto|]). destruct (t_col t).
  2: { tauto. }
  destruct (t_symm t).
  - tauto.
  - destruct H as (n & m & B & K & ->). exists m, n. rewrite Nat.add_comm. auto.
  - destruct H as (b & b' & r & r' & k & k' & q & q' & E1 & E2 & E3 & E4 & L & L' & X & X' & P & Pr & Pq & ->).
    exists k, k', q, q', b, b', r, r'. do 6 (split; [auto|]). split; [tauto|]. split; [tauto|]. split; [|auto].
    rewrite (combine_flip b k), (combine_flip b' k'). apply Permutation_map. auto.
Qed.
Lemma related_lengths t u sg : related t u sg -> length (t_bra t) = length (t_bra u) /\ length (t_ket t) = length (t_ket u).
Proof.
  unfold related. intros (_ & _ & _ & _ & _ & _ & _ & H). destruct (t_col t).
  2: { destruct H as (-> & -> & _). auto. }
  destruct (t_symm t).
  - destruct H as (B & K & _). split; apply Permutation_length; auto.
  - destruct H as (n & m & B & K & _). apply exchanges_perm in B, K. split; apply Permutation_length; auto.
  - destruct H as (b & b' & r & r' & k & k' & q & q' & E1 & E2 & E3 & E4 & L & L' & X & X' & P & Pr & Pq & _).
    apply Permutation_length in P, Pr, Pq. rewrite !combine_length in P. rewrite E1, E2, E3, E4, !app_length. lia.
Qed.
Lemma related_perms t u sg : related t u sg -> Permutation (t_bra t) (t_bra u) /\ Permutation (t_ket t) (t_ket u).
Proof.
  unfold related. intros (_ & _ & _ & _ & _ & _ & _ & H). destruct (t_col t).
  2: { destruct H as (-> & -> & _). auto. }
  destruct (t_symm t).
  - tauto.
  - destruct H as (n & m & B & K & _). apply exchanges_perm in B, K. auto.
  - destruct H as (b & b' & r & r' & k & k' & q & q' & E1 & E2 & E3 & E4 & L & L' & X & X' & P & Pr & Pq & _).
    assert (Mf : forall (b k : list index), length b = length k -> map fst (combine b k) = b /\ map snd (combine b k) = k).
    { clear. induction b as [|x b IH]; intros [|y k] L; cbn; try discriminate; auto. injection L as L. destruct (IH _ L). split; congruence. }
    destruct (Mf b k L) as (M1 & M2), (Mf b' k' L') as (M3 & M4). rewrite E1, E2, E3, E4.
    split; apply Permutation_app; auto.
    + rewrite <- M1, <- M3. apply Permutation_map. auto.
    + rewrite <- M2, <- M4. apply Permutation_map. auto.
Qed.

Lemma perm_filter {A} (f : A -> bool) l m : Permutation l m -> Permutation (filter f l) (filter f m).
Proof.
  induction 1; cbn; auto.
  - destruct (f x); auto.
  - destruct (f x), (f y); auto. constructor.
  - eapply perm_trans; eauto.
Qed.

Definition pr (c : option index * option index) : index * index :=
  (match fst c with Some x => x | None => null_index end, match snd c with Some x => x | None => null_index end).
Lemma combine_pr cs : combine (opts fst (filter paired cs) ++ opts fst (filter bra_only cs))
                              (opts snd (filter paired cs) ++ map (fun _ => null_index) (filter bra_only cs)) =
                      map pr (filter paired cs ++ filter bra_only cs).
Proof.
  assert (A : forall l l' m m' : list index, length l = length m -> combine (l ++ l') (m ++ m') = combine l m ++ combine l' m').
  { induction l as [|x l IH]; intros l' [|y m] m' L; cbn; try discriminate; auto. f_equal. auto. }
  rewrite A by (rewrite paired_fst, paired_snd; auto). rewrite map_app. f_equal.
  - induction cs as [|([x|], [y|]) cs IH]; cbn; auto. f_equal. auto.
  - induction cs as [|([x|], [y|]) cs IH]; cbn; auto. f_equal. auto.
Qed.

Lemma related_canon t u sg : related t u sg -> related (canonicalize_slots t) (canonicalize_slots u) sg.
Proof.
  intros H. destruct (related_lengths _ _ _ H) as (Lb & Lk). pose proof H as H0.
  destruct H0 as (H1 & H2 & H3 & H4 & H5 & H6 & H7 & H0).
  assert (HE : have_empty u = have_empty t) by (unfold have_empty; rewrite Lb, Lk, H6, H7; auto).
  destruct (is_nonsymm (t_symm t) && is_colsymm (t_col t) && have_empty t) eqn:E.
  2: { rewrite !canon_slots_keep; auto. rewrite <- H3, <- H5, HE. auto. }
  apply andb_true_iff in E. destruct E as (E & E3). apply andb_true_iff in E. destruct E as (E1 & E2).
  rewrite (canon_slots_eq t), (canon_slots_eq u); auto; try (rewrite <- ?H3, <- ?H5, ?HE; auto; fail).
  assert (N : t_symm t = Nonsymm) by (destruct (t_symm t); auto; discriminate).
  assert (C : t_col t = ColSymm) by (destruct (t_col t); auto; discriminate).
  rewrite N, C in H0.
  destruct H0 as (b & b' & r & r' & k & k' & q & q' & F1 & F2 & F3 & F4 & L & L' & X & X' & P & Pr & Pq & ->).
  assert (PC : Permutation (columns (t_bra t) (t_ket t)) (columns (t_bra u) (t_ket u))).
  { rewrite F1, F2, F3, F4, !columns_app by auto. apply Permutation_app.
    - rewrite !columns_combine by auto. apply Permutation_map. auto.
    - apply columns_rest_perm; auto. }
  set (cs := columns (t_bra t) (t_ket t)) in *. set (ds := columns (t_bra u) (t_ket u)) in *. cbv zeta.
  unfold related. cbn [t_label t_aux t_symm t_bk t_col t_bra_net t_ket_net t_bra t_ket]. rewrite <- H3, <- H5, N, C.
  do 5 (split; [auto|]).
  assert (PL : forall p, length (filter p cs) = length (filter p ds)) by (intros p; apply Permutation_length, perm_filter; auto).
  split; [rewrite !PL; auto|]. split; [rewrite !PL; auto|].
  exists (cbra cs), (cbra ds), [], [], (opts snd (filter paired cs) ++ map (fun _ => null_index) (filter bra_only cs)),
    (opts snd (filter paired ds) ++ map (fun _ => null_index) (filter bra_only ds)), (opts snd (filter ket_only cs)), (opts snd (filter ket_only ds)).
  rewrite !app_nil_r. unfold cket. rewrite <- !app_assoc. do 4 (split; [auto|]).
  rewrite !len_cbra, !app_length, !paired_snd, !map_length. do 4 (split; [auto|]). unfold cbra. rewrite !combine_pr.
  split; [|split; [auto|split; auto]].
  - apply Permutation_map. apply Permutation_app; apply perm_filter; auto.
  - apply opts_perm. apply perm_filter. auto.
Qed.

(* ---------- the oriented tensor ---------- *)


Lemma over_null (S : space -> Prop) : S null_space -> over S null_index.
Proof. intros H. apply over_intro; auto. Qed.

Definition styled (S : space -> Prop) (t : tensor) : Prop :=
  forall x y, In x (t_bra t ++ t_ket t) -> In y (t_bra t ++ t_ket t) -> over S x /\ (shape x = shape y -> same_style x y).

Lemma styled_agree S t : one_registry S -> styled S t -> agree bcmp bkey bcmp2 bkey2 block_less block_less_pair t.
Proof.
  intros R St. split; [|split].
  - intros x y X Y. destruct (St x y), (St y x); try (rewrite in_app_iff; auto; fail). apply (block_less_key' S); auto.
  - intros x y X Y. destruct (St x y), (St y x); try (rewrite in_app_iff; auto; fail). apply (block_less_key' S); auto.
  - intros p q X Y Z W.
    destruct (St (fst p) (fst q)), (St (fst q) (fst p)), (St (snd p) (snd q)), (St (snd q) (snd p)); try (rewrite in_app_iff; auto; fail).
    apply (block_less_pair_key' S); auto.
Qed.

Lemma styled_tag S ext t : clean S (t_bra t ++ t_ket t ++ t_aux t) -> styled S (map_slots (tag_index ext) t).
Proof.
  intros C x y. cbn. rewrite <- map_app. rewrite app_assoc in C. apply clean_app in C. destruct C as (C & _). intros X Y.
  destruct (In_tagged _ _ _ _ C X) as (Ox & ((a & Ta) & _)), (In_tagged _ _ _ _ C Y) as (Oy & ((b & Tb) & _)).
  split; auto. intros _. unfold same_style. rewrite Ta, Tb. split; discriminate.
Qed.

Lemma In_opts {A B} (f : A -> option B) l y : In y (opts f l) -> exists x, In x l /\ f x = Some y.
Proof.
  unfold opts. intros H. apply in_flat_map in H. destruct H as (x & Hx & H). exists x. split; auto.
  destruct (f x); [destruct H as [->|[]]; auto|destruct H].
Qed.
Lemma columns_In b : forall k c, In c (columns b k) -> (forall x, fst c = Some x -> In x b) /\ (forall y, snd c = Some y -> In y k).
Proof.
  assert (Sl : forall x y, slot x = Some y -> x = y) by (intros x y; unfold slot; destruct (ix_null x); congruence).
  induction b as [|x b IH]; intros k c; cbn.
  - intros H. apply in_map_iff in H. destruct H as (y & <- & Hy). cbn. split; [discriminate|]. intros z Hz. apply Sl in Hz. subst. auto.
  - destruct k as [|y k]; cbn; intros [<-|H]; cbn.
    + split; [intros z Hz; left; apply Sl; auto|discriminate].
    + destruct (IH _ _ H) as (A & B). split; auto.
    + split; intros z Hz; left; apply Sl; auto.
    + destruct (IH _ _ H) as (A & B). split; auto.
Qed.

Definition rebuilt (t : tensor) : bool := is_nonsymm (t_symm t) && is_colsymm (t_col t) && have_empty t.
Lemma canon_In t i : In i (t_bra (canonicalize_slots t) ++ t_ket (canonicalize_slots t)) ->
  In i (t_bra t ++ t_ket t) /\ (rebuilt t = true -> ix_null i = false) \/ (rebuilt t = true /\ i = null_index).
Proof.
  unfold rebuilt. intros H. destruct (is_nonsymm (t_symm t) && is_colsymm (t_col t) && have_empty t) eqn:E.
  2: { rewrite canon_slots_keep in H by auto. left. split; auto. discriminate. }
  apply andb_true_iff in E. destruct E as (E & E3). apply andb_true_iff in E. destruct E as (E1 & E2).
  rewrite (canon_slots_eq t) in H by auto. cbn [t_bra t_ket] in H. set (cs := columns (t_bra t) (t_ket t)) in *.
  assert (A : forall p j, In j (opts fst (filter p cs)) -> In j (t_bra t) /\ ix_null j = false).
  { intros p j Hj. apply In_opts in Hj. destruct Hj as (c & Hc & Ej). apply filter_In in Hc. destruct Hc as (Hc & _).
    destruct (columns_In _ _ _ Hc) as (I1 & _). destruct (columns_slot _ _ _ Hc) as (S1 & _). split; auto.
    specialize (S1 _ Ej). unfold nn in S1. apply negb_true_iff. auto. }
  assert (B : forall p j, In j (opts snd (filter p cs)) -> In j (t_ket t) /\ ix_null j = false).
  { intros p j Hj. apply In_opts in Hj. destruct Hj as (c & Hc & Ej). apply filter_In in Hc. destruct Hc as (Hc & _).
    destruct (columns_In _ _ _ Hc) as (_ & I1). destruct (columns_slot _ _ _ Hc) as (_ & S1). split; auto.
    specialize (S1 _ Ej). unfold nn in S1. apply negb_true_iff. auto. }
  unfold cbra, cket in H. rewrite !in_app_iff in H. rewrite in_app_iff.
  destruct H as [[H|H]|[H|[H|H]]]; [apply A in H|apply A in H|apply B in H| |apply B in H]; try tauto.
  apply in_map_iff in H. destruct H as (c & <- & Hc). auto.
Qed.

Lemma styled_canon (S : space -> Prop) ext t : S null_space -> clean S (t_bra t ++ t_ket t ++ t_aux t) -> null_ok (t_bra t ++ t_ket t) ->
  styled S (canonicalize_slots (map_slots (tag_index ext) t)).
Proof.
  intros N C O. set (t1 := map_slots (tag_index ext) t).
  pose proof (styled_tag S ext t C) as St. fold t1 in St.
  assert (G : forall x, In x (t_bra t1 ++ t_ket t1) -> exists a, ix_tag x = Some a).
  { intros x. unfold t1. cbn. rewrite <- map_app. intros H. apply in_map_iff in H. destruct H as (z & <- & _). destruct z. cbn. eauto. }
  assert (Z : forall x, In x (t_bra t1 ++ t_ket t1) -> ix_null x = false -> shape x <> shape null_index).
  { intros x. unfold t1. cbn. rewrite <- map_app. intros H. apply in_map_iff in H. destruct H as (z & <- & Hz).
    unfold tag_index. rewrite null_tag, shape_tag. intros A B. rewrite (O _ Hz B) in A. discriminate. }
  intros x y X Y. apply canon_In in X. apply canon_In in Y.
  destruct X as [(X & X')|(X & ->)], Y as [(Y & Y')|(Y & ->)].
  - apply (St x y X Y).
  - split; [apply (St x x X X)|]. intros E. exfalso. apply (Z x X); auto.
  - split; [apply over_null; auto|]. intros E. exfalso. apply (Z y Y); auto.
  - split; [apply over_null; auto|]. unfold same_style. tauto.
Qed.

(** the tensor that is sorted *)
Definition oriented (sort : list index -> list index) (ext : list index) (t : tensor) : tensor :=
  match t_bk t with
  | BKSymm => if wants_swap sort (tag_indices ext t) then canonicalize_slots (map_slots (tag_index ext) (swapped t)) else tag_indices ext t
  | _ => tag_indices ext t
  end.

Lemma block_form (S : space -> Prop) sort ext t : one_registry S -> S null_space -> clean S (t_bra t ++ t_ket t ++ t_aux t) -> null_ok (t_bra t ++ t_ket t) ->
  validate_indices t = true ->
  exists u s, block_apply sort ext t = Some (reset_tags u, s) /\ form bcmp bkey bcmp2 bkey2 (oriented sort ext t) u s.
Proof.
  intros R N C O V. assert (U : untagged_slots t = true) by (eapply clean_slots; eauto).
  assert (St : styled S (oriented sort ext t)).
  { unfold oriented. assert (A : styled S (tag_indices ext t)) by (apply styled_tag; auto).
    destruct (t_bk t); auto. destruct (wants_swap sort (tag_indices ext t)); auto. apply styled_canon; auto.
    - intros i. cbn. rewrite !in_app_iff. intros H. apply C. rewrite !in_app_iff. tauto.
    - intros i. cbn. rewrite !in_app_iff. intros H. apply O. rewrite !in_app_iff. tauto. }
  destruct (core_form bcmp bkey TO_bcmp bcmp2 bkey2 TO_bcmp2 _ _ _ (styled_agree S _ R St)) as (u & s & E & F).
  exists u, s. split; auto. unfold block_apply. rewrite U. cbn [negb]. unfold oriented in E.
  destruct (t_bk t).
  - destruct (wants_swap sort (tag_indices ext t)).
    + rewrite swap_tags by auto. rewrite V. rewrite E. auto.
    + rewrite E. auto.
  - rewrite E. auto.
  - rewrite E. auto.
Qed.

Lemma bkey2_pair p q : bkey2 p = bkey2 q -> bkey (fst p) = bkey (fst q) /\ bkey (snd p) = bkey (snd q).
Proof. intros H. injection H as H1 H2 H3 H4. unfold bkey. rewrite H1, H2, H3, H4. auto. Qed.

Lemma block_reset t : block (reset_tags t) = block t.
Proof.
  unfold block. cbn. rewrite !map_map. f_equal; apply map_ext; intros i; apply shape_tag.
Qed.
Lemma bkey_block t u : map bkey (t_bra t) = map bkey (t_bra u) -> map bkey (t_ket t) = map bkey (t_ket u) -> block t = block u.
Proof.
  intros A B. unfold block. assert (F : forall l, map shape l = map fst (map bkey l)) by (intros l; rewrite map_map; auto).
  rewrite !F, A, B. auto.
Qed.

(** tensors that are sorted from related ones have the same block *)
Lemma same_block t u sg t1 u1 s1 s2 : related t u sg -> form bcmp bkey bcmp2 bkey2 t t1 s1 -> form bcmp bkey bcmp2 bkey2 u u1 s2 ->
  block (reset_tags t1) = block (reset_tags u1).
Proof.
  intros R A B. rewrite !block_reset.
  destruct (form_same bcmp bkey TO_bcmp bcmp2 bkey2 TO_bcmp2 bkey2_pair _ _ _ _ _ _ _ R A B) as (_ & Eb & Ek). apply bkey_block; auto.
Qed.

Lemma clean_Forall S l m : clean S (l ++ m) -> Forall (over S) l.
Proof. intros C. apply Forall_forall. intros i Hi. apply C. rewrite in_app_iff. auto. Qed.
Lemma Forall_over_map S f l : (forall i, over S i -> over S (f i)) -> Forall (over S) l -> Forall (over S) (map f l).
Proof. intros H F. induction F; cbn; constructor; auto. Qed.
Lemma shapes_tag ext l : map shape (map (tag_index ext) l) = map shape l.
Proof. rewrite map_map. apply map_ext. intros i. apply shape_tag. Qed.

Lemma tag_over S ext t : clean S (t_bra t ++ t_ket t ++ t_aux t) -> Forall (over S) (t_bra (tag_indices ext t) ++ t_ket (tag_indices ext t)).
Proof.
  intros C. rewrite app_assoc in C. cbn. rewrite <- map_app. apply Forall_over_map; [intros; apply over_tag; auto|].
  eapply clean_Forall; eauto.
Qed.

Lemma wants_related S sort sort' ext t u : one_registry S -> sorts (over S) space_less sort -> sorts (over S) space_less sort' ->
  clean S (t_bra t ++ t_ket t ++ t_aux t) -> clean S (t_bra u ++ t_ket u ++ t_aux u) ->
  Permutation (map shape (t_bra t)) (map shape (t_bra u)) -> Permutation (map shape (t_ket t)) (map shape (t_ket u)) ->
  wants_swap sort (tag_indices ext t) = wants_swap sort' (tag_indices ext u).
Proof.
  intros R So So' Ct Cu Pb Pk. pose proof (tag_over S ext t Ct) as Ft. pose proof (tag_over S ext u Cu) as Fu.
  rewrite (wants_key S), (wants_key S); auto; try (eapply Forall_app; eauto; fail); try (apply Forall_app in Ft; apply Forall_app in Fu; tauto).
  rewrite (wcmp_same S sort sort' (tag_indices ext t) (tag_indices ext u)); auto; cbn; rewrite !shapes_tag; auto.
Qed.

Lemma block_same (S : space -> Prop) sort sort' ext t u sg : one_registry S -> S null_space -> sorts (over S) space_less sort -> sorts (over S) space_less sort' ->
  clean S (t_bra t ++ t_ket t ++ t_aux t) -> null_ok (t_bra t ++ t_ket t) -> validate_indices t = true -> validate_indices u = true ->
  related t u sg ->
  exists t1 s1 u1 s2, block_apply sort ext t = Some (t1, s1) /\ block_apply sort' ext u = Some (u1, s2) /\ block t1 = block u1.
Proof.
  intros R N So So' C O V V' E. pose proof (clean_related _ _ _ _ E C) as C'. pose proof E as (_ & _ & _ & Ebk & _).
  destruct (related_perms _ _ _ E) as (Pb & Pk).
  assert (O' : null_ok (t_bra u ++ t_ket u)).
  { intros i Hi. apply O. rewrite in_app_iff in *. destruct Hi as [Hi|Hi].
    - left. eapply Permutation_in; [apply Permutation_sym; exact Pb|auto].
    - right. eapply Permutation_in; [apply Permutation_sym; exact Pk|auto]. }
  destruct (block_form S sort ext t R N C O V) as (t1 & s1 & D1 & F1). destruct (block_form S sort' ext u R N C' O' V') as (u1 & s2 & D2 & F2).
  exists (reset_tags t1), s1, (reset_tags u1), s2. split; auto. split; auto.
  eapply (same_block _ _ sg); [|exact F1|exact F2]. unfold oriented. rewrite <- Ebk.
  pose proof (related_map (tag_index ext) _ _ _ E) as Em.
  destruct (t_bk t); auto.
  rewrite (wants_related S sort sort' ext t u); auto; try (apply Permutation_map; auto).
  destruct (wants_swap sort' (tag_indices ext u)); auto.
  apply related_canon. apply (related_map (tag_index ext) (swapped t) (swapped u)). apply related_swapped. auto.
Qed.

Lemma full_not_rebuilt t : full t -> t_bra_net t = net_rank (t_bra t) -> t_ket_net t = net_rank (t_ket t) -> canonicalize_slots t = t.
Proof.
  intros F B K. apply canon_slots_keep. assert (G : forall l, (forall i, In i l -> slot i <> None) -> net_rank l = length l).
  { intros l H. apply full_net. intros x Hx. specialize (H x Hx). unfold slot, nn in *. destruct (ix_null x); cbn in *; congruence. }
  unfold have_empty. rewrite B, K, (G (t_bra t)), (G (t_ket t)), !Nat.eqb_refl; [rewrite andb_false_r; auto| |];
    intros i Hi; apply F; rewrite in_app_iff; auto.
Qed.

Lemma related_refl t : related t t false.
Proof.
  unfold related. do 7 (split; [auto|]). destruct (t_col t); auto. destruct (t_symm t); auto.
  - exists 0, 0. repeat split; constructor.
  - set (r := Nat.min (length (t_bra t)) (length (t_ket t))).
    exists (firstn r (t_bra t)), (firstn r (t_bra t)), (skipn r (t_bra t)), (skipn r (t_bra t)),
           (firstn r (t_ket t)), (firstn r (t_ket t)), (skipn r (t_ket t)), (skipn r (t_ket t)).
    rewrite !firstn_skipn. do 4 (split; [auto|]). split; [apply firstn_min_len|]. split; [apply firstn_min_len|].
    pose proof (skipn_min (t_bra t) (t_ket t)) as X. cbv zeta in X. fold r in X. split; [exact X|]. split; [exact X|]. repeat split; auto.
Qed.

(** a tensor and its mirror image *)
Lemma block_mirror (S : space -> Prop) sort sort' ext t : one_registry S -> S null_space -> sorts (over S) space_less sort -> sorts (over S) space_less sort' ->
  clean S (t_bra t ++ t_ket t ++ t_aux t) -> null_ok (t_bra t ++ t_ket t) -> wf t -> full t -> t_bk t = BKSymm ->
  ~ Permutation (map shape (t_bra t)) (map shape (t_ket t)) ->
  exists u t1 s1 u1 s2, swap_bra_ket t = Some u /\ t_bra u = t_ket t /\ t_ket u = t_bra t /\
    block_apply sort ext t = Some (t1, s1) /\ block_apply sort' ext u = Some (u1, s2) /\ block t1 = block u1.
Proof.
  intros R N So So' C O W F K NP. pose proof W as (V & Nb & Nk & _).
  assert (Fs : full (swapped t)) by (intros i; cbn; rewrite in_app_iff; intros H; apply F; rewrite in_app_iff; tauto).
  pose proof (full_not_rebuilt (swapped t) Fs Nk Nb) as CS.
  exists (swapped t). 
  assert (C' : clean S (t_bra (swapped t) ++ t_ket (swapped t) ++ t_aux (swapped t))).
  { intros i. cbn. rewrite !in_app_iff. intros H. apply C. rewrite !in_app_iff. tauto. }
  assert (O' : null_ok (t_bra (swapped t) ++ t_ket (swapped t))).
  { intros i. cbn. rewrite !in_app_iff. intros H. apply O. rewrite !in_app_iff. tauto. }
  destruct (block_form S sort ext t R N C O V) as (t1 & s1 & D1 & F1).
  destruct (block_form S sort' ext (swapped t) R N C' O') as (u1 & s2 & D2 & F2); [rewrite validate_swapped; auto|].
  exists (reset_tags t1), s1, (reset_tags u1), s2.
  split. { unfold swap_bra_ket. fold (swapped t). rewrite validate_swapped, V, CS. auto. }
  do 4 (split; [auto|]). eapply (same_block _ _ false); [|exact F1|exact F2].
  unfold oriented. cbn [swapped t_bk]. rewrite K.
  pose proof (tag_over S ext t C) as Ft. pose proof (tag_over S ext (swapped t) C') as Fu.
  rewrite (wants_key S sort), (wants_key S sort' (tag_indices ext (swapped t))); auto; try (apply Forall_app in Ft; apply Forall_app in Fu; tauto).
  change (tag_indices ext (swapped t)) with (swapped (tag_indices ext t)). rewrite wcmp_swap.
  rewrite (wcmp_same S sort' sort (tag_indices ext t) (tag_indices ext t)); auto.
  assert (Fl : forall x, full x -> full (map_slots (tag_index ext) x)).
  { intros x Fx i. cbn. rewrite <- map_app. intros H. apply in_map_iff in H. destruct H as (z & <- & Hz). specialize (Fx z Hz).
    unfold slot in *. unfold tag_index. rewrite null_tag. destruct (ix_null z); [auto|discriminate]. }
  assert (NR : forall l, net_rank (map (tag_index ext) l) = net_rank l).
  { intros l. unfold net_rank. induction l as [|x l IH]; auto. cbn [map filter]. unfold tag_index at 1. rewrite null_tag.
    destruct (negb (ix_null x)); cbn [length]; rewrite IH; auto. }
  destruct (wcmp sort (tag_indices ext t)) eqn:E; cbn.
  - exfalso. apply NP. apply (wcmp_eq S sort) in E; auto. cbn in E. rewrite !shapes_tag in E. auto.
  - rewrite (full_not_rebuilt (map_slots (tag_index ext) (swapped t))); [apply related_refl|apply Fl; auto| |]; cbn -[net_rank]; rewrite NR; auto.
  - rewrite (full_not_rebuilt (map_slots (tag_index ext) (swapped (swapped t)))).
    + rewrite swapped_swapped. apply related_refl.
    + rewrite swapped_swapped. apply Fl. auto.
    + cbn -[net_rank]. rewrite NR. auto.
    + cbn -[net_rank]. rewrite NR. auto.
Qed.

(** the bra of the result never compares less than its ket *)
Lemma block_oriented (S : space -> Prop) sort sort' ext t t1 s : one_registry S -> sorts (over S) space_less sort -> sorts (over S) space_less sort' ->
  clean S (t_bra t ++ t_ket t ++ t_aux t) -> wf t -> full t -> t_bk t = BKSymm ->
  block_apply sort ext t = Some (t1, s) -> wants_swap sort' t1 = false.
Proof.
  intros R So So' C (V & Nb & Nk & _) F K H. 
  pose proof (tag_over S ext t C) as Ft.
  unfold block_apply in H. rewrite (clean_slots S t C), K in H. cbn [negb] in H.
  assert (A : forall t3, option_map (fun r : tensor * bool => (reset_tags (fst r), snd r)) (canon_core block_less block_less_pair t3) = Some (t1, s) ->
     Permutation (map shape (t_bra t3)) (map shape (t_bra t1)) /\ Permutation (map shape (t_ket t3)) (map shape (t_ket t1)) /\
     (Forall (over S) (t_bra t3 ++ t_ket t3) -> Forall (over S) (t_bra t1 ++ t_ket t1))).
  { intros t3 E. destruct (canon_core block_less block_less_pair t3) as [(u, s')|] eqn:X; [|discriminate].
    injection E as <- <-. apply core_related in X. apply related_perms in X. destruct X as (Pb & Pk). cbn.
    rewrite !map_map. rewrite !(map_ext (fun i => shape (untag i)) shape) by (intros; apply shape_tag).
    split; [apply Permutation_map; auto|]. split; [apply Permutation_map; auto|].
    intros FF. rewrite <- map_app. apply Forall_over_map; [intros; apply over_tag; auto|].
    apply Forall_app in FF. apply Forall_app. destruct FF. split; eapply Permutation_Forall; eauto. }
  assert (G : forall t3, (match wcmp sort t3 with Lt => true | _ => false end = false) -> Forall (over S) (t_bra t3 ++ t_ket t3) ->
     option_map (fun r : tensor * bool => (reset_tags (fst r), snd r)) (canon_core block_less block_less_pair t3) = Some (t1, s) -> wants_swap sort' t1 = false).
  { intros t3 Wn F3 E. destruct (A t3 E) as (Pb & Pk & F1). specialize (F1 F3).
    rewrite (wants_key S sort'); auto; try (apply Forall_app in F1; tauto).
    rewrite <- (wcmp_same S sort sort' t3 t1); auto. }
  rewrite (wants_key S sort) in H; auto; try (apply Forall_app in Ft; tauto).
  destruct (wcmp sort (tag_indices ext t)) eqn:E.
  - apply (G (tag_indices ext t)); auto. rewrite E. auto.
  - rewrite swap_tags, V in H by (eapply clean_slots; eauto).
    assert (Fs : canonicalize_slots (map_slots (tag_index ext) (swapped t)) = swapped (tag_indices ext t)).
    { apply full_not_rebuilt.
      - intros i. cbn. rewrite <- map_app. intros Hi. apply in_map_iff in Hi. destruct Hi as (z & <- & Hz).
        assert (Fz : slot z <> None) by (apply F; rewrite in_app_iff in *; tauto). unfold slot in *. unfold tag_index. rewrite null_tag.
        destruct (ix_null z); [auto|discriminate].
      - cbn. rewrite Nk. unfold net_rank. clear. induction (t_ket t) as [|x l IH]; cbn [map filter]; auto.
        unfold tag_index at 1. rewrite null_tag. destruct (negb (ix_null x)); cbn [length]; rewrite IH; auto.
      - cbn. rewrite Nb. unfold net_rank. clear. induction (t_bra t) as [|x l IH]; cbn [map filter]; auto.
        unfold tag_index at 1. rewrite null_tag. destruct (negb (ix_null x)); cbn [length]; rewrite IH; auto. }
    rewrite Fs in H. apply (G (swapped (tag_indices ext t))); auto.
    + rewrite wcmp_swap, E. auto.
    + cbn. cbn in Ft. apply Forall_app in Ft. apply Forall_app. tauto.
  - apply (G (tag_indices ext t)); auto. rewrite E. auto.
Qed.

(* ---------- the order of tensors ---------- *)

Definition okey (t : tensor) := (t_label t, (length (t_bra t), (length (t_ket t), (length (t_aux t), (t_bra t, (t_ket t, t_aux t)))))).
Definition ocmp7 := pcmp (lcmp Z.compare) (pcmp Nat.compare (pcmp Nat.compare (pcmp Nat.compare (pcmp (lcmp tcmp) (pcmp (lcmp tcmp) (lcmp tcmp)))))).
Lemma TO_ocmp7 : TO ocmp7.
Proof. unfold ocmp7. repeat apply TO_pair; try apply TO_nat; apply TO_list; try apply TO_tcmp; apply TO_Z. Qed.

Lemma str_eqb_spec l : forall m, str_eqb l m = true <-> l = m.
Proof.
  induction l as [|x l IH]; intros [|y m]; cbn; split; try discriminate; auto.
  - intros H. apply andb_true_iff in H. destruct H as (A & B). apply Z.eqb_eq in A. apply IH in B. congruence.
  - intros [= -> ->]. rewrite Z.eqb_refl. cbn. apply IH. auto.
Qed.

Lemma tensor_order_key S hash t u : one_registry S ->
  clean S (t_bra t ++ t_ket t ++ t_aux t) -> clean S (t_bra u ++ t_ket u ++ t_aux u) ->
  (hash (t_bra t) = hash (t_bra u) -> t_bra t = t_bra u) ->
  tensor_ltb hash t u = key_less ocmp7 okey t u.
Proof.
  intros R C D Hh. apply clean_app in C, D. destruct C as (Cb & C), D as (Db & D). apply clean_app in C, D. destruct C as (Ck & Ca), D as (Dk & Da).
  assert (L : forall l m, clean S l -> clean S m -> lex_less ix_ltb l m = match lcmp tcmp l m with Lt => true | _ => false end).
  { intros l m X Y. apply lex_less_lcmp; [apply TO_tcmp|]. intros x y Hx Hy. destruct (X x Hx), (Y y Hy). unfold ix_ltb.
    rewrite !(ix_cmp_untagged S); auto. }
  assert (Q : forall n m, negb (n =? m) = match Nat.compare n m with Eq => false | _ => true end /\ (n <? m) = match Nat.compare n m with Lt => true | _ => false end).
  { intros n m. destruct (Nat.compare_spec n m); subst.
    - rewrite Nat.eqb_refl, Nat.ltb_irrefl. auto.
    - rewrite (proj2 (Nat.eqb_neq n m)) by lia. rewrite (proj2 (Nat.ltb_lt n m)) by lia. auto.
    - rewrite (proj2 (Nat.eqb_neq n m)) by lia. rewrite (proj2 (Nat.ltb_ge n m)) by lia. auto. }
  unfold tensor_ltb, key_less, ocmp7, okey, pcmp. cbn [fst snd].
  destruct (str_eqb (t_label t) (t_label u)) eqn:E1; cbn [negb].
  2: { rewrite (lex_less_lcmp Z.compare).
       - destruct (lcmp Z.compare (t_label t) (t_label u)) eqn:E; cbn; auto. apply (TO_list _ TO_Z) in E. apply str_eqb_spec in E. congruence.
       - apply TO_Z.
       - intros. unfold Z.ltb. auto. }
  apply str_eqb_spec in E1. rewrite E1, (TO_refl _ _ (TO_list _ TO_Z)). cbn [cthen].
  rewrite (proj1 (Q (length (t_bra t)) (length (t_bra u)))), (proj2 (Q (length (t_bra t)) (length (t_bra u)))).
  destruct (Nat.compare (length (t_bra t)) (length (t_bra u))) eqn:E2; cbn [cthen]; auto.
  rewrite (proj1 (Q (length (t_ket t)) (length (t_ket u)))), (proj2 (Q (length (t_ket t)) (length (t_ket u)))).
  destruct (Nat.compare (length (t_ket t)) (length (t_ket u))) eqn:E3; cbn [cthen]; auto.
  rewrite (proj1 (Q (length (t_aux t)) (length (t_aux u)))), (proj2 (Q (length (t_aux t)) (length (t_aux u)))).
  destruct (Nat.compare (length (t_aux t)) (length (t_aux u))) eqn:E4; cbn [cthen]; auto.
  destruct (hash (t_bra t) =? hash (t_bra u))%Z eqn:E5; cbn [negb].
  2: { rewrite L by auto. destruct (lcmp tcmp (t_bra t) (t_bra u)) eqn:E; cbn [cthen]; auto.
       apply (TO_list _ TO_tcmp) in E. rewrite E, Z.eqb_refl in E5. discriminate. }
  apply Z.eqb_eq in E5. apply Hh in E5. rewrite E5, (TO_refl _ _ (TO_list _ TO_tcmp)). cbn [cthen].
  assert (LE : list_eqb (t_ket t) (t_ket u) = true <-> t_ket t = t_ket u).
  { rewrite list_eqb_spec. rewrite !identity_map; [tauto|apply Forall_forall; intros i Hi; apply (Dk i Hi)|apply Forall_forall; intros i Hi; apply (Ck i Hi)]. }
  destruct (list_eqb (t_ket t) (t_ket u)) eqn:E6; cbn [negb].
  - rewrite (proj1 LE eq_refl), (TO_refl _ _ (TO_list _ TO_tcmp)). cbn [cthen]. apply L; auto.
  - rewrite L by auto. destruct (lcmp tcmp (t_ket t) (t_ket u)) eqn:E; cbn [cthen]; auto. apply (TO_list _ TO_tcmp) in E. apply LE in E. discriminate.
Qed.
