(** Canonicalization always succeeds: the edges, the replacements and the permutation of slots. *)
From Coq Require Import ZArith List Arith Bool Permutation Sorted Lia.
From Verif Require Import Alg_Model Alg_Spec Alg_Proofs1 Alg_Proofs2 Tsr_Model Tsr_Spec Tsr_Proofs1 Tsr_Proofs2 Tsr_Proofs3 Tsr_Proofs4 Tsr_Proofs5 Tsr_Proofs6 Tsr_Proofs7.
From Verif Require Import Net_Model Net_Spec Net_Proofs1 Net_Proofs2 Net_Proofs3 Net_Proofs4 Net_Proofs5 Net_Proofs6.
Import ListNotations.

Lemma In_suffix {A} n : forall (l : list A) x, In x (skipn n l) -> In x l.
Proof. induction n as [|n IH]; intros [|y l] x; cbn; auto. Qed.
Lemma In_prefix {A} n : forall (l : list A) x, In x (firstn n l) -> In x l.
Proof. induction n as [|n IH]; intros [|y l] x; cbn; auto; try tauto. intros [H|H]; auto. Qed.

Definition comparable (v w : vref) : Prop := vref_ltb w v = true \/ vref_ltb v w = true.
Lemma comparable_sym v w : comparable v w -> comparable w v.
Proof. unfold comparable. tauto. Qed.
Lemma set_emplace_total v l : (forall w, In w l -> comparable v w) -> exists l', set_emplace v l = Some l'.
Proof.
  induction l as [|w l IH]; intros H; cbn; [eauto|]. destruct (vref_ltb w v) eqn:E.
  - destruct IH as (l' & ->); [intros; apply H; right; auto|]. cbn. eauto.
  - destruct (H w) as [X|X]; [left; auto|congruence|rewrite X; eauto].
Qed.
Lemma pairwise {A} (R : A -> A -> Prop) l : NoDup l -> (forall x y, In x l -> In y l -> x <> y -> R x y) -> ForallOrdPairs R l.
Proof.
  induction 1 as [|x l X N IH]; intros H; constructor.
  - apply Forall_forall. intros y Y. apply H; [left; auto|right; auto|]. intros ->. contradiction.
  - apply IH. intros; apply H; try right; auto.
Qed.
Lemma pairs_split {A} (R : A -> A -> Prop) l x m : ForallOrdPairs R (l ++ x :: m) -> forall y, In y l -> R y x.
Proof.
  induction l as [|z l IH]; cbn; [tauto|]. intros H y Y. inversion H as [|z0 l0 F G]; subst. destruct Y as [->|Y].
  - rewrite Forall_forall in F. apply F. rewrite in_app_iff. right. left. auto.
  - auto.
Qed.

Lemma map_opt_total {A B} (f : A -> option B) l : (forall x, In x l -> exists y, f x = Some y) -> exists m, map_opt f l = Some m.
Proof.
  induction l as [|x l IH]; intros H; cbn; [eauto|]. destruct (H x) as (y & ->); [left; auto|].
  destruct IH as (m & ->); [intros; apply H; right; auto|]. eauto.
Qed.
Lemma filter_fewer {A} (f g : A -> bool) l x : (forall y, g y = true -> f y = true) -> In x l -> f x = true -> g x = false ->
  length (filter g l) < length (filter f l).
Proof.
  intros Sub. assert (Le : forall m, length (filter g m) <= length (filter f m)).
  { induction m as [|y m IH]; cbn; auto. specialize (Sub y). destruct (g y), (f y); cbn; try lia; exfalso; discriminate (Sub eq_refl). }
  induction l as [|y l IH]; [intros []|]. intros [->|I] F G; cbn.
  - rewrite F, G. cbn. specialize (Le l). lia.
  - specialize (IH I F G). specialize (Sub y). destruct (g y), (f y); cbn; try lia; exfalso; discriminate (Sub eq_refl).
Qed.

Lemma nat_less_weak {A} (k : A -> nat) : strict_weak (fun a b => k a <? k b).
Proof.
  split; [|split].
  - intros x. apply Nat.ltb_irrefl.
  - intros x y z. rewrite !Nat.ltb_lt. lia.
  - intros x y z. rewrite !Nat.ltb_ge. lia.
Qed.
Lemma sort_ordinals_total keys : exists perm s, sort_ordinals keys = Some (perm, s).
Proof.
  unfold sort_ordinals. destruct (bubble_ok _ (nat_less_weak (fun a => nth a keys 0)) (seq 0 (length keys))) as (r & -> & _). cbn. eauto.
Qed.
Lemma sort_via_total {A} (d : A) (k : nat -> nat) l : exists r ords, sort_via_ordinals d (fun a b => k a <? k b) l = Some (r, ords).
Proof.
  unfold sort_via_ordinals. destruct (bubble_ok _ (nat_less_weak k) (seq 0 (length l))) as (r & -> & P & _).
  rewrite reorder_loop_spec; [eauto|apply perm_of_seq; symmetry; auto|lia|lia].
Qed.

Lemma permute_columns_total perm bra ket : Permutation (seq 0 (Nat.max (length bra) (length ket))) perm ->
  Forall (fun i => ix_null i = false) bra -> Forall (fun i => ix_null i = false) ket ->
  exists b' k', permute_columns perm bra ket = Some (b', k').
Proof.
  intros P Fb Fk. destruct (count_columns_full bra ket Fb Fk) as (C1 & C2). unfold permute_columns. rewrite C1, C2. cbn [Nat.add].
  set (n := Nat.min (length bra) (length ket)). set (mx := Nat.max (length bra) (length ket)) in *.
  set (nb := if length ket <? length bra then length bra - length ket else 0).
  assert (G : (length ket <? length bra) && negb (length ket =? n) = false).
  { destruct (Nat.ltb_spec (length ket) (length bra)); auto. cbn. apply negb_false_iff, Nat.eqb_eq. unfold n. lia. }
  rewrite G. destruct (stable_split (fun k => k <? n) (fun a b => column_type n nb a <? column_type n nb b) perm) as (N & M & E & PN & PM).
  { intros x y. unfold column_type. split; intros A B; rewrite A, B; [|destruct (_ <? _); auto].
    destruct (y <? n + nb); auto. }
  rewrite E. assert (Lp : length perm = mx) by (rewrite <- (Permutation_length P); apply seq_length).
  assert (P1 : Permutation (filter (fun k => k <? n) perm) (seq 0 n)).
  { rewrite <- (Permutation_filter' (fun k => k <? n) _ _ P). replace mx with (n + (mx - n)) by (unfold n, mx; lia).
    rewrite seq_split, filter_app, filter_all, filter_nothing, app_nil_r; auto.
    - apply Forall_forall. intros x X. apply in_seq in X. apply Nat.ltb_ge. lia.
    - apply Forall_forall. intros x X. apply in_seq in X. apply Nat.ltb_lt. lia. }
  assert (LN : length N = n) by (rewrite <- (Permutation_length PN), (Permutation_length P1); apply seq_length).
  assert (BN : forall k, In k N -> k < n). { intros k K. apply (Permutation_in _ (Permutation_sym PN)), filter_In in K. apply Nat.ltb_lt. tauto. }
  assert (PA : Permutation (seq 0 mx) (N ++ M)) by (rewrite P, <- E; apply stable_perm).
  assert (BA : forall k, In k (N ++ M) -> k < mx). { intros k K. apply (Permutation_in _ (Permutation_sym PA)), in_seq in K. lia. }
  assert (H : forall l : list index, length l = n \/ length l = mx -> forallb (fun k => k <? length l) (firstn (length l) (N ++ M)) = true).
  { intros l L. apply forallb_forall. intros k K. apply Nat.ltb_lt. destruct (Nat.eq_dec (length l) mx) as [D|D]; [rewrite D; apply BA; eapply In_prefix; eauto|].
    assert (Ln : length l = n) by tauto. rewrite Ln in K |- *. rewrite firstn_app, LN, Nat.sub_diag, firstn_O, app_nil_r in K. apply BN. eapply In_prefix; eauto. }
  rewrite Lp, Nat.eqb_refl, !H; [cbn [andb]; eauto| |]; unfold n, mx; lia.
Qed.

Section Total.
  Variable S : space -> Prop.
  Hypothesis R : one_registry S.
  Notation plain := (plain S).
  Notation proper := (proper S).

  Lemma idx_insert_total i v es : plain i -> Forall plain (map e_idx es) ->
    (forall e, In e es -> e_idx e = i -> forall w, In w (e_vs e) -> comparable v w) -> exists es', idx_insert i v es = Some es'.
  Proof.
    intros P. induction es as [|e es IH]; intros F H; cbn; [eauto|]. inversion F as [|i0 l0 Pe Fe]; subst.
    destruct (full_label_less (e_idx e) i).
    - destruct IH as (es' & ->); auto; [intros; eapply H; eauto; right; auto|]. cbn. eauto.
    - destruct (ix_eqb (e_idx e) i) eqn:E; cbn [negb]; [|eauto]. apply (plain_eqb S) in E; auto.
      destruct (set_emplace_total v (e_vs e)) as (l' & ->); [|cbn; eauto]. apply H; auto. left; auto.
  Qed.
  Lemma insert_all_total qs : forall ps es, Forall plain (map fst (ps ++ qs)) -> edges_of ps es ->
    ForallOrdPairs (fun p q => fst p = fst q -> comparable (snd p) (snd q)) (ps ++ qs) -> exists es', insert_all qs es = Some es'.
  Proof.
    induction qs as [|(i, v) qs IH]; intros ps es F E C; cbn; [eauto|].
    assert (Pi : plain i). { rewrite map_app, Forall_app in F. destruct F as (_ & F). cbn in F. inversion F; auto. }
    assert (Fp : Forall plain (map fst ps)) by (rewrite map_app, Forall_app in F; tauto).
    destruct (idx_insert_total i v es Pi) as (es' & X).
    - rewrite Forall_forall in *. intros j J. apply Fp. destruct E as (_ & E & _). apply E. auto.
    - intros e Ie <- w W. destruct E as (_ & _ & E). apply (Permutation_in _ (E e Ie)) in W. unfold at_index in W.
      apply in_map_iff in W. destruct W as ((j, w') & Ew & W). cbn in Ew. subst w'. apply filter_In in W. destruct W as (W & D). cbn [fst] in D.
      destruct (index_eq_dec j (e_idx e)) as [->|]; [|discriminate].
      apply comparable_sym. apply (pairs_split _ _ _ _ C _ W eq_refl).
    - rewrite X. replace (ps ++ (i, v) :: qs) with ((ps ++ [(i, v)]) ++ qs) in * by (rewrite <- app_assoc; auto).
      apply (IH (ps ++ [(i, v)])); auto. apply (insert_all_spec S R [(i, v)] ps es es'); auto; [|cbn; rewrite X; auto].
      rewrite map_app, Forall_app in F. tauto.
  Qed.

  (** No index twice in a bundle. *)
  Definition good (t : tensor) : Prop := proper t /\ NoDup (t_bra t) /\ NoDup (t_ket t) /\ NoDup (t_aux t).

  Lemma good_bundle t o : good t -> NoDup (bundle_of t o).
  Proof. intros (_ & A & B & C). destruct o; auto. Qed.
  Lemma proper_slots t : proper t -> Forall plain (slots t).
  Proof. intros (A & _). auto. Qed.

  Lemma plain_identity l : Forall plain l -> map identity l = l.
  Proof. induction 1 as [|i l P F IH]; cbn; auto. rewrite IH, identity_untagged; auto. apply (plain_untagged S); auto. Qed.
  Lemma plain_nn l : Forall plain l -> filter nn l = l.
  Proof. intros F. apply filter_all. eapply Forall_impl; [|exact F]. intros i (_ & _ & _ & H). unfold nn. rewrite H. auto. Qed.
  Lemma plain_dup l : Forall plain l -> has_duplicates l = false <-> NoDup l.
  Proof. intros F. rewrite has_dup_spec, plain_nn, plain_identity; auto. tauto. Qed.
  Lemma no_null l : Forall plain l -> existsb ix_null l = false.
  Proof. intros F. apply existsb_false. rewrite Forall_forall in F. intros x X. apply (F x X). Qed.

  Lemma good_valid t : good t -> validate_indices t = true.
  Proof.
    intros ((F & _ & _) & A & B & C). unfold slots in F. rewrite !Forall_app in F. destruct F as (F1 & F2 & F3).
    unfold validate_indices. rewrite (no_null (t_aux t)), (proj2 (plain_dup _ F1)), (proj2 (plain_dup _ F2)), (proj2 (plain_dup _ F3)) by auto.
    cbn [negb andb]. rewrite !andb_true_r. destruct (negb (is_nonsymm (t_symm t))).
    - rewrite !no_null; auto.
    - apply andb_true_iff. split.
      + clear A B. revert F2. generalize (t_ket t) as k. induction F1 as [|x b Px Fb IH]; intros [|y k] Fk; cbn; auto.
        destruct Px as (_ & _ & _ & ->). inversion Fk; subst. rewrite IH; auto.
      + cbv zeta. apply negb_true_iff, no_null. apply Forall_forall. intros x X. apply In_suffix in X.
        rewrite Forall_forall in F1, F2. destruct (_ =? _); [destruct X|]. destruct (_ <? _); auto.
  Qed.
  Lemma made_good t : made t -> Forall plain (slots t) -> good t.
  Proof.
    intros M F. split; [apply made_proper; auto|]. destruct (made_ready t M) as ((V & _) & _).
    unfold slots in F. rewrite !Forall_app in F. destruct F as (F1 & F2 & F3).
    unfold validate_indices in V. rewrite !andb_true_iff, !negb_true_iff in V. destruct V as ((((_ & _) & V1) & V2) & V3).
    rewrite <- !plain_dup; auto.
  Qed.

  Lemma bundle_refs_nodup o n s l : forall k, NoDup (bundle_refs o n s k l) /\ forall p, In p (bundle_refs o n s k l) -> vr_origin (snd p) = o /\ vr_tensor (snd p) = n /\ k <= vr_slot (snd p).
  Proof.
    induction l as [|i l IH]; intros k; cbn.
    - split; [constructor|tauto].
    - destruct (IH (Datatypes.S k)) as (A & B). split.
      + constructor; auto. intros X. apply B in X. cbn in X. lia.
      + intros p [<-|X]; [cbn; auto|]. apply B in X. destruct X as (X1 & X2 & X3). split; [auto|split; [auto|lia]].
  Qed.
  Lemma refs_nodup ts : forall n, NoDup (refs n ts) /\ forall p, In p (refs n ts) -> n <= vr_tensor (snd p).
  Proof.
    induction ts as [|t ts IH]; intros n; cbn; [split; [constructor|tauto]|]. destruct (IH (Datatypes.S n)) as (A & B).
    destruct (bundle_refs_nodup OBra n (t_symm t) (t_bra t) 0) as (A1 & B1), (bundle_refs_nodup OKet n (t_symm t) (t_ket t) 0) as (A2 & B2),
      (bundle_refs_nodup OAux n Nonsymm (t_aux t) 0) as (A3 & B3).
    assert (T : forall p, In p (tensor_refs n t) -> vr_tensor (snd p) = n).
    { intros p. unfold tensor_refs. rewrite !in_app_iff. intros [X|[X|X]]; [apply B1 in X|apply B2 in X|apply B3 in X]; tauto. }
    split.
    - apply nodup_app; auto.
      + unfold tensor_refs. apply nodup_app; auto; [apply nodup_app; auto|].
        * intros p X Y. apply B2 in X. apply B3 in Y. destruct X as (X & _), Y as (Y & _). congruence.
        * intros p X Y. apply B1 in X. rewrite in_app_iff in Y. destruct X as (X & _), Y as [Y|Y]; [apply B2 in Y|apply B3 in Y]; destruct Y as (Y & _); congruence.
      + intros p X Y. apply T in X. apply B in Y. lia.
    - intros p. rewrite in_app_iff. intros [X|X]; [apply T in X; lia|apply B in X; lia].
  Qed.

  Lemma refs_comparable ts : Forall good ts -> ForallOrdPairs (fun p q => fst p = fst q -> comparable (snd p) (snd q)) (refs 0 ts).
  Proof.
    intros G. apply pairwise.
    - apply refs_nodup.
    - intros (i, v) (j, w) X Y N. cbn [fst snd]. intros <-. apply refs_in in X, Y.
      destruct X as (n & o & k & L & -> & X), Y as (n' & o' & k' & L' & -> & Y). unfold comparable, vref_ltb. cbn [vr_tensor vr_origin vr_slot vr_symm Nat.add].
      destruct (Nat.eqb_spec n n') as [->|D].
      2: { rewrite (proj2 (Nat.eqb_neq n' n)) by auto. cbn [negb]. rewrite !Nat.ltb_lt. lia. }
      rewrite Nat.eqb_refl. cbn [negb]. destruct (Nat.eqb_spec (origin_nat o) (origin_nat o')) as [E|D].
      2: { rewrite (proj2 (Nat.eqb_neq (origin_nat o') (origin_nat o))) by auto. cbn [negb]. rewrite !Nat.ltb_lt. lia. }
      exfalso. apply N. assert (o = o') by (destruct o, o'; auto; discriminate). subst o'.
      assert (k = k'); [|subst; auto]. assert (Gt : good (ten ts n')).
      { rewrite Forall_forall in G. apply G. apply nth_In. auto. }
      apply (NoDup_nth_error (bundle_of (ten ts n') o)); [apply good_bundle; auto| |congruence].
      apply nth_error_Some. congruence.
  Qed.
  Lemma good_plain ts : Forall good ts -> Forall plain (indices ts).
  Proof. intros G. apply proper_indices. eapply Forall_impl; [|exact G]. intros t (P & _). auto. Qed.
  Lemma init_edges_total ts : Forall good ts -> exists info, init_edges ts = Some info.
  Proof.
    intros G. pose proof (good_plain ts G) as F. unfold init_edges. rewrite (insert_tensors_all S) by auto.
    destruct (insert_all_total (refs 0 ts) [] []) as (es & X); [cbn; rewrite refs_fst; auto|apply edges_of_nil|apply refs_comparable; auto|].
    rewrite X. apply (insert_all_spec S R (refs 0 ts) []) in X; [|cbn; rewrite refs_fst; auto|apply edges_of_nil]. cbn in X.
    destruct X as (_ & B & _). rewrite refs_fst in B.
    assert (Fe : Forall plain (map e_idx es)). { rewrite Forall_forall in *. intros j J. apply B in J. auto. }
    assert (NP : flat_map (fun e => ix_protos (e_idx e)) es = []).
    { clear - Fe. induction es as [|e es IH]; cbn in *; auto. inversion Fe; subst. destruct H1 as (_ & _ & -> & _). auto. }
    rewrite NP. cbn [existsb]. eauto.
  Qed.

  Definition above (s : space) (c : nat) (x : index) : bool :=
    space_eqb (ix_space x) s && match ix_ord x with Some n => c <? n | None => false end.
  Lemma factory_total named f : forall cs i, Forall plain named -> plain i ->
    length (filter (above (ix_space i) (counter cs (ix_space i))) named) < f -> exists r cs', factory_make f named cs i = Some (r, cs').
  Proof.
    induction f as [|f IH]; intros cs i F P L; [lia|]. cbn [factory_make].
    set (n := Datatypes.S (counter cs (ix_space i))). set (x := Idx (ix_space i) (Some n) None (ix_protos i)).
    assert (Px : plain x).
    { unfold x. destruct P as (P1 & P2 & P3 & P4). rewrite P3. split; [auto|]. split; [auto|]. split; [auto|].
      unfold ix_null, null_index. rewrite ix_eqb_unfold. cbn [opt_eqb]. rewrite andb_false_r. reflexivity. }
    destruct (named_in named x) eqn:N; [|eauto]. apply (named_in_spec S R) in N; auto. apply IH; auto.
    assert (Si : S (ix_space i)) by apply P. rewrite (counter_cons S R) by auto. rewrite (proj2 (space_eqb_spec _ _) eq_refl).
    eapply Nat.lt_le_trans; [|apply Nat.lt_succ_r; exact L].
    apply (filter_fewer _ _ _ x); auto.
    - intros y. unfold above. destruct (space_eqb _ _); auto. cbn [andb]. destruct (ix_ord y); auto. rewrite !Nat.ltb_lt. unfold n. lia.
    - unfold above, x. cbn [ix_space ix_ord]. rewrite (proj2 (space_eqb_spec _ _) eq_refl). cbn [andb]. apply Nat.ltb_lt. unfold n. lia.
    - unfold above, x. cbn [ix_space ix_ord]. rewrite Nat.ltb_irrefl. apply andb_false_r.
  Qed.
  Lemma make_total named is : forall cs, Forall plain named -> Forall plain is -> exists m, make_replacements named cs is = Some m.
  Proof.
    induction is as [|i is IH]; intros cs Fn Fi; cbn -[factory_make]; [eauto|]. inversion Fi; subst.
    destruct (factory_total named (Datatypes.S (length named)) cs i) as (r & cs' & ->); auto.
    { apply Nat.lt_succ_r. clear. generalize (above (ix_space i) (counter cs (ix_space i))). intros g. induction named as [|x l IH]; cbn; auto. destruct (g x); cbn; lia. }
    destruct (IH cs' Fn H2) as (m & ->). cbn. eauto.
  Qed.

  (** Steps keep what is needed. *)
  Lemma nodup_perm {A} (l m : list A) : Permutation l m -> NoDup l -> NoDup m.
  Proof. apply Permutation_NoDup. Qed.
  Lemma related_good t u s : related t u s -> good t -> good u.
  Proof.
    intros Rl (P & A & B & C). destruct (related_slots_perm t u s Rl) as (P1 & P2 & E). split; [apply (related_proper S t u s); auto|].
    rewrite <- E. split; [|split]; auto; eapply Permutation_NoDup; eauto.
  Qed.
  Lemma swapped_good t : good t -> good (swapped t).
  Proof. intros (P & A & B & C). split; [apply swapped_proper; auto|]. cbn. auto. Qed.
  Lemma swap_total t : good t -> swap_bra_ket t = Some (swapped t).
  Proof.
    intros G. unfold swap_bra_ket. fold (swapped t). rewrite validate_swapped, good_valid by auto.
    rewrite proper_keep by apply (proj1 (swapped_good t G)). auto.
  Qed.
  Lemma renamed_good f t : (forall i j, In i (slots t) -> In j (slots t) -> f i = f j -> i = j) -> (forall i, In i (slots t) -> plain (f i)) ->
    good t -> good (renamed f t).
  Proof.
    intros Inj F (P & A & B & C). split; [apply renamed_proper; auto|]. cbn.
    assert (G : forall l, incl l (slots t) -> NoDup l -> NoDup (map f l)).
    { intros l Sub ND. induction ND as [|x l X ND IH]; cbn; constructor.
      - intros H. apply in_map_iff in H. destruct H as (y & E & Y). apply X. apply Inj in E; [subst; auto|apply Sub; right; auto|apply Sub; left; auto].
      - apply IH. intros y Y. apply Sub. right. auto. }
    unfold slots in G. split; [|split]; apply G; auto; intros x X; rewrite !in_app_iff; auto.
  Qed.

  Lemma permute_total p n t : good t -> exists u s, permute_tensor p n t = Some (u, s) /\ good u.
  Proof.
    intros G. pose proof G as (P & _). unfold permute_tensor. destruct (is_colsymm (t_col t)) eqn:C; cbn [negb]; [|eauto].
    assert (C' : t_col t = ColSymm) by (destruct (t_col t); auto; discriminate). clear C.
    assert (H : forall t' sg, good t' -> exists u s, (if is_bksymm (t_bk t') && (p (VBundle n false) <? p (VBundle n true))
                 then option_map (fun u => (u, sg)) (swap_bra_ket t') else Some (t', sg)) = Some (u, s : bool) /\ good u).
    { intros t' sg Gt. destruct (_ && _); [|eauto]. rewrite swap_total by auto. cbn. eexists _, _. split; [reflexivity|]. apply swapped_good; auto. }
    assert (Nn : Forall (fun i => ix_null i = false) (t_bra t) /\ Forall (fun i => ix_null i = false) (t_ket t)).
    { destruct P as (F & _). unfold slots in F. rewrite !Forall_app in F. destruct F as (F1 & F2 & _).
      split; eapply Forall_impl; try eassumption; intros a; apply plain_null. }
    destruct (is_nonsymm (t_symm t)) eqn:Sy.
    - assert (Sy' : t_symm t = Nonsymm) by (destruct (t_symm t); auto; discriminate).
      destruct (num_cols t =? 0); [eauto|].
      destruct (sort_ordinals_total (map (fun k => p (VColumn n k)) (seq 0 (num_cols t)))) as (perm & sp & So). rewrite So.
      apply sort_ordinals_spec in So. destruct So as (m & E & _). rewrite map_length, seq_length in E. apply exchanges_perm in E.
      destruct (permute_columns_total perm (t_bra t) (t_ket t)) as (b' & k' & Pc); auto; try apply Nn. rewrite Pc. cbn [option_map fst snd].
      apply H. eapply related_good; [|exact G]. apply (permute_columns_related t perm); auto; apply Nn.
    - destruct (length (t_bra t) + length (t_ket t) =? 0); [eauto|].
      destruct (sort_ordinals_total (map (fun k => p (VSlot n OBra k)) (seq 0 (length (t_bra t))))) as (pb & sb & S1). rewrite S1.
      destruct (sort_ordinals_total (map (fun k => p (VSlot n OKet k)) (seq 0 (length (t_ket t))))) as (pk & sk & S2). rewrite S2.
      apply sort_ordinals_spec in S1, S2. destruct S1 as (n1 & E1 & ->), S2 as (n2 & E2 & ->).
      rewrite map_length, seq_length in E1, E2. apply permute_exchanges, exchanges_perm in E1, E2.
      apply H. destruct G as (_ & A & B & D). split; [|cbn; split; [|split]; auto; eapply Permutation_NoDup; eauto].
      destruct P as (F & N1 & N2). split; [|cbn; rewrite <- (Permutation_length E1), <- (Permutation_length E2); auto].
      refine (Permutation_Forall _ F). unfold slots. cbn. apply Permutation_app; auto. apply Permutation_app; auto.
  Qed.
End Total.
