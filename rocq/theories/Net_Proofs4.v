(** Canonicalization gives an equivalent network. *)
From Coq Require Import ZArith List Arith Bool Permutation Sorted Lia.
From Verif Require Import Alg_Model Alg_Spec Alg_Proofs1 Alg_Proofs2 Tsr_Model Tsr_Spec Tsr_Proofs1 Tsr_Proofs2 Tsr_Proofs3 Tsr_Proofs4 Tsr_Proofs5 Tsr_Proofs6 Tsr_Proofs7.
From Verif Require Import Net_Model Net_Spec Net_Proofs1 Net_Proofs2 Net_Proofs3.
Import ListNotations.

Lemma combine_fst_len {A B} (l : list A) : forall m : list B, length m = length l -> map fst (combine l m) = l.
Proof. induction l as [|x l IH]; intros [|y m] L; cbn in *; try discriminate; auto. f_equal. auto. Qed.
Lemma combine_snd_len {A B} (l : list A) : forall m : list B, length m = length l -> map snd (combine l m) = m.
Proof. induction l as [|x l IH]; intros [|y m] L; cbn in *; try discriminate; auto. f_equal. auto. Qed.

(** ** Equivalence *)
Lemma equivalent_ext named named' N M s : (forall i, In i named <-> In i named') -> equivalent named N M s -> equivalent named' N M s.
Proof.
  intros E. induction 1 as [| | | | | |f N H1 H2]; try (econstructor; eauto; fail).
  apply eqv_names; auto. intros i I. destruct (H2 i I) as (A & B & C). rewrite <- !E. auto.
Qed.
Lemma equivalent_eq named N M s s' : s = s' -> equivalent named N M s -> equivalent named N M s'.
Proof. intros ->. auto. Qed.

(** The replacement of one tensor by another one. *)
Definition exchangeable (t u : tensor) (s : bool) : Prop := forall named N, equivalent named (t :: N) (u :: N) s.
Lemma exchangeable_refl t : exchangeable t t false.
Proof. intros named N. constructor. Qed.
Lemma exchangeable_trans t u v s s' : exchangeable t u s -> exchangeable u v s' -> exchangeable t v (xorb s s').
Proof. intros A B named N. eapply eqv_trans; [apply A|apply B]. Qed.

(** Pairs of tensors and signs. *)
Inductive all_exchangeable : list tensor -> list (tensor * bool) -> Prop :=
| aex_nil : all_exchangeable [] []
| aex_cons t u s ts us : exchangeable t u s -> all_exchangeable ts us -> all_exchangeable (t :: ts) ((u, s) :: us).
Lemma all_equivalent named ts us : all_exchangeable ts us -> forall pre,
  equivalent named (pre ++ ts) (pre ++ map fst us) (fold_right xorb false (map snd us)).
Proof.
  induction 1 as [|t u s ts us E A IH]; intros pre; cbn.
  - constructor.
  - eapply eqv_trans; [|specialize (IH (pre ++ [u])); rewrite <- !app_assoc in IH; exact IH].
    eapply equivalent_eq; [|eapply eqv_trans; [apply eqv_order; symmetry; apply Permutation_middle|eapply eqv_trans; [apply E|apply eqv_order; apply Permutation_middle]]].
    destruct s; auto.
Qed.

Section Sound.
  Variable S : space -> Prop.
  Hypothesis R : one_registry S.
  Notation plain := (plain S).

  (** No slot is empty, all indices are plain. *)
  Definition proper (t : tensor) : Prop :=
    Forall plain (slots t) /\ t_bra_net t = length (t_bra t) /\ t_ket_net t = length (t_ket t).

  Lemma plain_null i : plain i -> ix_null i = false.
  Proof. intros (_ & _ & _ & H). auto. Qed.
  Lemma made_proper t : made t -> Forall plain (slots t) -> proper t.
  Proof.
    intros M F. destruct (made_ready t M) as ((_ & N1 & N2 & _) & _). split; auto.
    unfold slots in F. rewrite !Forall_app, !Forall_forall in F. destruct F as (F1 & F2 & F3).
    rewrite N1, N2, !full_net; auto; intros x X; unfold nn; rewrite (plain_null x); auto.
  Qed.
  Lemma proper_keep t : t_bra_net t = length (t_bra t) -> t_ket_net t = length (t_ket t) -> canonicalize_slots t = t.
  Proof. intros A B. apply canon_slots_keep. unfold have_empty. rewrite A, B, !Nat.eqb_refl. rewrite andb_false_r. auto. Qed.
  Lemma related_slots_perm t u s : related t u s -> Permutation (t_bra t) (t_bra u) /\ Permutation (t_ket t) (t_ket u) /\ t_aux t = t_aux u.
  Proof.
    intros (_ & A & _ & _ & _ & _ & _ & H). destruct (t_col t), (t_symm t);
      try (destruct H as (H1 & H2 & _); rewrite ?H1, ?H2; auto; fail).
    - destruct H as (n & m & E1 & E2 & _). apply exchanges_perm in E1, E2. auto.
    - destruct H as (b & b' & r & r' & k & k' & q & q' & -> & -> & -> & -> & L & L' & _ & _ & P & Pr & Pq & _).
      split; [|split]; auto; apply Permutation_app; auto.
      + apply (Permutation_map fst) in P. rewrite !combine_fst_len in P by auto. auto.
      + apply (Permutation_map snd) in P. rewrite !combine_snd_len in P by auto. auto.
  Qed.
  Lemma related_proper t u s : related t u s -> proper t -> proper u /\ Permutation (slots t) (slots u).
  Proof.
    intros Rl (F & N1 & N2). destruct (related_slots_perm t u s Rl) as (P1 & P2 & E).
    assert (P : Permutation (slots t) (slots u)).
    { unfold slots. rewrite E. apply Permutation_app; auto. apply Permutation_app; auto. }
    split; auto. destruct Rl as (_ & _ & _ & _ & _ & M1 & M2 & _). split; [apply (Permutation_Forall P); auto|].
    rewrite <- M1, <- M2, <- (Permutation_length P1), <- (Permutation_length P2). auto.
  Qed.
  Lemma swapped_proper t : proper t -> proper (swapped t) /\ Permutation (slots t) (slots (swapped t)).
  Proof.
    intros (F & N1 & N2). assert (P : Permutation (slots t) (slots (swapped t))).
    { unfold slots. cbn. apply Permutation_app_swap_app. }
    split; auto. split; [apply (Permutation_Forall P); auto|]. cbn. auto.
  Qed.
  Lemma swapped_exchangeable t : t_bk t = BKSymm -> exchangeable t (swapped t) false.
  Proof. intros B named N. apply eqv_turn; auto. unfold mirror. cbn. auto 8. Qed.
  Lemma related_exchangeable t u s : related t u s -> exchangeable t u s.
  Proof. intros H named N. apply eqv_slots. auto. Qed.

  (** What each step does to one tensor. *)
  Definition step (t u : tensor) (s : bool) : Prop := proper u /\ Permutation (slots t) (slots u) /\ exchangeable t u s.
  Lemma step_refl t : proper t -> step t t false.
  Proof. intros P. split; auto. split; auto. apply exchangeable_refl. Qed.
  Lemma step_trans t u v s s' : step t u s -> step u v s' -> step t v (xorb s s').
  Proof. intros (A & B & C) (A' & B' & C'). split; auto. split; [etransitivity; eauto|eapply exchangeable_trans; eauto]. Qed.
  Lemma step_related t u s : proper t -> related t u s -> step t u s.
  Proof. intros P Rl. destruct (related_proper t u s Rl P) as (A & B). split; auto. split; auto. apply related_exchangeable; auto. Qed.
  Lemma step_swapped t : proper t -> t_bk t = BKSymm -> step t (swapped t) false.
  Proof. intros P B. destruct (swapped_proper t P) as (A & C). split; auto. split; auto. apply swapped_exchangeable; auto. Qed.
  Lemma swap_step t u : proper t -> t_bk t = BKSymm -> swap_bra_ket t = Some u -> step t u false.
  Proof.
    intros P B. unfold swap_bra_ket. destruct (validate_indices _); [|discriminate].
    fold (swapped t). rewrite proper_keep by apply P. intros [= <-]. apply step_swapped; auto.
  Qed.
  Lemma default_step ext t u s : proper t -> default_apply ext t = Some (u, s) -> step t u s.
  Proof. intros P H. apply step_related; auto. eapply default_related; eauto. Qed.
  Lemma block_step sort ext t u s : proper t -> block_apply sort ext t = Some (u, s) -> step t u s.
  Proof.
    intros P H. apply block_related in H. destruct H as [H|(B & _ & H)]; [apply step_related; auto|].
    pose proof (step_swapped t P B) as X. rewrite proper_keep in H by apply P.
    rewrite <- (xorb_false_l s). apply (step_trans _ _ _ _ _ X). apply step_related; auto. apply X.
  Qed.
  Lemma permute_step p n t u s : proper t -> permute_tensor p n t = Some (u, s) -> step t u s.
  Proof.
    intros P. unfold permute_tensor. destruct (is_colsymm (t_col t)) eqn:C; cbn [negb].
    2: { intros [= <- <-]. apply step_refl; auto. }
    assert (C' : t_col t = ColSymm) by (destruct (t_col t); auto; discriminate). clear C.
    assert (G : forall t' sg, step t t' sg -> (if is_bksymm (t_bk t') && (p (VBundle n false) <? p (VBundle n true))
                 then option_map (fun u => (u, sg)) (swap_bra_ket t') else Some (t', sg)) = Some (u, s) -> step t u s).
    { intros t' sg St. destruct (is_bksymm (t_bk t')) eqn:B; cbn [andb].
      - destruct (p (VBundle n false) <? p (VBundle n true)).
        + destruct (swap_bra_ket t') as [v|] eqn:Sw; [|discriminate]. cbn. intros [= <- <-].
          rewrite <- (xorb_false_r sg). eapply step_trans; [exact St|]. apply swap_step; auto; [apply St|]. destruct (t_bk t'); auto; discriminate.
        + intros [= <- <-]. auto.
      - intros [= <- <-]. auto. }
    assert (Nn : Forall (fun i => ix_null i = false) (t_bra t) /\ Forall (fun i => ix_null i = false) (t_ket t)).
    { destruct P as (F & _). unfold slots in F. rewrite !Forall_app in F. destruct F as (F1 & F2 & _).
      split; eapply Forall_impl; try eassumption; intros a; apply plain_null. }
    destruct (is_nonsymm (t_symm t)) eqn:Sy.
    - assert (Sy' : t_symm t = Nonsymm) by (destruct (t_symm t); auto; discriminate).
      destruct (num_cols t =? 0); [intros [= <- <-]; apply step_refl; auto|].
      destruct (sort_ordinals _) as [(perm, sp)|] eqn:So; [|discriminate]. apply sort_ordinals_spec in So. destruct So as (m & E & _).
      rewrite map_length, seq_length in E. apply exchanges_perm in E.
      destruct (permute_columns perm (t_bra t) (t_ket t)) as [(b', k')|] eqn:Pc; [|discriminate]. cbn [option_map fst snd].
      apply G. apply step_related; auto. apply (permute_columns_related t perm); auto; apply Nn.
    - destruct (length (t_bra t) + length (t_ket t) =? 0); [intros [= <- <-]; apply step_refl; auto|].
      destruct (sort_ordinals (map (fun k => p (VSlot n OBra k)) _)) as [(pb, sb)|] eqn:S1; [|discriminate].
      destruct (sort_ordinals (map (fun k => p (VSlot n OKet k)) _)) as [(pk, sk)|] eqn:S2; [|discriminate].
      apply sort_ordinals_spec in S1, S2. destruct S1 as (n1 & E1 & ->), S2 as (n2 & E2 & ->).
      rewrite map_length, seq_length in E1, E2. apply permute_exchanges in E1, E2.
      apply G. apply step_related; auto. unfold related. do 7 (split; [reflexivity|]). rewrite C'.
      destruct (t_symm t) eqn:Q; try discriminate; cbn [is_antisymm andb with_slots t_bra t_ket].
      + apply exchanges_perm in E1, E2. auto.
      + exists n1, n2. rewrite Nat.odd_add. auto.
  Qed.

  (** Steps for all tensors of a network. *)
  Inductive steps : list tensor -> list (tensor * bool) -> Prop :=
  | steps_nil : steps [] []
  | steps_cons t u s ts us : step t u s -> steps ts us -> steps (t :: ts) ((u, s) :: us).
  Lemma steps_spec named ts us : steps ts us ->
    equivalent named ts (map fst us) (fold_right xorb false (map snd us)) /\
    Permutation (indices ts) (indices (map fst us)) /\ Forall proper (map fst us).
  Proof.
    intros H. assert (A : all_exchangeable ts us) by (induction H; constructor; auto; apply H).
    split; [apply (all_equivalent named ts us A [])|]. clear A. induction H as [|t u s ts us (A & B & C) H (IH1 & IH2)]; cbn; auto.
    split; auto. apply Permutation_app; auto.
  Qed.
  Lemma map_opt_length {A B} (f : A -> option B) l : forall m, map_opt f l = Some m -> length m = length l.
  Proof.
    induction l as [|x l IH]; intros m; cbn; [intros [= <-]; auto|].
    destruct (f x); [|discriminate]. destruct (map_opt f l); [|discriminate]. intros [= <-]. cbn. f_equal. auto.
  Qed.
  Lemma steps_map_opt f ts : forall us, (forall t u s, In t ts -> f t = Some (u, s) -> step t u s) -> map_opt f ts = Some us -> steps ts us.
  Proof.
    induction ts as [|t ts IH]; intros us H; cbn; [intros [= <-]; constructor|].
    destruct (f t) as [(u, s)|] eqn:E; [|discriminate]. destruct (map_opt f ts) as [us'|] eqn:M; [|discriminate]. intros [= <-].
    constructor; [apply H; auto; left; auto|]. apply IH; auto. intros; apply H; auto; right; auto.
  Qed.
  Lemma steps_number f ts : forall k us, (forall n t u s, In t ts -> f (n, t) = Some (u, s) -> step t u s) ->
    map_opt f (combine (seq k (length ts)) ts) = Some us -> steps ts us.
  Proof.
    induction ts as [|t ts IH]; intros k us H; cbn; [intros [= <-]; constructor|].
    destruct (f (k, t)) as [(u, s)|] eqn:E; [|discriminate]. destruct (map_opt f _) as [us'|] eqn:M; [|discriminate]. intros [= <-].
    constructor; [eapply H; eauto; left; auto|]. eapply IH; eauto. intros; eapply H; eauto; right; auto.
  Qed.
  Lemma proper_indices ts : Forall proper ts -> Forall plain (indices ts).
  Proof.
    intros F. apply Forall_forall. intros i I. unfold indices in I. apply in_flat_map in I. destruct I as (t & T & I).
    rewrite Forall_forall in F. destruct (F t T) as (P & _). rewrite Forall_forall in P. auto.
  Qed.
  Lemma indices_perm ts us : Permutation ts us -> Permutation (indices ts) (indices us).
  Proof. apply Permutation_flat_map. Qed.

  Lemma renamed_proper f t : (forall i, In i (slots t) -> plain (f i)) -> proper t -> proper (renamed f t).
  Proof.
    intros H (F & N1 & N2). split; [|cbn; rewrite !map_length; auto].
    apply Forall_forall. intros i I. assert (E : slots (renamed f t) = map f (slots t)) by (unfold slots; cbn; rewrite !map_app; auto).
    rewrite E in I. apply in_map_iff in I. destruct I as (j & <- & J). auto.
  Qed.

  (** The indices that occur once. *)
  Definition same_once (N M : list tensor) : Prop :=
    forall i, count_occ index_eq_dec (indices N) i = 1 <-> count_occ index_eq_dec (indices M) i = 1.
  Lemma count_perm l m i : Permutation l m -> count_occ index_eq_dec l i = count_occ index_eq_dec m i.
  Proof. intros P. apply (Permutation_count_occ index_eq_dec). auto. Qed.
  Lemma count_map f l i : (forall j k, In j l -> In k l -> f j = f k -> j = k) -> In i l ->
    count_occ index_eq_dec (map f l) (f i) = count_occ index_eq_dec l i.
  Proof.
    intros Inj I. assert (G : forall m, incl m l -> count_occ index_eq_dec (map f m) (f i) = count_occ index_eq_dec m i).
    { induction m as [|x m IH]; intros Sub; cbn; auto. rewrite IH by (intros y Y; apply Sub; right; auto).
      destruct (index_eq_dec (f x) (f i)) as [E|E], (index_eq_dec x i) as [E'|E']; auto; [|congruence].
      destruct E'. apply Inj; auto. apply Sub; left; auto. }
    apply G. intros x X; auto.
  Qed.

  Lemma filter_negb_In named l i : Forall plain named -> Forall plain l ->
    In i (filter (fun i => negb (named_in named i)) l) <-> In i l /\ ~ In i named.
  Proof.
    intros Fn Fl. rewrite filter_In, negb_true_iff. rewrite Forall_forall in Fl. split; intros (A & B); split; auto.
    - apply (named_in_false S R) in B; auto.
    - apply (named_in_false S R); auto.
  Qed.

  (** The step that renames the anonymous indices. *)
  Lemma rename_step named is m ts : Forall plain named -> Forall proper ts -> NoDup is ->
    (forall i, In i is <-> In i (indices ts) /\ ~ In i named) -> make_replacements named [] is = Some m ->
    exists ts1, map_opt (apply_replacements m) ts = Some ts1 /\ ts1 = map (renamed (rho m)) ts /\ equivalent named ts ts1 false /\ Forall proper ts1 /\
      (forall i, In i named -> (In i (indices ts1) <-> In i (indices ts))) /\
      ((forall i, In i named <-> count_occ index_eq_dec (indices ts) i = 1) -> same_once ts ts1).
  Proof.
    intros Fn Fp ND Iff H. pose proof (proper_indices ts Fp) as Ft.
    assert (Fi : Forall plain is). { apply Forall_forall. intros i I. apply Iff in I. rewrite Forall_forall in Ft. apply Ft. tauto. }
    destruct (rename_equivalent S R named is m ts Fn Ft Fi ND Iff H) as (A & B & C & D & E & F & G & J).
    eexists. split; [exact A|]. split; [auto|]. split; [auto|]. split; [|split].
    - apply Forall_forall. intros t' T. apply in_map_iff in T. destruct T as (t & <- & T). rewrite Forall_forall in Fp. apply renamed_proper; auto.
      intros i I. rewrite D, Forall_map, Forall_forall in C. apply C. apply in_flat_map. eauto.
    - intros i N. rewrite D, in_map_iff. split.
      + intros (j & <- & Ij). destruct (in_dec index_eq_dec j named) as [Nj|Nj]; [rewrite E; auto|]. destruct (F j Ij Nj N).
      + intros I. exists i. split; auto.
    - intros O i. rewrite D. split.
      + intros X. assert (I : In i (indices ts)) by (rewrite (count_occ_In index_eq_dec); lia).
        assert (Ni : In i named) by (apply O; auto). rewrite <- (E i I Ni). rewrite count_map; auto.
      + intros X. assert (I : In i (map (rho m) (indices ts))) by (rewrite (count_occ_In index_eq_dec); lia).
        apply in_map_iff in I. destruct I as (j & <- & Ij). rewrite count_map in X by auto. rewrite E; auto. apply O; auto.
  Qed.

  (** [canonicalize_graph] *)
  Lemma graph_sound bliss named ig ts ts2 ords s : Forall plain named -> Forall proper ts ->
    canonicalize_graph bliss named ig ts = Some (ts2, ords, s) ->
    equivalent named ts ts2 s /\ Forall proper ts2 /\ ords = seq 0 (length ts2) /\
    (forall i, In i named -> (In i (indices ts2) <-> In i (indices ts))) /\
    ((forall i, In i named <-> count_occ index_eq_dec (indices ts) i = 1) -> same_once ts ts2).
  Proof.
    intros Fn Fp. unfold canonicalize_graph. destruct (init_edges ts) as [info|] eqn:I; [|discriminate].
    pose proof (proper_indices ts Fp) as Ft. apply (init_edges_spec S R) in I; auto. destruct I as ((O & In1 & _) & _).
    rewrite refs_fst in In1.
    assert (Fe : Forall plain (map e_idx (ei_edges info))).
    { apply Forall_forall. intros j J. apply In1 in J. rewrite Forall_forall in Ft. auto. }
    set (p := bliss _). set (order := stable_sort _ _).
    assert (Po : Permutation (map e_idx (ei_edges info)) order) by apply stable_perm.
    destruct (make_replacements named [] _) as [m|] eqn:M; [|discriminate].
    destruct (rename_step named (filter (fun i => negb (named_in named i)) order) m ts Fn Fp) with (3 := M) as (ts1 & -> & _ & E1 & P1 & N1 & C1).
    { apply NoDup_filter. apply (Permutation_NoDup Po). apply (ordered_nodup S R); auto. }
    { intros i. rewrite filter_negb_In; auto; [|apply (Permutation_Forall Po); auto]. rewrite <- In1.
      split; intros (X & Y); split; auto; [apply (Permutation_in _ (Permutation_sym Po))|apply (Permutation_in _ Po)]; auto. }
    destruct (map_opt _ (number ts1)) as [r|] eqn:Mr; [|discriminate].
    assert (St : steps ts1 r).
    { apply (steps_number _ _ 0 r) in Mr; auto. intros n t u sg T. apply permute_step. rewrite Forall_forall in P1; auto. }
    destruct (steps_spec named ts1 r St) as (E2 & X2 & P2).
    destruct (sort_via_ordinals _ _ (map fst r)) as [(ts3, o3)|] eqn:So; [|discriminate]. apply sort_via_spec in So.
    destruct So as (ords' & k & _ & Pm & [= -> ->]). intros [= <- <- <-]. apply (pick_perm no_tensor) in Pm.
    pose proof (indices_perm _ _ Pm) as X3. split; [|split; [|split; [|split]]].
    - eapply equivalent_eq; [|eapply eqv_trans; [exact E1|eapply eqv_trans; [exact E2|apply eqv_order; symmetry; exact Pm]]].
      destruct (fold_right xorb false (map snd r)); auto.
    - apply (Permutation_Forall (Permutation_sym Pm)). auto.
    - rewrite (Permutation_length Pm). auto.
    - intros i Ni. rewrite <- N1 by auto. split; intros Y.
      + apply (Permutation_in _ (Permutation_sym X2)), (Permutation_in _ X3). auto.
      + apply (Permutation_in _ (Permutation_sym X3)), (Permutation_in _ X2). auto.
    - intros Q i. rewrite (C1 Q i), (count_perm _ _ i X2), (count_perm _ _ i X3). tauto.
  Qed.

  Lemma individually_steps f ts ts' s : (forall t u s, In t ts -> f t = Some (u, s) -> step t u s) -> individually f ts = Some (ts', s) ->
    exists us, steps ts us /\ ts' = map fst us /\ s = fold_right xorb false (map snd us).
  Proof.
    intros H. unfold individually. destruct (map_opt f ts) as [us|] eqn:E; [|discriminate]. cbn. intros [= <- <-].
    exists us. split; auto. apply (steps_map_opt f); auto.
  Qed.

  Definition named_ok (given : option (list index)) (named : list index) (ts : list tensor) : Prop :=
    match given with
    | Some l => forall i, In i named <-> In i l
    | None => forall i, In i named <-> count_occ index_eq_dec (indices ts) i = 1
    end.
  Lemma named_of_spec given info ts : Forall plain (match given with Some l => l | None => [] end) -> Forall plain (indices ts) ->
    init_edges ts = Some info ->
    ordered (named_of given info) /\ Forall plain (named_of given info) /\ named_ok given (named_of given info) ts.
  Proof.
    intros Fg Ft I. apply (init_edges_spec S R) in I; auto. destruct I as (_ & _ & O & F & E). destruct given as [l|]; cbn in *; auto.
    destruct (named_adds_spec S R l [] (Forall_nil _) Fg (SSorted_nil _)) as (A & B & C). split; auto. split; auto.
    intros i. rewrite B. cbn. tauto.
  Qed.


  Lemma lex_sound sort hash labels given named0 ts ords ts' ords' s :
    Forall plain (match given with Some l => l | None => [] end) -> Forall plain named0 -> ordered named0 -> Forall proper ts -> length ords = length ts ->
    named_ok given named0 ts -> (forall i, In i named0 -> In i (indices ts)) ->
    canonicalize_lex sort hash labels given named0 (ts, ords) = Some (ts', ords', s) -> equivalent named0 ts ts' s /\ Forall proper ts'.
  Proof.
    intros Fg Fn On Fp Lo Ok Occ. unfold canonicalize_lex. cbn [fst snd].
    destruct (individually (block_apply sort named0) ts) as [(ts1, s1)|] eqn:I1; [|discriminate].
    apply individually_steps in I1; [|intros t u sg T; apply block_step; rewrite Forall_forall in Fp; auto].
    destruct I1 as (us & St & -> & ->). destruct (steps_spec named0 ts us St) as (E1 & X1 & P1).
    destruct (bubble_sort _ (combine (map fst us) ords)) as [(sorted, k)|] eqn:B; [|discriminate].
    apply bubble_swaps, exchanges_perm, (Permutation_map fst) in B.
    assert (Ls : length us = length ts) by (clear - St; induction St; cbn; auto).
    rewrite combine_fst_len in B by (rewrite map_length, Ls; auto). set (ts2 := map fst sorted) in *.
    assert (P2 : Forall proper ts2) by (apply (Permutation_Forall B); auto).
    destruct (init_edges ts2) as [info|] eqn:I2; [|discriminate].
    pose proof (indices_perm _ _ B) as X2. assert (X : Permutation (indices ts) (indices ts2)) by (etransitivity; eauto).
    pose proof (proper_indices ts2 P2) as F2.
    assert (Nm : named_of given info = named0).
    { destruct (named_of_spec given info ts2 Fg F2 I2) as (A1 & A2 & A3). apply (ordered_unique S R); auto.
      intros i. destruct given as [l|]; cbn in *.
      - rewrite A3, Ok. tauto.
      - rewrite A3, Ok, (count_perm _ _ i X). tauto. }
    rewrite Nm. apply (init_edges_spec S R) in I2; auto. destruct I2 as ((O & In1 & _) & _). rewrite refs_fst in In1.
    assert (Fe : Forall plain (map e_idx (ei_edges info))).
    { apply Forall_forall. intros j J. apply In1 in J. rewrite Forall_forall in F2. auto. }
    pose proof (ordered_nodup S R _ Fe O) as ND.
    destruct (stable_split (fun e => named_in named0 (e_idx e))
       (fun a b => if Bool.eqb (named_in named0 (e_idx a)) (named_in named0 (e_idx b)) then edge_ltb a b else named_in named0 (e_idx a))
       (ei_edges info)) as (N & A & Es & PN & PA).
    { intros x y. split; intros -> ->; auto. }
    rewrite Es.
    assert (LN : length N = length named0).
    { rewrite <- (map_length e_idx). apply Permutation_length. apply NoDup_Permutation.
      - apply (Permutation_NoDup (Permutation_map e_idx PN)). clear - ND. induction (ei_edges info) as [|e es IH]; cbn; [constructor|].
        inversion ND; subst. destruct (named_in named0 (e_idx e)); cbn; auto. constructor; auto.
        intros Y. apply H1. apply in_map_iff in Y. destruct Y as (e' & <- & Y). apply filter_In in Y. apply in_map. tauto.
      - apply (ordered_nodup S R); auto.
      - intros i. split.
        + intros Y. apply (Permutation_in _ (Permutation_map e_idx (Permutation_sym PN))) in Y. apply in_map_iff in Y. destruct Y as (e & <- & Y).
          apply filter_In in Y. destruct Y as (Y & Z). apply (named_in_spec S R) in Z; auto. rewrite Forall_forall in Fe. apply Fe. apply in_map; auto.
        + intros Y. apply (Permutation_in _ (Permutation_map e_idx PN)). pose proof (Occ i Y) as Z. apply (Permutation_in _ X) in Z. apply In1 in Z.
          apply in_map_iff in Z. destruct Z as (e & <- & Z). apply in_map. apply filter_In. split; auto. apply (named_in_spec S R); auto.
          rewrite Forall_forall in Fn. auto. }
    rewrite skipn_app, <- LN, skipn_all, Nat.sub_diag, skipn_O. cbn [app].
    destruct (existsb _ _); [discriminate|].
    destruct (make_replacements named0 [] (map e_idx A)) as [m|] eqn:M; [|discriminate].
    destruct (rename_step named0 (map e_idx A) m ts2 Fn P2) with (3 := M) as (ts3 & -> & _ & E3 & P3 & _).
    { apply (Permutation_NoDup (Permutation_map e_idx PA)). clear - ND. induction (ei_edges info) as [|e es IH]; cbn; [constructor|].
      inversion ND; subst. destruct (named_in named0 (e_idx e)); cbn; auto. constructor; auto.
      intros Y. apply H1. apply in_map_iff in Y. destruct Y as (e' & <- & Y). apply filter_In in Y. apply in_map. tauto. }
    { intros i. split.
      - intros Y. apply (Permutation_in _ (Permutation_map e_idx (Permutation_sym PA))) in Y. apply in_map_iff in Y. destruct Y as (e & <- & Y).
        apply filter_In in Y. destruct Y as (Y & Z). apply negb_true_iff in Z. apply (named_in_false S R) in Z; auto.
        + split; auto. apply In1. apply in_map; auto.
        + rewrite Forall_forall in Fe. apply Fe. apply in_map; auto.
      - intros (Y & Z). apply (Permutation_in _ (Permutation_map e_idx PA)). apply In1 in Y. apply in_map_iff in Y. destruct Y as (e & <- & Y).
        apply in_map. apply filter_In. split; auto. apply negb_true_iff. apply (named_in_false S R); auto.
        rewrite Forall_forall in Fe. apply Fe. apply in_map; auto. }
    destruct (individually (default_apply named0) ts3) as [(ts4, s4)|] eqn:I4; [|discriminate].
    apply individually_steps in I4; [|intros t u sg T; apply default_step; rewrite Forall_forall in P3; auto].
    destruct I4 as (us4 & St4 & -> & ->). destruct (steps_spec named0 ts3 us4 St4) as (E4 & X4 & P4).
    destruct (is_sorted _ _); [|discriminate]. cbn [negb]. intros [= <- <- <-].
    set (fin := stable_sort _ (map fst us4)). assert (Pf : Permutation (map fst us4) fin) by apply stable_perm.
    split; [|apply (Permutation_Forall Pf); auto].
    eapply equivalent_eq; [|eapply eqv_trans; [exact E1|eapply eqv_trans; [apply eqv_order; exact B|eapply eqv_trans; [exact E3|
       eapply eqv_trans; [exact E4|apply eqv_order; exact Pf]]]]].
    destruct (fold_right xorb false (map snd us)), (fold_right xorb false (map snd us4)); auto.
  Qed.

  Lemma externals_spec N i : In i (externals N) <-> count_occ index_eq_dec (indices N) i = 1.
  Proof. unfold externals. rewrite filter_In, Nat.eqb_eq. split; [tauto|]. intros H. split; auto. rewrite (count_occ_In index_eq_dec). lia. Qed.

  Lemma canonicalize_sound bliss sort hash labels opts ts ts' ords s : Forall proper ts ->
    Forall plain (named_indices (o_named opts) ts) -> (o_lexicographic opts = true -> forall i, In i (named_indices (o_named opts) ts) -> In i (indices ts)) ->
    canonicalize bliss sort hash labels opts ts = Some (ts', ords, s) -> equivalent (named_indices (o_named opts) ts) ts ts' s /\ Forall proper ts'.
  Proof.
    intros Fp Fn Occ. unfold canonicalize. destruct (init_edges ts) as [info|] eqn:I; [|discriminate].
    pose proof (proper_indices ts Fp) as Ft.
    assert (Fg : Forall plain (match o_named opts with Some l => l | None => [] end)) by (unfold named_indices in Fn; destruct (o_named opts); auto).
    destruct (named_of_spec (o_named opts) info ts Fg Ft I) as (O & F & Ok). set (named := named_of (o_named opts) info) in *. clearbody named. clear I.
    assert (Same : forall i, In i named <-> In i (named_indices (o_named opts) ts)).
    { intros i. unfold named_indices, named_ok in *. destruct (o_named opts); [apply Ok|]. rewrite externals_spec. apply Ok. }
    assert (G : forall ts1 o1 s1, equivalent named ts ts1 s1 -> Forall proper ts1 -> length o1 = length ts1 ->
       (forall i, In i named -> (In i (indices ts1) <-> In i (indices ts))) ->
       ((forall i, In i named <-> count_occ index_eq_dec (indices ts) i = 1) -> same_once ts ts1) ->
       (if o_lexicographic opts
          then option_map (fun r : list tensor * list nat * bool => (fst r, xorb s1 (snd r))) (canonicalize_lex sort hash labels (o_named opts) named (ts1, o1))
          else Some (ts1, o1, s1)) = Some (ts', ords, s) -> equivalent (named_indices (o_named opts) ts) ts ts' s /\ Forall proper ts').
    { intros ts1 o1 s1 E P L N C. destruct (o_lexicographic opts) eqn:Lx.
      - destruct (canonicalize_lex sort hash labels (o_named opts) named (ts1, o1)) as [((ts2, o2), s2)|] eqn:X; [|discriminate].
        cbn. intros [= <- <- <-]. apply lex_sound in X; auto.
        + destruct X as (X1 & X2). split; auto. apply (equivalent_ext named); auto. eapply eqv_trans; eauto.
        + unfold named_ok in *. destruct (o_named opts); auto. intros i. rewrite (Ok i). apply (C Ok).
        + intros i Ni. apply N; auto. apply Occ; auto. apply Same; auto.
      - intros [= <- <- <-]. split; auto. apply (equivalent_ext named); auto. }
    destruct (o_topological opts).
    - destruct (canonicalize_graph bliss named (o_ignore_labels opts) ts) as [((ts1, o1), s1)|] eqn:X; [|discriminate].
      apply graph_sound in X; auto. destruct X as (A & B & -> & C & D). apply G; auto. apply seq_length.
    - apply G; auto; [constructor|apply seq_length|tauto|]. intros _ i. tauto.
  Qed.
End Sound.
