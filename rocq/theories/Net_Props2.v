(** What is proved about the canonicalization of tensor networks: networks that are the same become equal. *)
From Coq Require Import ZArith List Arith Bool Permutation Sorted Lia.
From Verif Require Import Alg_Model Alg_Spec Tsr_Model Tsr_Spec Tsr_Proofs1 Tsr_Proofs5 Tsr_Props Net_Model Net_Spec Net_Spec2 Net_Proofs1 Net_Proofs2 Net_Proofs3 Net_Proofs4 Net_Proofs5 Net_Proofs9 Net_Proofs10 Net_Proofs11 Net_Props.
Import ListNotations.
Open Scope nat_scope.

(** Equivalent networks have the same named indices that occur once, and the same number of others. *)
Definition none_once (named : list index) (N : list tensor) : Prop :=
  forall i, ~ In i named -> count_occ index_eq_dec (indices N) i <> 1.
Lemma indices_map f N : indices (map (renamed f) N) = map f (indices N).
Proof.
  unfold indices. induction N as [|t N IH]; cbn [map flat_map]; auto. rewrite map_app, IH. f_equal. unfold slots, renamed. cbn. rewrite !map_app. auto.
Qed.
Lemma perm_once named N M : Permutation (indices N) (indices M) ->
  (forall i, In i named -> count_occ index_eq_dec (indices M) i = count_occ index_eq_dec (indices N) i) /\ (none_once named N <-> none_once named M).
Proof.
  intros P. assert (C : forall i, count_occ index_eq_dec (indices M) i = count_occ index_eq_dec (indices N) i) by (intros i; symmetry; apply count_perm; auto).
  split; [auto|]. unfold none_once. split; intros H i Hi; [rewrite C|rewrite <- C]; auto.
Qed.
Lemma equivalent_once named N M s : equivalent named N M s ->
  (forall i, In i named -> count_occ index_eq_dec (indices M) i = count_occ index_eq_dec (indices N) i) /\ (none_once named N <-> none_once named M).
Proof.
  induction 1 as [N|N M P s s' H1 (A & B) H2 (C & D)|N M s H (A & B)|N M H|t u s N H|t u N B H|f N Inj Sp].
  - split; tauto.
  - split; [|tauto]. intros i Hi. rewrite C, A; auto.
  - split; [|tauto]. intros i Hi. rewrite A; auto.
  - apply perm_once, indices_perm; auto.
  - apply perm_once. cbn. apply Permutation_app_tail. apply related_slots_perm in H. destruct H as (P & Q & E). unfold slots. rewrite E.
    apply Permutation_app; auto. apply Permutation_app; auto.
  - apply perm_once. cbn. apply Permutation_app_tail. unfold mirror in H. destruct H as (_ & E1 & _ & _ & _ & E2 & E3). unfold slots. rewrite E1, E2, E3.
    rewrite !app_assoc. apply Permutation_app_tail, Permutation_app_comm.
  - rewrite indices_map in *.
    assert (C : forall i, In i (indices N) -> count_occ index_eq_dec (map f (indices N)) (f i) = count_occ index_eq_dec (indices N) i) by (intros i Hi; apply count_map; auto).
    split.
    + intros i Hi. destruct (in_dec index_eq_dec i (indices N)) as [X|X].
      * destruct (Sp i X) as (_ & F & _). rewrite <- (C i X), (F Hi). auto.
      * assert (Y : ~ In i (map f (indices N))).
        { rewrite in_map_iff. intros (j & E & J). destruct (Sp j J) as (_ & F & G).
          destruct (in_dec index_eq_dec j named) as [Nj|Nj]; [rewrite (F Nj) in E; congruence|]. apply (G Nj). congruence. }
        rewrite (proj1 (count_occ_not_In index_eq_dec _ _) X), (proj1 (count_occ_not_In index_eq_dec _ _) Y). auto.
    + unfold none_once. rewrite indices_map. split; intros H i Hi X.
      * assert (Y : In i (map f (indices N))) by (rewrite (count_occ_In index_eq_dec); lia). apply in_map_iff in Y. destruct Y as (j & <- & J).
        rewrite C in X; auto. apply (H j); auto. intros Nj. destruct (Sp j J) as (_ & F & _). rewrite (F Nj) in Hi. auto.
      * assert (Y : In i (indices N)) by (rewrite (count_occ_In index_eq_dec); lia). destruct (Sp i Y) as (_ & _ & G). apply (H (f i)); auto.
        rewrite C; auto.
Qed.
Lemma equivalent_externals N M s : equivalent (externals N) N M s -> forall i, In i (externals N) <-> In i (externals M).
Proof.
  intros E i. destruct (equivalent_once _ _ _ _ E) as (A & B).
  assert (Q : none_once (externals N) N) by (intros j J X; apply J, externals_spec; auto). apply B in Q.
  destruct (in_dec index_eq_dec i (externals N)) as [I|I].
  - split; auto. intros _. apply externals_spec. rewrite A; auto. apply externals_spec; auto.
  - split; [tauto|]. intros J. apply externals_spec in J. destruct (Q i I J).
Qed.

(** ** C85: networks that are the same up to the order of the tensors, the order of slots that the symmetries
    allow and the names of the indices that are not named become equal *)

Theorem C85_canonical : forall S bliss sort hash labels opts N N' M M' ords ords' s t t', canonical_labelling bliss ->
  valid_network S opts N -> valid_network S opts N' ->
  o_topological opts = true -> o_ignore_labels opts = false -> Forall orientable N ->
  equivalent (named_indices (o_named opts) N) N N' s ->
  canonicalize bliss sort hash labels opts N = Some (M, ords, t) ->
  canonicalize bliss sort hash labels opts N' = Some (M', ords', t') ->
  M = M' /\ ords = ords' /\ (s = xorb t t' \/ equivalent (named_indices (o_named opts) N) N N true).
Proof.
  intros S bliss sort hash labels opts N N' M M' ords ords' s t t' Bl V V' Tp Ig Or Eq H H'.
  assert (Ni : forall i, In i (named_indices (o_named opts) N) <-> In i (named_indices (o_named opts) N')).
  { unfold named_indices in *. destruct (o_named opts); [tauto|]. apply (equivalent_externals _ _ s); auto. }
  pose proof (C83_equivalent _ _ _ _ _ _ _ _ _ _ V H) as E1. pose proof (C83_equivalent _ _ _ _ _ _ _ _ _ _ V' H') as E2.
  assert (G : M = M' /\ ords = ords').
  { destruct (valid_proper _ _ _ V) as (A & B & _). destruct (valid_proper _ _ _ V') as (A' & B' & _). destruct V as (R & _ & P & _). destruct V' as (_ & _ & P' & _).
    unfold canonicalize in H, H'. rewrite Tp, Ig in H, H'.
    destruct (init_edges N) as [i1|] eqn:I1; [|discriminate]. destruct (init_edges N') as [i2|] eqn:I2; [|discriminate].
    assert (Fg : Forall (plain S) (match o_named opts with Some l => l | None => [] end)) by (unfold named_indices in B; destruct (o_named opts); auto).
    destruct (named_of_spec S R (o_named opts) i1 N Fg P I1) as (O1 & F1 & K1). destruct (named_of_spec S R (o_named opts) i2 N' Fg P' I2) as (O2 & F2 & K2).
    assert (S1 : forall i, In i (named_of (o_named opts) i1) <-> In i (named_indices (o_named opts) N)).
    { intros i. unfold named_indices, named_ok in *. destruct (o_named opts); [apply K1|]. rewrite externals_spec. apply K1. }
    assert (S2 : forall i, In i (named_of (o_named opts) i2) <-> In i (named_indices (o_named opts) N')).
    { intros i. unfold named_indices, named_ok in *. destruct (o_named opts); [apply K2|]. rewrite externals_spec. apply K2. }
    assert (E : named_of (o_named opts) i1 = named_of (o_named opts) i2).
    { apply (ordered_unique S R); auto. intros i. rewrite S1, S2. apply Ni. }
    rewrite <- E in H'. set (named := named_of (o_named opts) i1) in *. clearbody named.
    destruct (canonicalize_graph bliss named false N) as [((T, o1), s1)|] eqn:G1; [|discriminate].
    destruct (canonicalize_graph bliss named false N') as [((T', o2), s2)|] eqn:G2; [|discriminate].
    assert (T' = T) as ->.
    { symmetry. apply (graph_complete S R named F1 O1 bliss Bl N N' T T' o1 o2 s1 s2 A A' Or); auto. apply equivalent_iso with (s := s).
      apply (equivalent_ext (named_indices (o_named opts) N)); auto. intros i. symmetry. apply S1. }
    apply (graph_sound S R) in G1, G2; auto. destruct G1 as (_ & _ & -> & _). destruct G2 as (_ & _ & -> & _).
    destruct (o_lexicographic opts); [|split; congruence].
    destruct (canonicalize_lex _ _ _ _ _ _) as [((L, lo), ls)|]; [|discriminate]. cbn in H, H'. split; congruence. }
  destruct G as (-> & ->). split; auto. split; auto.
  apply (equivalent_ext _ (named_indices (o_named opts) N)) in E2; [|intros i; symmetry; apply Ni].
  pose proof (eqv_trans _ _ _ _ _ _ (eqv_trans _ _ _ _ _ _ Eq E2) (eqv_sym _ _ _ _ E1)) as X.
  destruct s, t, t'; cbn in *; auto.
Qed.

(** Such a labelling exists. *)
Theorem C85_labelling_exists : exists bliss, canonical_labelling bliss.
Proof. exists smallest. apply smallest_canonical. Qed.

Module Net2Example.
Import TsrExample NetExample.

(** A tensor with symmetric bra and ket, but not symmetric in its columns. *)
Definition q1 : tensor := mktensor label_g [o 1] [o 2] [] Nonsymm BKSymm ColNonsymm 1 1.
Definition q2 : tensor := mktensor label_g [o 2] [o 1] [] Nonsymm BKSymm ColNonsymm 1 1.
Definition strict : options := mkopts true true None false.
Lemma made_q1 : made q1.
Proof. apply (made_ctor label_g [o 1] [o 2] [] Nonsymm BKSymm ColNonsymm). reflexivity. Qed.
Lemma made_q2 : made q2.
Proof. apply (made_ctor label_g [o 2] [o 1] [] Nonsymm BKSymm ColNonsymm). reflexivity. Qed.
Lemma valid_q1 : valid_network reg strict [q1].
Proof.
  split; [apply reg_one|]. split; [constructor; [apply made_q1|constructor]|]. split; [|exact Logic.I].
  cbn. repeat apply Forall_cons; try apply plain_o. constructor.
Qed.
Lemma valid_q2 : valid_network reg strict [q2].
Proof.
  split; [apply reg_one|]. split; [constructor; [apply made_q2|constructor]|]. split; [|exact Logic.I].
  cbn. repeat apply Forall_cons; try apply plain_o. constructor.
Qed.

(** Without [orientable] the claim is false, for every labelling: the two networks have the same value, and
    both stay as they are. *)
Theorem C85_mirror_refuted : valid_network reg strict [q1] /\ valid_network reg strict [q2] /\
  equivalent (named_indices (o_named strict) [q1]) [q1] [q2] false /\
  forall bliss sort hash labels, (forall l, Permutation l (sort l)) ->
    canonicalize bliss sort hash labels strict [q1] = Some ([q1], [0], false) /\
    canonicalize bliss sort hash labels strict [q2] = Some ([q2], [0], false).
Proof.
  split; [apply valid_q1|]. split; [apply valid_q2|]. split.
  - apply eqv_turn; [reflexivity|]. repeat split.
  - intros bliss sort hash labels Ps.
    assert (S1 : forall x, sort [x] = [x]) by (intros x; apply Permutation_length_1_inv; auto).
    assert (G : forall q, (q = q1 \/ q = q2) -> forall info, init_edges [q] = Some info -> map e_idx (ei_edges info) = [o 1; o 2] -> ei_ext info = [o 1; o 2] ->
       canonicalize bliss sort hash labels strict [q] = Some ([q], [0], false)).
    { intros q Q info I X1 X2. unfold canonicalize. rewrite I. cbn [strict o_named named_of o_topological o_ignore_labels o_lexicographic]. rewrite X2.
      assert (Gr : canonicalize_graph bliss [o 1; o 2] false [q] = Some ([q], [0], false)).
      { unfold canonicalize_graph. rewrite I, X1. cbv zeta. set (p := bliss _).
        assert (F : filter (fun i => negb (named_in [o 1; o 2] i)) (stable_sort (fun a b => p (VIndex a) <? p (VIndex b)) [o 1; o 2]) = []).
        { cbn [stable_sort fold_right insert_sorted]. destruct (p (VIndex (o 2)) <? p (VIndex (o 1))); vm_compute; reflexivity. }
        rewrite F. clear F. clearbody p. destruct Q as [-> | ->]; vm_compute; reflexivity. }
      assert (B : block_apply sort [o 1; o 2] q = Some (q, false)).
      { unfold block_apply, wants_swap. destruct Q as [-> | ->]; cbn [q1 q2 t_bk tag_indices t_bra t_ket map]; rewrite !S1; reflexivity. }
      rewrite Gr. unfold canonicalize_lex, individually. cbn [fst snd map_opt]. rewrite B. clear - Q. destruct Q as [-> | ->]; vm_compute; reflexivity. }
    split.
    + eapply G; [auto|vm_compute; reflexivity|reflexivity|reflexivity].
    + eapply G; [auto|vm_compute; reflexivity|reflexivity|reflexivity].
Qed.
End Net2Example.
