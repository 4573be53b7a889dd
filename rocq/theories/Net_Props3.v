(** What is proved about the canonicalization of tensor networks: it always succeeds, and doing it twice is
    the same as doing it once. *)
From Coq Require Import ZArith List Arith Bool Permutation Sorted Lia.
From Verif Require Import Alg_Model Alg_Spec Tsr_Model Tsr_Spec Tsr_Proofs1 Tsr_Proofs2 Tsr_Proofs3 Tsr_Proofs4 Tsr_Proofs5 Tsr_Props.
From Verif Require Import Net_Model Net_Spec Net_Spec2 Net_Proofs1 Net_Proofs2 Net_Proofs3 Net_Proofs4 Net_Proofs5 Net_Proofs9 Net_Proofs10 Net_Proofs11 Net_Proofs12 Net_Proofs13 Net_Proofs14 Net_Props Net_Props2.
Import ListNotations.
Open Scope nat_scope.

Lemma valid_good S opts N : valid_network S opts N -> Forall (good S) N.
Proof.
  intros (R & M & P & _). rewrite Forall_forall in *. intros t T. apply made_good; auto. apply Forall_forall. intros i I. apply P. apply in_flat_map. eauto.
Qed.

(** ** C86: canonicalization never fails *)

Theorem C86_total : forall S bliss sort hash labels opts N, valid_network S opts N ->
  exists M ords s, canonicalize bliss sort hash labels opts N = Some (M, ords, s).
Proof.
  intros S bliss sort hash labels opts N V. destruct (valid_proper _ _ _ V) as (_ & B & C).
  destruct (canonicalize_total S (proj1 V) bliss sort hash labels opts N (valid_good _ _ _ V) B C) as (M & ords & s & E & _). eauto.
Qed.

(** The result can be canonicalized again. *)
Definition flagged (t : tensor) : Prop := is_nonsymm (t_symm t) || is_colsymm (t_col t) = true.
Lemma equivalent_kind (P : symmetry -> bksymmetry -> colsymmetry -> Prop) named N M s : equivalent named N M s ->
  (Forall (fun t => P (t_symm t) (t_bk t) (t_col t)) N <-> Forall (fun t => P (t_symm t) (t_bk t) (t_col t)) M).
Proof.
  induction 1 as [N|N M Q s s' H1 IH1 H2 IH2|N M s H IH|N M H|t u s N H|t u N B H|f N Inj Sp]; try tauto.
  - split; intros F; [apply (Permutation_Forall H)|apply (Permutation_Forall (Permutation_sym H))]; auto.
  - destruct H as (_ & _ & E1 & E2 & E3 & _). rewrite !Forall_cons_iff, E1, E2, E3. tauto.
  - destruct H as (_ & _ & E1 & E2 & E3 & _). rewrite !Forall_cons_iff, E1, E2, E3. tauto.
  - rewrite Forall_map. cbn. tauto.
Qed.
Lemma good_made S t : good S t -> flagged t -> made t.
Proof.
  intros G F. apply (made_ctor (t_label t) (t_bra t) (t_ket t) (t_aux t) (t_symm t) (t_bk t) (t_col t)). unfold make_tensor.
  pose proof (proj1 G) as (P & N1 & N2). unfold slots in P. rewrite !Forall_app, !Forall_forall in P. destruct P as (P1 & P2 & P3).
  assert (E : mktensor (t_label t) (t_bra t) (t_ket t) (t_aux t) (t_symm t) (t_bk t) (t_col t) (net_rank (t_bra t)) (net_rank (t_ket t)) = t).
  { rewrite !full_net; try (intros x X; unfold nn; rewrite (plain_null S x); auto). rewrite <- N1, <- N2. destruct t; auto. }
  rewrite E. rewrite (good_valid S) by auto. unfold flagged in F. rewrite F. cbn [andb]. rewrite proper_keep; auto.
Qed.

Theorem C86_valid : forall S bliss sort hash labels opts N M ords s, valid_network S opts N ->
  canonicalize bliss sort hash labels opts N = Some (M, ords, s) -> valid_network S opts M.
Proof.
  intros S bliss sort hash labels opts N M ords s V H. destruct (valid_proper _ _ _ V) as (_ & B & C).
  destruct (canonicalize_total S (proj1 V) bliss sort hash labels opts N (valid_good _ _ _ V) B C) as (M' & ords' & s' & E & G).
  rewrite H in E. injection E as <- <- <-. pose proof (C83_equivalent _ _ _ _ _ _ _ _ _ _ V H) as Eq.
  destruct V as (R & Md & P & Nm). split; [auto|]. split; [|split].
  - assert (F : Forall flagged N). { eapply Forall_impl; [|exact Md]. intros t T. destruct (made_ready t T) as ((_ & _ & _ & X) & _). auto. }
    apply (equivalent_kind (fun s _ c => is_nonsymm s || is_colsymm c = true) _ _ _ _ Eq) in F.
    rewrite Forall_forall in *. intros t T. apply (good_made S); auto. apply F. auto.
  - apply good_plain. auto.
  - unfold named_indices in *. destruct (o_named opts) as [l|]; auto. split; [apply Nm|]. intros L i I.
    destruct (equivalent_once _ _ _ _ Eq) as (Cn & _). specialize (Cn i I). apply (count_occ_In index_eq_dec). rewrite Cn.
    apply (count_occ_In index_eq_dec). apply Nm; auto.
Qed.

(** Networks that are the same up to what does not matter have one canonical form. *)
Theorem C86_same_form : forall S bliss sort hash labels opts N N' s, canonical_labelling bliss ->
  valid_network S opts N -> valid_network S opts N' ->
  o_topological opts = true -> o_ignore_labels opts = false -> Forall orientable N ->
  equivalent (named_indices (o_named opts) N) N N' s ->
  exists M ords t t', canonicalize bliss sort hash labels opts N = Some (M, ords, t) /\
    canonicalize bliss sort hash labels opts N' = Some (M, ords, t') /\
    (s = xorb t t' \/ equivalent (named_indices (o_named opts) N) N N true).
Proof.
  intros S bliss sort hash labels opts N N' s Bl V V' Tp Ig Or Eq.
  destruct (C86_total S bliss sort hash labels opts N V) as (M & ords & t & E). destruct (C86_total S bliss sort hash labels opts N' V') as (M' & ords' & t' & E').
  destruct (C85_canonical S bliss sort hash labels opts N N' M M' ords ords' s t t') as (-> & -> & X); auto. eauto 8.
Qed.

(** Canonicalizing again changes nothing. *)
Theorem C86_idempotent : forall S bliss sort hash labels opts N M ords s, canonical_labelling bliss ->
  valid_network S opts N -> o_topological opts = true -> o_ignore_labels opts = false -> Forall orientable N ->
  canonicalize bliss sort hash labels opts N = Some (M, ords, s) ->
  exists t, canonicalize bliss sort hash labels opts M = Some (M, ords, t) /\
    (t = false \/ equivalent (named_indices (o_named opts) N) N N true).
Proof.
  intros S bliss sort hash labels opts N M ords s Bl V Tp Ig Or H.
  pose proof (C86_valid _ _ _ _ _ _ _ _ _ _ V H) as V'. pose proof (C83_equivalent _ _ _ _ _ _ _ _ _ _ V H) as Eq.
  destruct (C86_same_form S bliss sort hash labels opts N M s Bl V V' Tp Ig Or Eq) as (M' & ords' & t & t' & E & E' & X).
  rewrite H in E. injection E as <- <- <-. exists t'. split; auto. destruct X as [X|X]; auto. left. destruct s, t'; auto.
Qed.

Module Net3Example.
Import TsrExample NetExample Net2Example.

(** The network [g0 t0], and the same network written in another way: the tensors exchanged, the slots of [t0] exchanged (this
    changes the sign), [g0] mirrored, the dummy [o 5] called [o 2]. *)
Definition t1 : tensor := mktensor label_t [v 9; v 8] [o 2; o 6] [] Antisymm BKNonsymm ColSymm 2 2.
Definition g1 : tensor := mktensor label_g [v 9; v 8] [o 2; o 7] [] Antisymm BKSymm ColSymm 2 2.
Definition net' : list tensor := [t1; g1].
Lemma made_net' : Forall made net'.
Proof.
  constructor; [|constructor; [|constructor]].
  - apply (made_ctor label_t [v 9; v 8] [o 2; o 6] [] Antisymm BKNonsymm ColSymm). reflexivity.
  - apply (made_ctor label_g [v 9; v 8] [o 2; o 7] [] Antisymm BKSymm ColSymm). reflexivity.
Qed.
Lemma valid_net : valid_network reg strict net.
Proof.
  split; [apply reg_one|]. split; [apply made_net|]. split; [|exact Logic.I].
  cbn. repeat apply Forall_cons; try apply plain_o; try apply plain_v. constructor.
Qed.
Lemma valid_net' : valid_network reg strict net'.
Proof.
  split; [apply reg_one|]. split; [apply made_net'|]. split; [|exact Logic.I].
  cbn. repeat apply Forall_cons; try apply plain_o; try apply plain_v. constructor.
Qed.
Lemma net_equivalent : equivalent (externals net) net net' true.
Proof.
  set (g2 := mktensor label_g [v 9; v 8] [o 5; o 7] [] Antisymm BKSymm ColSymm 2 2).
  set (t2 := mktensor label_t [v 9; v 8] [o 5; o 6] [] Antisymm BKNonsymm ColSymm 2 2).
  change true with (xorb false (xorb false (xorb true false))).
  apply eqv_trans with (M := [g2; t0]); [apply eqv_turn; [reflexivity|repeat split]|].
  apply eqv_trans with (M := [t0; g2]); [apply eqv_order; apply perm_swap|].
  apply eqv_trans with (M := [t2; g2]).
  - apply eqv_slots. do 7 (split; [reflexivity|]). cbn. exists 1, 0. split; [|split; [constructor|reflexivity]].
    apply (ex_swap 0 [] (v 8) [] (v 9) []). constructor.
  - set (f := fun i => if index_eq_dec i (o 5) then o 2 else i).
    replace net' with (map (renamed f) [t2; g2]) by (vm_compute; reflexivity).
    replace (externals net) with [o 7; o 6] by (vm_compute; reflexivity). apply eqv_names.
    + intros i j I J E. cbn in I, J. decompose [or] I; decompose [or] J; try contradiction; subst; try reflexivity; vm_compute in E; discriminate E.
    + intros i I. cbn in I. decompose [or] I; try contradiction; subst; vm_compute; intuition discriminate.
Qed.
Example C86_hyps : valid_network reg strict net /\ valid_network reg strict net' /\ o_topological strict = true /\ o_ignore_labels strict = false /\
  Forall orientable net /\ equivalent (named_indices (o_named strict) net) net net' true /\ net <> net'.
Proof.
  split; [apply valid_net|]. split; [apply valid_net'|]. do 2 (split; [reflexivity|]). split; [|split; [apply net_equivalent|discriminate]].
  repeat constructor; discriminate.
Qed.
End Net3Example.
