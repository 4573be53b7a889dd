(** What is proved about the canonicalization of sums of tensor networks. *)
From Coq Require Import ZArith List Arith Bool Permutation Lia Ring.
From Verif Require Import Alg_Spec Tsr_Model Tsr_Spec Tsr_Proofs1 Tsr_Proofs5 Tsr_Props Net_Model Net_Spec Net_Spec2 Net_Proofs1 Net_Proofs3 Net_Proofs4 Net_Proofs5 Net_Proofs9 Net_Proofs11 Net_Props Net_Props2 Net_Props3 Can_Model Can_Spec Can_Proofs1 Can_Proofs2.
Import ListNotations.
Open Scope nat_scope.

Definition network {K : cring} (x : summand K) : list tensor := match x with SProd _ fs => tensors fs | STen t => [t] end.
Definition variables {K : cring} (x : summand K) : list variable := match x with SProd _ fs => vars fs | STen _ => [] end.

(** A summand that can be canonicalized: without tensors, or with a network as in C83. *)
Definition valid_summand {K : cring} (S : space -> Prop) (opts : options) (x : summand K) : Prop :=
  network x = [] \/ valid_network S (rapid_options opts) (network x).

Lemma same_sum_ext {K : cring} given (P P' : summand K -> Prop) l m : (forall x, P x -> P' x) -> same_sum given P l m -> same_sum given P' l m.
Proof.
  intros H. induction 1 as [l|l m H1 IH|l m n F H1 IH1 H2 IH2|l m H1|c fs gs s l Hv He|c d fs l|fs l|t l].
  - apply ss_refl.
  - apply ss_sym. auto.
  - apply ss_trans with (m := m); auto. eapply Forall_impl; eauto.
  - apply ss_order. auto.
  - apply ss_term; auto.
  - apply ss_add.
  - apply ss_zero.
  - apply ss_lone.
Qed.

(** ** C87: canonicalization keeps a sum *)

Lemma valid_fine {K : cring} S opts (x : summand K) : valid_summand S opts x <-> fine S opts (fun _ => True) (fun _ => True) True x.
Proof.
  unfold valid_summand, fine, okay. destruct x; cbn [network]; [|tauto]. rewrite Forall_forall. intuition.
Qed.

Theorem C87_total : forall (K : cring) (is_zero : K -> bool) bliss sort hash labels vhash shash iter S opts l,
  (forall x, is_zero x = true -> x = r0) -> (forall l, Permutation (iter l) l) ->
  Forall (valid_summand S opts) l ->
  exists r, canonicalize_sum is_zero bliss sort hash labels vhash shash iter opts l = Some r /\
    Forall (valid_summand S opts) r /\ same_sum (o_named opts) (valid_summand S opts) l r.
Proof.
  intros K is_zero bliss sort hash labels vhash shash iter S opts l Z It F.
  assert (F' : Forall (fine S opts (fun _ => True) (fun _ => True) True) l) by (eapply Forall_impl; [|exact F]; intros x; apply valid_fine).
  destruct (sum_total is_zero Z bliss sort hash labels vhash shash iter It S opts (fun _ => True) (fun _ => True) True (fun _ _ _ _ _ _ _ => I) l F') as (r & E).
  exists r. split; auto.
  destruct (sum_sound is_zero Z bliss sort hash labels vhash shash iter It S opts (fun _ => True) (fun _ => True) True (fun _ _ _ _ _ _ _ => I) l r F' E) as (A & B).
  split; [eapply Forall_impl; [|exact A]; intros x; apply valid_fine|]. eapply same_sum_ext; [|exact B]. intros x. apply valid_fine.
Qed.

Section Values.
  Context {K : cring} {D : Type}.
  Add Ring Kring26 : (rring K).
  Variable range : space -> list D.
  Variable E : list Z -> symmetry -> bksymmetry -> colsymmetry -> list D -> list D -> list D -> K.
  Hypothesis E_ok : symmetric_elements E.
  Variable W : variable -> K.
  Variable given : option (list index).
  Lemma summed_ok N M : (forall i, In i (named_indices given N) <-> In i (named_indices given M)) -> dummies (named_indices given N) M (summed given M).
  Proof.
    intros H. unfold dummies, summed. split; [apply NoDup_nodup|]. intros i. rewrite nodup_In, filter_In, H. destruct (in_dec index_eq_dec i (named_indices given M)); intuition congruence.
  Qed.
  Lemma prod_perm (vs ws : list variable) : Permutation vs ws -> fold_right rmul r1 (map W vs) = fold_right rmul r1 (map W ws).
  Proof. induction 1; cbn; try ring; congruence. Qed.
  Lemma same_sum_value P l m a : same_sum given P l m -> sum_value given range E W l a = sum_value given range E W m a.
  Proof.
    unfold sum_value. induction 1 as [l|l m H IH|l m n F H1 IH1 H2 IH2|l m H|c fs gs s l Hv He|c d fs l|fs l|t l]; try congruence.
    - induction H; cbn; try congruence. ring.
    - cbn [map fold_right summand_value]. rewrite (prod_perm _ _ Hv). f_equal.
      assert (Ni : forall i, In i (named_indices given (tensors fs)) <-> In i (named_indices given (tensors gs))).
      { unfold named_indices in *. destruct given; [tauto|]. apply (equivalent_externals _ _ s); auto. }
      unfold network_value. rewrite (proj2 (equivalent_value range E E_ok _ _ _ _ He) (summed given (tensors fs)) (summed given (tensors gs))).
      + destruct s; cbn; ring.
      + apply summed_ok. tauto.
      + apply summed_ok. auto.
    - cbn. ring.
    - cbn. ring.
    - cbn [map fold_right summand_value vars tensors flat_map app]. f_equal. cbn. ring.
  Qed.
End Values.

Theorem C87_value : forall (K : cring) (is_zero : K -> bool) bliss sort hash labels vhash shash iter S opts l r,
  (forall x, is_zero x = true -> x = r0) -> (forall l, Permutation (iter l) l) -> Forall (valid_summand S opts) l ->
  canonicalize_sum is_zero bliss sort hash labels vhash shash iter opts l = Some r ->
  forall (D : Type) (range : space -> list D) E W a, symmetric_elements E ->
    sum_value (o_named opts) range E W l a = sum_value (o_named opts) range E W r a.
Proof.
  intros K is_zero bliss sort hash labels vhash shash iter S opts l r Z It F H D range E W a Sy.
  destruct (C87_total K is_zero bliss sort hash labels vhash shash iter S opts l Z It F) as (r' & H' & _ & X). rewrite H in H'. injection H' as <-.
  eapply same_sum_value; eauto.
Qed.

(** ** C88: sums that are the same become equal *)

(** A product that is not the negative of itself; its tensors can be oriented (see C85); the
    hash tells its variables apart. *)
Definition regular {K : cring} (S : space -> Prop) (opts : options) (U : variable -> Prop) (x : summand K) : Prop :=
  (exists c fs, x = SProd c fs) /\ Forall U (variables x) /\ valid_summand S opts x /\ Forall orientable (network x) /\
  ~ equivalent (named_indices (o_named opts) (network x)) (network x) (network x) true.

Lemma regular_fine {K : cring} S opts U (x : summand K) : regular S opts U x <-> fine S opts (lasting opts) U False x.
Proof.
  unfold regular, valid_summand, fine, okay, lasting. destruct x; cbn [network variables]; [|split; [intros ((c & fs & H) & _); discriminate|tauto]].
  split; [tauto|]. intros H. split; [eauto|]. tauto.
Qed.

Section C88.
  Variable K : cring.
  Variable is_zero : K -> bool.
  Variable bliss : graph -> vtx -> nat.
  Variable sort : list index -> list index.
  Variable hash : list index -> Z.
  Variable labels : list (list Z).
  Variable vhash : variable -> Z.
  Variable shash : summand K -> Z.
  Variable iter : list (summand K) -> list (summand K).
  Variable S : space -> Prop.
  Variable opts : options.
  Variable U : variable -> Prop.
  (** Only zero is zero; the graph library is right; a set is read in some order; different variables have
      different hash values. *)
  Definition standard : Prop :=
    (forall x, is_zero x = true <-> x = r0) /\ canonical_labelling bliss /\ (forall l, Permutation (iter l) l) /\
    (forall v w, U v -> U w -> vhash v = vhash w -> v = w).
  Notation canonical := (canonicalize_sum is_zero bliss sort hash labels vhash shash iter opts).
  Notation reg := (regular S opts U).

  Theorem C88_equal : standard -> forall l m, Forall reg l -> Forall reg m -> same_sum (o_named opts) reg l m ->
    exists r r', canonical l = Some r /\ canonical m = Some r' /\ Permutation r r' /\
      ((forall x y, In x r -> In y r -> shash x = shash y -> x = y) -> r = r').
  Proof.
    intros (Z & Bl & It & Vh) l m Fl Fm H.
    assert (Fl' : Forall (fine S opts (lasting opts) U False) l) by (eapply Forall_impl; [|exact Fl]; intros x; apply regular_fine).
    assert (Fm' : Forall (fine S opts (lasting opts) U False) m) by (eapply Forall_impl; [|exact Fm]; intros x; apply regular_fine).
    apply (same_sum_ext _ _ (fine S opts (lasting opts) U False)) in H; [|intros x; apply regular_fine].
    destruct (sum_result is_zero Z bliss Bl sort hash labels vhash shash iter It S opts U Vh l Fl') as (r & E1 & R1 & C1 & _).
    destruct (sum_result is_zero Z bliss Bl sort hash labels vhash shash iter It S opts U Vh m Fm') as (r' & E2 & R2 & C2 & _).
    assert (P : Permutation r r').
    { eapply reduced_perm; eauto. intros g. rewrite C1, C2. eapply coeff_same; eauto. }
    pose proof (stable_perm (fun x y => (shash x <? shash y)%Z) r) as P1. fold (sort_summands shash r) in P1.
    pose proof (stable_perm (fun x y => (shash x <? shash y)%Z) r') as P2. fold (sort_summands shash r') in P2.
    exists (sort_summands shash r), (sort_summands shash r'). split; auto. split; auto. split.
    - eapply perm_trans; [apply Permutation_sym, P1|]. eapply perm_trans; [exact P|exact P2].
    - intros Inj. unfold sort_summands. apply sort_perm; auto. intros x y X Y. apply Inj; eapply Permutation_in; eauto.
  Qed.

  (** A sum that is zero becomes empty. *)
  Theorem C88_zero : standard -> forall l, Forall reg l -> same_sum (o_named opts) reg l [] -> canonical l = Some [].
  Proof.
    intros St l F H. destruct (C88_equal St l [] F (Forall_nil _) H) as (r & r' & E & E' & P & _).
    assert (X : canonical [] = Some []).
    { destruct St as (_ & _ & It & _). assert (Ni : iter [] = []) by (apply Permutation_nil, Permutation_sym, It).
      unfold canonicalize_sum, pass. cbn. rewrite Ni. cbn. rewrite Ni. reflexivity. }
    rewrite X in E'. injection E' as <-. apply Permutation_sym, Permutation_nil in P. subst. auto.
  Qed.

  (** No two terms of the result differ in a factor only. *)
  Theorem C88_no_like_terms : standard -> forall l r r1 r2 r3 c d fs gs s, Forall reg l -> canonical l = Some r ->
    r = r1 ++ SProd c fs :: r2 ++ SProd d gs :: r3 ->
    ~ (Permutation (vars fs) (vars gs) /\ equivalent (named_indices (o_named opts) (tensors fs)) (tensors fs) (tensors gs) s).
  Proof.
    intros (Z & Bl & It & Vh) l r r1' r2 r3 c d fs gs s Fl E Er (Pv & Eq).
    assert (Fl' : Forall (fine S opts (lasting opts) U False) l) by (eapply Forall_impl; [|exact Fl]; intros x; apply regular_fine).
    assert (Z' : forall x, is_zero x = true -> x = r0) by (intros x; apply Z).
    destruct (sum_result is_zero Z bliss Bl sort hash labels vhash shash iter It S opts U Vh l Fl') as (q & E1 & (N & Fq & _) & _ & Kq).
    rewrite E in E1. injection E1 as E1. pose proof (stable_perm (fun x y => (shash x <? shash y)%Z) q) as P1. fold (sort_summands shash q) in P1. rewrite <- E1 in P1.
    assert (Ix : In (SProd c fs) q) by (apply (Permutation_in _ (Permutation_sym P1)); rewrite Er; apply in_elt).
    assert (Iy : In (SProd d gs) q). { apply (Permutation_in _ (Permutation_sym P1)). rewrite Er. apply in_or_app. right. right. apply in_elt. }
    destruct (Kq _ Ix) as (fs0 & Of & Ef). destruct (Kq _ Iy) as (gs0 & Og & Eg). cbn [facs] in Ef, Eg.
    rewrite Forall_forall in Fq. pose proof (Fq _ Ix) as (Ux & Ox & Lx). pose proof (Fq _ Iy) as (Uy & Oy & Ly).
    assert (Same : fs = gs).
    { destruct (key_same bliss Bl sort hash labels vhash S opts U Vh fs gs s Ux Ox Oy Lx Pv Eq) as (Kfg & _).
      assert (Fix_ : forall hs hs0, okay S opts (tensors hs0) -> Forall U (vars hs) -> okay S opts (tensors hs) -> lasting opts (tensors hs) ->
                hs = key bliss sort hash labels vhash opts hs0 -> key bliss sort hash labels vhash opts hs = hs).
      { intros hs hs0 O0 Uh Oh Lh Eh.
        assert (Q1 : Permutation (vars hs0) (vars hs)).
        { rewrite Eh. unfold key. rewrite vars_canon. apply stable_perm. }
        assert (Q2 : equivalent (named_indices (o_named opts) (tensors hs0)) (tensors hs0) (tensors hs) (sgn bliss sort hash labels opts hs0)).
        { assert (G : tensors hs = fst (form bliss sort hash labels opts (tensors hs0))) by (rewrite Eh; unfold key; apply tensors_canon). rewrite G. unfold sgn, form.
          destruct (tensors hs0) as [|t ts] eqn:T; [apply eqv_refl|]. assert (N0 : t :: ts <> []) by discriminate.
          destruct (C86_total S bliss sort hash labels (deep_options opts) (t :: ts)) as (M & ords & s' & X); [apply (okay_valid S opts); auto|]. rewrite X.
          apply (okay_canonical bliss sort hash labels S opts (deep_options opts) _ _ _ _ O0 N0 eq_refl X). }
        apply eqv_sym in Q2.
        apply (equivalent_ext _ (named_indices (o_named opts) (tensors hs))) in Q2.
        2:{ intros i. eapply same_named; eauto. apply eqv_sym. eauto. }
        destruct (key_same bliss Bl sort hash labels vhash S opts U Vh hs hs0 _ Uh Oh O0 Lh (Permutation_sym Q1) Q2) as (Kh & _). rewrite Kh. auto. }
      rewrite <- (Fix_ fs fs0), <- (Fix_ gs gs0); auto. }
    clear Eg. subst gs. apply (Permutation_map facs) in P1. apply (Permutation_NoDup P1) in N. rewrite Er in N.
    rewrite map_app in N. cbn [map facs] in N. apply NoDup_remove_2 in N. apply N. rewrite map_app. cbn [map facs].
    apply in_or_app. right. apply in_elt.
  Qed.

  (** Canonicalizing again changes nothing but, if hash values collide, the order. *)
  Theorem C88_idempotent : standard -> forall l r, Forall reg l -> canonical l = Some r ->
    exists r', canonical r = Some r' /\ Permutation r r' /\ ((forall x y, In x r -> In y r -> shash x = shash y -> x = y) -> r = r').
  Proof.
    intros St l r F H. pose proof St as (Z & Bl & It & Vh).
    assert (F' : Forall (fine S opts (lasting opts) U False) l) by (eapply Forall_impl; [|exact F]; intros x; apply regular_fine).
    assert (Z' : forall x, is_zero x = true -> x = r0) by (intros x; apply Z).
    destruct (sum_sound is_zero Z' bliss sort hash labels vhash shash iter It S opts (lasting opts) U False (lasting_invariant sort hash S opts) l r F' H) as (A & B).
    destruct (C88_equal St l r) as (q & q' & E & E' & P & C); auto.
    - eapply Forall_impl; [|exact A]. intros x. apply regular_fine.
    - eapply same_sum_ext; [|exact B]. intros x. apply regular_fine.
    - rewrite H in E. injection E as <-. eauto.
  Qed.
End C88.

Module CanExample.
Import TsrExample NetExample Net2Example.

(** [strict] is the options with the complete method. The product of three matrices in a loop, written in
    two ways. *)
Definition loop3' : list tensor := [mat 2 (v 7) (v 8); mat 1 (v 9) (v 7); mat 3 (v 8) (v 9)].
Lemma valid_loop3 : valid_network reg (rapid_options strict) loop3.
Proof. split; [apply reg_one|]. split; [repeat (apply Forall_cons; [apply made_mat|]); constructor|]. split; [apply plain_loop3|exact Logic.I]. Qed.
Lemma valid_loop3' : valid_network reg (rapid_options strict) loop3'.
Proof.
  split; [apply reg_one|]. split; [repeat (apply Forall_cons; [apply made_mat|]); constructor|]. split; [|exact Logic.I].
  cbn. repeat apply Forall_cons; try apply plain_v. constructor.
Qed.
Lemma loops_equivalent : equivalent (externals loop3) loop3 loop3' false.
Proof.
  replace (externals loop3) with (@nil index) by (vm_compute; reflexivity).
  set (f := fun i => if index_eq_dec i (v 1) then v 9 else if index_eq_dec i (v 2) then v 7 else if index_eq_dec i (v 3) then v 8 else i).
  change false with (xorb false false). apply eqv_trans with (M := map (renamed f) loop3).
  - apply eqv_names.
    + intros i j I J E. cbn in I, J. decompose [or] I; decompose [or] J; try contradiction; subst; try reflexivity; vm_compute in E; discriminate E.
    + intros i I. cbn in I. decompose [or] I; try contradiction; subst; vm_compute; intuition.
  - apply eqv_order. replace (map (renamed f) loop3) with [mat 1 (v 9) (v 7); mat 2 (v 7) (v 8); mat 3 (v 8) (v 9)] by (vm_compute; reflexivity). apply perm_swap.
Qed.
Lemma lasting_value N a : dummies (externals N) N [v 1; v 2; v 3] ->
  total (fun _ => [false; true]) [v 1; v 2; v 3] (product elems N) a <> 0%Z -> ~ equivalent (externals N) N N true.
Proof.
  intros D H E. apply H. pose proof (proj2 (equivalent_value (K := zring) (fun _ => [false; true]) elems elems_symmetric _ _ _ _ E) _ _ a D D) as X.
  cbn [signed zring ropp] in X. change (carrier zring) with Z in *. lia.
Qed.
Lemma loop3_lasting : ~ equivalent (externals loop3) loop3 loop3 true.
Proof.
  apply (lasting_value loop3 (fun _ => false)).
  - replace (externals loop3) with (@nil index) by (vm_compute; reflexivity).
    split; [repeat constructor; cbn; intuition discriminate|intros i; cbn; intuition (subst; auto; discriminate)].
  - vm_compute. discriminate.
Qed.
Definition x_var : variable := ([120%Z], false).
Definition term (c : Z) (N : list tensor) : summand zring := @SProd zring c (FVar x_var :: map FTen N).
Lemma tensors_term N : tensors (FVar x_var :: map FTen N) = N.
Proof. change (tensors (FVar x_var :: map FTen N)) with (tensors (map FTen N)). apply tensors_FTen. Qed.
Notation used := (fun w => w = x_var).
Lemma regular_loop3 c : regular reg strict used (term c loop3).
Proof.
  split; [unfold term; eauto|]. split; [repeat constructor|]. unfold valid_summand, term. cbn [network]. rewrite tensors_term. split; [right; apply valid_loop3|].
  split; [repeat constructor; discriminate|apply loop3_lasting].
Qed.
Lemma regular_loop3' c : regular reg strict used (term c loop3').
Proof.
  split; [unfold term; eauto|]. split; [repeat constructor|]. unfold valid_summand, term. cbn [network]. rewrite tensors_term. split; [right; apply valid_loop3'|].
  split; [repeat constructor; discriminate|]. intros E. apply loop3_lasting.
  apply (equivalent_ext _ (externals loop3)) in E; [|intros i; symmetry; apply (equivalent_externals loop3 loop3' false loops_equivalent)].
  change true with (xorb false (xorb true false)). eapply eqv_trans; [apply loops_equivalent|]. eapply eqv_trans; [exact E|]. apply eqv_sym, loops_equivalent.
Qed.
Lemma standard_example : standard zring (fun x => (x =? 0)%Z) smallest (fun _ => 0%Z) (fun l => l) used.
Proof.
  split; [intros x; apply Z.eqb_eq|]. split; [apply smallest_canonical|]. split; [intros l; apply Permutation_refl|]. intros v w -> ->. auto.
Qed.
(** Two terms that are the same are one term; a term and its negative are nothing. *)
Lemma two_loops (c d : Z) : same_sum (o_named strict) (regular reg strict used) [term c loop3; term d loop3'] [term (c + d)%Z loop3].
Proof.
  assert (F : Forall (regular reg strict used) [term c loop3; term d loop3]) by (repeat (apply Forall_cons; [apply regular_loop3|]); apply Forall_nil).
  apply ss_trans with (m := [term c loop3; term d loop3]); [exact F| |apply (ss_add (K := zring))].
  assert (X : same_sum (K := zring) (o_named strict) (regular reg strict used) [term d loop3'; term c loop3] [term d loop3; term c loop3]).
  { apply ss_sym. apply (ss_term (K := zring) (o_named strict) _ d _ _ false); [apply Permutation_refl|]. rewrite !tensors_term. apply loops_equivalent. }
  apply ss_trans with (m := [term d loop3'; term c loop3]); [repeat (apply Forall_cons; [apply regular_loop3 || apply regular_loop3'|]); constructor|apply ss_order, perm_swap|].
  apply ss_trans with (m := [term d loop3; term c loop3]); [repeat (apply Forall_cons; [apply regular_loop3|]); constructor|exact X|apply ss_order, perm_swap].
Qed.
Example C88_hyps : standard zring (fun x => (x =? 0)%Z) smallest (fun _ => 0%Z) (fun l => l) used /\
  Forall (regular reg strict used) [term 2 loop3; term 3 loop3'] /\ Forall (regular reg strict used) [term 5 loop3] /\
  same_sum (o_named strict) (regular reg strict used) [term 2 loop3; term 3 loop3'] [term 5 loop3] /\
  same_sum (o_named strict) (regular reg strict used) [term 2 loop3; term (-2) loop3'] [].
Proof.
  split; [apply standard_example|]. split; [repeat (apply Forall_cons; [apply regular_loop3 || apply regular_loop3'|]); constructor|].
  split; [repeat (apply Forall_cons; [apply regular_loop3|]); constructor|]. split; [apply (two_loops 2 3)|].
  apply ss_trans with (m := [term 0 loop3]); [repeat (apply Forall_cons; [apply regular_loop3|]); constructor|apply (two_loops 2 (-2))|].
  apply (ss_zero (K := zring)).
Qed.
Example C87_hyps : Forall (valid_summand (K := zring) reg strict) [term 2 loop3; STen (mat 4 (v 1) (v 1)); term 3 loop3'].
Proof.
  constructor; [apply regular_loop3|]. constructor; [|constructor; [apply regular_loop3'|constructor]].
  right. split; [apply reg_one|]. split; [constructor; [apply made_mat|constructor]|]. split; [|exact Logic.I]. cbn. repeat apply Forall_cons; try apply plain_v. constructor.
Qed.

(** The indices of a tensor that is a summand by itself are not renamed: a trace and the same trace with
    another name are not added, although their sum is twice the trace, and although this works for the
    product with the factor 2. *)
Definition trace (n : nat) : tensor := mat 4 (v n) (v n).
Theorem C88_lone_tensor_refuted : forall bliss sort hash labels vhash shash, exists S opts l m r r',
  Forall (valid_summand (K := zring) S opts) l /\ Forall (valid_summand S opts) m /\
  same_sum (o_named opts) (valid_summand S opts) l m /\
  canonicalize_sum (K := zring) (fun x => (x =? 0)%Z) bliss sort hash labels vhash shash (fun l => l) opts l = Some r /\
  canonicalize_sum (K := zring) (fun x => (x =? 0)%Z) bliss sort hash labels vhash shash (fun l => l) opts m = Some r' /\ length r <> length r'.
Proof.
  intros bliss sort hash labels vhash shash. exists reg, strict, [STen (trace 1); STen (trace 2)], [STen (trace 1); STen (trace 1)].
  assert (V : forall n, valid_network reg (rapid_options strict) [trace n]).
  { intros n. split; [apply reg_one|]. split; [constructor; [apply made_mat|constructor]|]. split; [|exact Logic.I]. cbn. repeat apply Forall_cons; try apply plain_v. constructor. }
  assert (Vs : forall n, valid_summand (K := zring) reg strict (STen (trace n))) by (intros n; right; apply V).
  assert (Vp : forall c n, valid_summand (K := zring) reg strict (SProd c [FTen (trace n)])) by (intros c n; right; apply V).
  assert (F : forall a b, Forall (valid_summand (K := zring) reg strict) [STen (trace a); STen (trace b)]) by (intros a b; repeat (apply Forall_cons; [apply Vs|]); apply Forall_nil).
  destruct (C87_total zring (fun x => (x =? 0)%Z) bliss sort hash labels vhash shash (fun l => l) reg strict [STen (trace 1); STen (trace 1)]) as (r' & E' & _); auto.
  { intros x. apply Z.eqb_eq. }
  exists (sort_summands shash [STen (trace 1); STen (trace 2)]), r'. split; [apply F|]. split; [apply F|]. split; [|split; [reflexivity|split; [exact E'|]]].
  - apply ss_trans with (m := [STen (trace 2); STen (trace 1)]); [apply F|apply ss_order, perm_swap|].
    apply ss_trans with (m := [SProd (K := zring) 1%Z [FTen (trace 2)]; STen (trace 1)]); [constructor; [apply Vp|constructor; auto]|apply (ss_lone (K := zring))|].
    apply ss_trans with (m := [SProd (K := zring) 1%Z [FTen (trace 1)]; STen (trace 1)]); [constructor; [apply Vp|constructor; auto]| |apply ss_sym, (ss_lone (K := zring))].
    apply (ss_term (K := zring) (o_named strict) _ 1%Z _ _ false); [apply Permutation_refl|]. cbn [tensors flat_map app].
    change (o_named strict) with (@None (list index)). cbn [named_indices].
    replace (externals [trace 2]) with (@nil index) by (vm_compute; reflexivity).
    change [trace 1] with (map (renamed (fun _ => v 1)) [trace 2]). apply eqv_names.
    + intros i j I J _. cbn in I, J. decompose [or] I; decompose [or] J; try contradiction; subst; reflexivity.
    + intros i I. cbn in I. decompose [or] I; try contradiction; subst; vm_compute; intuition.
  - assert (L : length r' = 1).
    { unfold canonicalize_sum in E'. change (pass (K := zring) (fun x => (x =? 0)%Z) bliss sort hash labels vhash (fun l => l) (rapid_options strict) [STen (trace 1); STen (trace 1)])
        with (Some [SProd (K := zring) 2%Z [FTen (trace 1)]]) in E'. unfold pass in E'. cbn [map_opt] in E'. unfold canon_summand, canon_product in E'. cbn [tensors flat_map app] in E'.
      destruct (canonicalize bliss sort hash labels (deep_options strict) [trace 1]) as [((M, ords), [|])|]; [| |discriminate]; cbn in E'; injection E' as <-; reflexivity. }
    rewrite L. pose proof (stable_perm (fun x y => (shash x <? shash y)%Z) [STen (trace 1); STen (trace 2)]) as P. apply Permutation_length in P.
    unfold sort_summands. change (carrier zring) with Z in *. rewrite <- P. discriminate.
Qed.

(** A term that is its own negative is not dropped, although its value is 0. *)
Definition anti : tensor := mktensor [65%Z] [v 1; v 2] [] [] Antisymm BKNonsymm ColSymm 2 0.
Definition symm : tensor := mktensor [66%Z] [] [v 1; v 2] [] Symm BKNonsymm ColSymm 0 2.
Theorem C88_vanishing_refuted : forall bliss sort hash labels vhash shash, exists S opts l r,
  Forall (valid_summand (K := zring) S opts) l /\
  (forall D (range : space -> list D) E W a, symmetric_elements E -> sum_value (o_named opts) range E W l a = 0%Z) /\
  canonicalize_sum (K := zring) (fun x => (x =? 0)%Z) bliss sort hash labels vhash shash (fun l => l) opts l = Some r /\ r <> [].
Proof.
  intros bliss sort hash labels vhash shash. set (x := SProd (K := zring) 1%Z [FTen anti; FTen symm]). exists reg, strict, [x].
  assert (V : valid_network reg (rapid_options strict) [anti; symm]).
  { split; [apply reg_one|]. split; [|split; [cbn; repeat apply Forall_cons; try apply plain_v; constructor|exact Logic.I]].
    constructor; [apply (made_ctor [65%Z] [v 1; v 2] [] [] Antisymm BKNonsymm ColSymm); reflexivity|].
    constructor; [apply (made_ctor [66%Z] [] [v 1; v 2] [] Symm BKNonsymm ColSymm); reflexivity|constructor]. }
  assert (F : Forall (valid_summand (K := zring) reg strict) [x]) by (constructor; [right; apply V|constructor]).
  destruct (C87_total zring (fun x => (x =? 0)%Z) bliss sort hash labels vhash shash (fun l => l) reg strict [x]) as (r & E & _); auto.
  { intros y. apply Z.eqb_eq. }
  exists r. split; [auto|]. split; [|split; [exact E|]].
  - intros D range El W a Sy.
    assert (Eq : equivalent (externals [anti; symm]) [anti; symm] [anti; symm] true).
    { replace (externals [anti; symm]) with (@nil index) by (vm_compute; reflexivity).
      set (anti' := mktensor [65%Z] [v 2; v 1] [] [] Antisymm BKNonsymm ColSymm 2 0).
      set (symm' := mktensor [66%Z] [] [v 2; v 1] [] Symm BKNonsymm ColSymm 0 2).
      set (f := fun i => if index_eq_dec i (v 1) then v 2 else if index_eq_dec i (v 2) then v 1 else i).
      change true with (xorb false (xorb true (xorb false (xorb false false)))).
      apply eqv_trans with (M := map (renamed f) [anti; symm]).
      { apply eqv_names.
        - intros i j I J H. cbn in I, J. decompose [or] I; decompose [or] J; try contradiction; subst; try reflexivity; vm_compute in H; discriminate H.
        - intros i I. cbn in I. decompose [or] I; try contradiction; subst; vm_compute; intuition. }
      replace (map (renamed f) [anti; symm]) with [anti'; symm'] by (vm_compute; reflexivity).
      apply eqv_trans with (M := [anti; symm']).
      { apply eqv_slots. do 7 (split; [reflexivity|]). cbn. exists 1, 0. split; [|split; [constructor|reflexivity]]. apply (ex_swap 0 [] (v 2) [] (v 1) []). constructor. }
      apply eqv_trans with (M := [symm'; anti]); [apply eqv_order, perm_swap|].
      apply eqv_trans with (M := [symm; anti]); [|apply eqv_order, perm_swap].
      apply eqv_slots. do 7 (split; [reflexivity|]). cbn. split; [constructor|]. split; [apply perm_swap|reflexivity]. }
    unfold sum_value, summand_value, x. cbn [map fold_right vars tensors flat_map app].
    assert (Z0 : network_value (o_named strict) range El [anti; symm] a = 0%Z).
    { assert (Dm : dummies (externals [anti; symm]) [anti; symm] (summed None [anti; symm])) by (apply (summed_ok None [anti; symm] [anti; symm]); tauto).
      pose proof (proj2 (equivalent_value (K := zring) range El Sy _ _ _ _ Eq) _ _ a Dm Dm) as Y. unfold network_value. change (o_named strict) with (@None (list index)).
      cbn [signed zring ropp] in Y. change (carrier zring) with Z in *. lia. }
    rewrite Z0. reflexivity.
  - intros ->. unfold canonicalize_sum, pass in E. cbn [map_opt] in E. unfold canon_summand, canon_product, x in E. cbn [tensors vars flat_map app] in E.
    destruct (canonicalize bliss sort hash labels (rapid_options strict) [anti; symm]) as [((M, ords), s)|]; [|discriminate].
    cbn [sort_vars stable_sort fold_right map app option_map fst snd] in E.
    assert (C1 : forall (c : Z) fs, c = 1%Z \/ c = (-1)%Z -> collect (K := zring) (fun x => (x =? 0)%Z) [SProd (K := zring) c fs] = [SProd (K := zring) c fs]) by (intros c fs [->| ->]; reflexivity).
    rewrite C1 in E by (destruct s; auto). cbn [map_opt] in E.
    destruct (canon_product bliss sort hash labels vhash (deep_options strict) (if s then rmul (1%Z : zring) (ropp r1) else (1%Z : zring)) (map FTen M)) as [(c, fs)|] eqn:C2.
    + assert (Cc : c = 1%Z \/ c = (-1)%Z).
      { unfold canon_product in C2. destruct (tensors (map FTen M)); [destruct s; injection C2 as <- <-; auto|].
        destruct (canonicalize _ _ _ _ _ _) as [((M', o'), s')|]; [|discriminate]. destruct s, s'; injection C2 as <- <-; auto. }
      unfold canon_product in C2. rewrite C2 in E. cbn [option_map fst snd] in E. rewrite C1 in E by auto. discriminate.
    + unfold canon_product in C2. rewrite C2 in E. discriminate.
Qed.
End CanExample.
