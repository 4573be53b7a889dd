(** normalize: the requested index pairs end up in the same column. *)
From Coq Require Import List ZArith Bool Arith Lia Permutation.
From Verif Require Import Wick_Model Wick_Spec Wick_Proofs1 Wick_Proofs2 Wick_Proofs3 Wick_Proofs4 Wick_Proofs5.
Import ListNotations.

Section Columns.
  Context {I : Type}.
  Variable ieqb : I -> I -> bool.
  Hypothesis ieqb_spec : forall i j, ieqb i j = true <-> i = j.
  Notation op := (op I).
  Notation nest := (list (list op)).
  Variable fermi : bool.

  Lemma nth_error_replace {X} (l : list X) i f k : nth_error (replace_nth l i f) k = if Nat.eqb k i then option_map f (nth_error l k) else nth_error l k.
  Proof.
    unfold replace_nth. revert i k. induction l as [|x l IH]; intros i k.
    - destruct i, k; cbn; try reflexivity. destruct (Nat.eqb k i); reflexivity.
    - destruct i as [|i], k as [|k]; cbn; try reflexivity. apply IH.
  Qed.

  Lemma nth_error_swap (l : list op) i j x y k : nth_error l i = Some x -> nth_error l j = Some y ->
    nth_error (swap_nth l i j) k = if Nat.eqb k j then Some x else if Nat.eqb k i then Some y else nth_error l k.
  Proof.
    intros Hi Hj. unfold swap_nth. rewrite Hi, Hj, !nth_error_replace.
    destruct (Nat.eqb_spec k j) as [->|H1].
    - destruct (Nat.eqb_spec j i) as [->|H2]; [rewrite Hi; reflexivity|rewrite Hj; reflexivity].
    - destruct (Nat.eqb_spec k i) as [->|H2]; [rewrite Hi; reflexivity|reflexivity].
  Qed.

  (** [p] of the row is in its place: whatever its partner is, it stands in the same column *)
  Definition placed (pairs : list (I * I)) (key partner : I * I -> I) extra (row other : list op) (p : nat) : Prop :=
    forall o q, nth_error row p = Some o -> In q pairs -> key q = oidx o -> In (partner q) (map oidx other) ->
      exists v, nth_error other (p + extra) = Some v /\ oidx v = partner q.

  Lemma find_pair (key : I * I -> I) pairs q : NoDup (map key pairs) -> In q pairs -> find (fun r => ieqb (key r) (key q)) pairs = Some q.
  Proof.
    induction pairs as [|r pairs IH]; intros Hd Hq; [destruct Hq|]. cbn in *. inversion Hd; subst.
    destruct (ieqb (key r) (key q)) eqn:E.
    - apply ieqb_spec in E. destruct Hq as [->|Hq]; [reflexivity|]. exfalso. apply H1. rewrite E. apply in_map. exact Hq.
    - destruct Hq as [->|Hq]; [|auto]. rewrite (proj2 (ieqb_spec _ _) eq_refl) in E. discriminate.
  Qed.

  Lemma nodup_key {X Y} (f : X -> Y) l a b : NoDup (map f l) -> In a l -> In b l -> f a = f b -> a = b.
  Proof.
    induction l as [|c l IH]; intros Hd Ha Hb E; [destruct Ha|]. cbn in Hd. inversion Hd; subst.
    destruct Ha as [->|Ha], Hb as [->|Hb]; auto.
    - exfalso. apply H1. rewrite E. apply in_map. exact Hb.
    - exfalso. apply H1. rewrite <- E. apply in_map. exact Ha.
  Qed.

  Lemma nodup_nth {X Y} (f : X -> Y) l i j x y : NoDup (map f l) -> nth_error l i = Some x -> nth_error l j = Some y -> f x = f y -> i = j.
  Proof.
    intros Hd Hi Hj E. rewrite NoDup_nth_error in Hd. apply Hd.
    - rewrite map_length. apply nth_error_Some. congruence.
    - rewrite (map_nth_error f i l Hi), (map_nth_error f j l Hj), E. reflexivity.
  Qed.

  Lemma pair_step_placed pairs key partner extra row phase other p done :
    NoDup (map key pairs) -> NoDup (map partner pairs) -> NoDup (map oidx row) -> NoDup (map oidx other) ->
    ~ In p done -> p + extra < length other ->
    (forall d, In d done -> placed pairs key partner extra row other d) ->
    let '(_, other') := pair_step ieqb fermi pairs key partner extra row (phase, other) p in
    Permutation other other' /\ forall d, In d (p :: done) -> placed pairs key partner extra row other' d.
  Proof.
    intros Hk Hpa Hr Ho Hnd Hlen Hdone. unfold pair_step.
    destruct (nth_error row p) as [o|] eqn:Erow.
    2:{ split; [apply Permutation_refl|]. intros d [<-|Hd]; [|auto]. intros o q E. congruence. }
    destruct (find (fun q => ieqb (key q) (oidx o)) pairs) as [q|] eqn:Ef.
    2:{ split; [apply Permutation_refl|]. intros d [<-|Hd]; [|auto]. intros o' q E Hq Kq. exfalso. rewrite Erow in E. injection E as <-.
        pose proof (find_none _ _ Ef q Hq) as E. cbn in E. rewrite (proj2 (ieqb_spec _ _) Kq) in E. discriminate. }
    apply find_some in Ef. destruct Ef as (Hq & Kq). apply ieqb_spec in Kq.
    destruct (find_index _ other) as [src|] eqn:Es.
    2:{ split; [apply Permutation_refl|]. intros d [<-|Hd]; [|auto]. intros o' q' E Hq' Kq' Hin. exfalso. rewrite Erow in E. injection E as <-.
        assert (q' = q) by (apply (nodup_key key pairs); congruence). subst q'.
        apply in_map_iff in Hin. destruct Hin as (v & Ev & Hv). pose proof (find_index_none _ _ Es v Hv) as E. cbn in E.
        rewrite (proj2 (ieqb_spec _ _) Ev) in E. discriminate. }
    apply find_index_nth in Es. destruct Es as (x & Hx & Ex). cbn in Ex. apply ieqb_spec in Ex.
    destruct (Nat.eqb_spec (p + extra) src) as [E|E].
    - split; [apply Permutation_refl|]. intros d [<-|Hd]; [|auto]. intros o' q' E' Hq' Kq' Hin. rewrite Erow in E'. injection E' as <-.
      assert (q' = q) by (apply (nodup_key key pairs); congruence). subst q'. exists x. rewrite E. auto.
    - destruct (nth_error other (p + extra)) as [y|] eqn:Hy; [|apply nth_error_None in Hy; lia].
      assert (HP : Permutation other (swap_nth other src (p + extra))).
      { destruct (swap_nth_spec other src (p + extra) x y ltac:(auto) Hx Hy) as (l1 & l2 & l3 & a & b & -> & ->).
        apply Permutation_app_head.
        apply (Permutation_trans (l' := a :: b :: l2 ++ l3)); [apply perm_skip; symmetry; apply Permutation_middle|].
        apply (Permutation_trans (l' := b :: a :: l2 ++ l3)); [apply perm_swap|]. apply perm_skip. apply Permutation_middle. }
      split; [exact HP|]. intros d Hd o' q' E' Hq' Kq' Hin. rewrite (nth_error_swap other src (p + extra) x y) by assumption.
      destruct (Nat.eq_dec d p) as [->|Hdp].
      + rewrite Nat.eqb_refl. rewrite Erow in E'. injection E' as <-.
        assert (q' = q) by (apply (nodup_key key pairs); congruence). subst q'. exists x. auto.
      + destruct Hd as [<-|Hd]; [congruence|].
        replace (Nat.eqb (d + extra) (p + extra)) with false by (symmetry; apply Nat.eqb_neq; lia).
        destruct (Hdone d Hd o' q' E' Hq' Kq') as (v & Hv & Ev).
        { apply (Permutation_in _ (Permutation_sym (Permutation_map oidx HP)) Hin). }
        destruct (Nat.eqb_spec (d + extra) src) as [Es|_]; [|exists v; auto].
        exfalso. apply Hdp. subst src. rewrite Hv in Hx. injection Hx as <-.
        assert (Eq : q = q') by (apply (nodup_key partner pairs); congruence). subst q'.
        apply (nodup_nth oidx row d p o' o Hr E' Erow). congruence.
  Qed.

  Lemma pair_fold_placed pairs key partner extra row :
    NoDup (map key pairs) -> NoDup (map partner pairs) -> NoDup (map oidx row) ->
    forall ps phase other done, NoDup (map oidx other) -> NoDup ps -> (forall p, In p ps -> ~ In p done /\ p + extra < length other) ->
    (forall d, In d done -> placed pairs key partner extra row other d) ->
    let '(_, other') := fold_left (pair_step ieqb fermi pairs key partner extra row) ps (phase, other) in
    Permutation other other' /\ forall d, In d ps \/ In d done -> placed pairs key partner extra row other' d.
  Proof.
    intros Hk Hpa Hr. induction ps as [|p ps IH]; intros phase other done Ho Hnd Hps Hdone.
    - cbn. split; [apply Permutation_refl|]. intros d [[]|Hd]. auto.
    - cbn [fold_left]. apply NoDup_cons_iff in Hnd. destruct Hnd as (Hnp & Hnd).
      pose proof (pair_step_placed pairs key partner extra row phase other p done Hk Hpa Hr Ho
                    (proj1 (Hps p (or_introl eq_refl))) (proj2 (Hps p (or_introl eq_refl))) Hdone) as H.
      destruct (pair_step ieqb fermi pairs key partner extra row (phase, other) p) as [ph o1]. destruct H as (P1 & H).
      specialize (IH ph o1 (p :: done)).
      assert (A1 : NoDup (map oidx o1)) by (apply (Permutation_NoDup (Permutation_map oidx P1)); exact Ho).
      assert (A2 : forall q, In q ps -> ~ In q (p :: done) /\ q + extra < length o1).
      { intros q Hq. rewrite <- (Permutation_length P1). destruct (Hps q (or_intror Hq)) as (B1 & B2). split; [|exact B2].
        intros [<-|Hin]; auto. }
      specialize (IH A1 Hnd A2 H). destruct (fold_left _ ps (ph, o1)) as [ph2 o2]. destruct IH as (P2 & IH).
      split; [exact (Permutation_trans P1 P2)|]. intros d [[<-|Hd]|Hd]; apply IH; cbn; auto.
  Qed.

  Lemma rev_nth_error {X} (l : list X) p x : nth_error l p = Some x -> nth_error (rev l) (length l - 1 - p) = Some x.
  Proof.
    intros H. apply nth_error_split in H. destruct H as (l1 & l2 & -> & <-). rewrite rev_app_distr. cbn [rev]. rewrite <- app_assoc.
    rewrite nth_error_app2; rewrite app_length, rev_length; cbn; [|lia]. replace (length l1 + S (length l2) - 1 - length l1 - length l2) with 0 by lia. reflexivity.
  Qed.

  Theorem normalize_columns (n : nest) pairs c a :
    NoDup (map fst pairs) -> NoDup (map snd pairs) ->
    NoDup (map oidx (filter (fun o => ocre o) (concat n))) -> NoDup (map oidx (filter (fun o => negb (ocre o)) (concat n))) ->
    In (c, a) pairs -> In (mkop c true) (concat n) -> In (mkop a false) (concat n) ->
    let '(_, (cres, anns)) := normalize ieqb fermi n pairs in
    exists j, nth_error (rev cres) j = Some (mkop c true) /\ nth_error (rev anns) j = Some (mkop a false).
  Proof.
    intros Hf Hs Hnc Hna Hin Hc Ha.
    pose proof (normalize_sign ieqb fermi n []) as H0.
    unfold normalize in *.
    destruct (normalize_loop fermi (opsize n) (length n) (tag_nest n 0) 0 1%Z [] (repeat [] (length n))) as [[phase cres] groups].
    set (anns := flat_map (fun g => rev g) (rev groups)) in *.
    destruct H0 as (k & _ & Hre & Fc & Fa). cbn [fst snd] in *. unfold normal_operator in Hre. cbn [fst snd] in Hre.
    apply re_permutation in Hre. clearbody anns.
    assert (HP1 : Permutation (filter (fun o => ocre o) (concat n)) cres /\ Permutation (filter (fun o => negb (ocre o)) (concat n)) anns).
    { assert (Hfilt : forall f, Permutation (filter f (concat n)) (filter f (cres ++ rev anns))).
      { intros f. clear - Hre. induction Hre; cbn; try (destruct (f x)); try (destruct (f y)); auto using perm_swap, Permutation_refl.
        eapply Permutation_trans; eassumption. }
      assert (all : forall (f : op -> bool) l, Forall (fun x => f x = true) l -> filter f l = l).
      { intros f l H. induction H; cbn; [reflexivity|]. rewrite H. congruence. }
      assert (none : forall (f : op -> bool) l, Forall (fun x => f x = false) l -> filter f l = []).
      { intros f l H. induction H; cbn; [reflexivity|]. rewrite H. congruence. }
      split.
      - specialize (Hfilt (fun o => ocre o)). rewrite filter_app, (all _ cres), (none _ (rev anns)), app_nil_r in Hfilt; [exact Hfilt| |exact Fc].
        apply Forall_rev. exact Fa.
      - specialize (Hfilt (fun o => negb (ocre o))). rewrite filter_app, (none _ cres), (all _ (rev anns)) in Hfilt; cbn in Hfilt.
        + eapply Permutation_trans; [exact Hfilt|]. symmetry. apply Permutation_rev.
        + apply Forall_rev. revert Fa. apply Forall_impl. intros o H. unfold is_ann in H. rewrite H. reflexivity.
        + revert Fc. apply Forall_impl. intros o H. unfold is_cre in H. rewrite H. reflexivity. }
    destruct HP1 as (Pc & Pa).
    assert (Dc : NoDup (map oidx cres)) by (apply (Permutation_NoDup (Permutation_map oidx Pc)); exact Hnc).
    assert (Da : NoDup (map oidx anns)) by (apply (Permutation_NoDup (Permutation_map oidx Pa)); exact Hna).
    assert (Ic : In (mkop c true) cres) by (apply (Permutation_in _ Pc); apply filter_In; auto).
    assert (Ia : In (mkop a false) anns) by (apply (Permutation_in _ Pa); apply filter_In; auto).
    clear Hre Pc Pa Hnc Hna Hc Ha groups.
    destruct pairs as [|q0 qs]; [destruct Hin|]. set (pairs := q0 :: qs) in *.
    assert (Hidx : forall l (v : op) b i, Forall (fun x => ocre x = b) l -> In v l -> oidx v = i -> v = mkop i b).
    { intros l v b i HF Hv E. rewrite Forall_forall in HF. specialize (HF v Hv). destruct v as [i' b']. cbn in *. congruence. }
    destruct (Nat.eqb_spec (length cres) (Nat.min (length cres) (length anns))) as [E|E].
    - set (extra := length anns - Nat.min (length cres) (length anns)).
      pose proof (pair_fold_placed pairs fst snd extra cres Hf Hs Dc (rev (seq 0 (Nat.min (length cres) (length anns)))) phase anns [] Da) as H.
      assert (B1 : NoDup (rev (seq 0 (Nat.min (length cres) (length anns))))) by (apply NoDup_rev, seq_NoDup).
      assert (B2 : forall p, In p (rev (seq 0 (Nat.min (length cres) (length anns)))) -> ~ In p [] /\ p + extra < length anns).
      { intros p Hp. apply in_rev, in_seq in Hp. unfold extra. split; [auto|lia]. }
      specialize (H B1 B2 ltac:(intros d [])).
      destruct (fold_left _ _ (phase, anns)) as [ph an]. destruct H as (P & H).
      destruct (In_nth_error _ _ Ic) as (p & Hp).
      assert (Hpl : p < length cres) by (apply nth_error_Some; congruence).
      destruct (H p ltac:(left; apply in_rev; rewrite rev_involutive; apply in_seq; lia) _ (c, a) Hp Hin eq_refl) as (v & Hv & Ev).
      { cbn [snd]. apply (Permutation_in _ (Permutation_map oidx P)). apply (in_map oidx) in Ia. exact Ia. }
      cbn [snd] in Ev. exists (length cres - 1 - p). split; [apply rev_nth_error; exact Hp|].
      replace (length cres - 1 - p) with (length an - 1 - (p + extra)) by (rewrite <- (Permutation_length P); unfold extra; lia).
      rewrite <- (Hidx an v false a); [apply rev_nth_error; exact Hv| | |exact Ev].
      + rewrite Forall_forall in *. intros x Hx. apply Fa. apply (Permutation_in _ (Permutation_sym P) Hx).
      + apply nth_error_In in Hv. exact Hv.
    - set (extra := length cres - Nat.min (length cres) (length anns)).
      pose proof (pair_fold_placed pairs snd fst extra anns Hs Hf Da (rev (seq 0 (Nat.min (length cres) (length anns)))) phase cres [] Dc) as H.
      assert (B1 : NoDup (rev (seq 0 (Nat.min (length cres) (length anns))))) by (apply NoDup_rev, seq_NoDup).
      assert (B2 : forall p, In p (rev (seq 0 (Nat.min (length cres) (length anns)))) -> ~ In p [] /\ p + extra < length cres).
      { intros p Hp. apply in_rev, in_seq in Hp. unfold extra. split; [auto|lia]. }
      specialize (H B1 B2 ltac:(intros d [])).
      destruct (fold_left _ _ (phase, cres)) as [ph cr]. destruct H as (P & H).
      destruct (In_nth_error _ _ Ia) as (p & Hp).
      assert (Hpl : p < length anns) by (apply nth_error_Some; congruence).
      destruct (H p ltac:(left; apply in_rev; rewrite rev_involutive; apply in_seq; lia) _ (c, a) Hp Hin eq_refl) as (v & Hv & Ev).
      { cbn [fst]. apply (Permutation_in _ (Permutation_map oidx P)). apply (in_map oidx) in Ic. exact Ic. }
      cbn [fst] in Ev. exists (length anns - 1 - p). split; [|apply rev_nth_error; exact Hp].
      replace (length anns - 1 - p) with (length cr - 1 - (p + extra)) by (rewrite <- (Permutation_length P); unfold extra; lia).
      rewrite <- (Hidx cr v true c); [apply rev_nth_error; exact Hv| | |exact Ev].
      + rewrite Forall_forall in *. intros x Hx. apply Fc. apply (Permutation_in _ (Permutation_sym P) Hx).
      + apply nth_error_In in Hv. exact Hv.
  Qed.
End Columns.
