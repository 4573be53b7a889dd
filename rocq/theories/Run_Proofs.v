(** * Proofs about the threaded algorithms and the singleton *)
From Coq Require Import List Arith Bool ZArith Lia Permutation.
From Verif Require Import Run_Model.
Import ListNotations.

Lemma put_split : forall A (l1 l2 : list A) w w', put (length l1) w' (l1 ++ w :: l2) = l1 ++ w' :: l2.
Proof.
  intros. unfold put. rewrite firstn_app, skipn_app, Nat.sub_diag, firstn_all, skipn_all. cbn.
  rewrite app_nil_r. reflexivity.
Qed.

Lemma nth_split2 : forall A (l : list A) i w, nth_error l i = Some w ->
  exists l1 l2, l = l1 ++ w :: l2 /\ i = length l1.
Proof. intros A l i w E. destruct (nth_error_split l i E) as (l1 & l2 & -> & <-). eauto. Qed.

Lemma nth_put : forall A (l1 l2 : list A) w w' j,
  nth_error (l1 ++ w' :: l2) j =
  if j =? length l1 then Some w' else nth_error (l1 ++ w :: l2) j.
Proof.
  intros A l1 l2 w w' j. destruct (Nat.eqb_spec j (length l1)) as [->|N].
  - rewrite nth_error_app2, Nat.sub_diag by lia. reflexivity.
  - destruct (Nat.lt_ge_cases j (length l1)).
    + rewrite !nth_error_app1 by lia. reflexivity.
    + rewrite !nth_error_app2 by lia. destruct (j - length l1) eqn:E; [lia|reflexivity].
Qed.

Lemma in_mid : forall X (l1 l2 : list X) w x, In x (l1 ++ w :: l2) <-> x = w \/ In x (l1 ++ l2).
Proof.
  intros. rewrite !in_app_iff. cbn. intuition.
Qed.

Lemma in_mid_r : forall X (l1 l2 : list X) w x, x = w \/ In x (l1 ++ l2) -> In x (l1 ++ w :: l2).
Proof. intros X l1 l2 w x H. exact (proj2 (in_mid X l1 l2 w x) H). Qed.

(** ** for_each *)
Section ForEach.
Variable n : nat.

Definition fclaimed (w : fworker) : list nat := match w with FReady k _ => [k] | _ => [] end.
Definition fbusy (w : fworker) : list nat := match w with FBusy k _ => [k] | _ => [] end.
Definition fweight (w : fworker) : nat :=
  match w with FFetch _ _ => 1 | FReady _ _ => 3 | FBusy _ _ => 2 | FDone => 0 end.
Definition fmeasure (c : fconf) : nat :=
  3 * (n - f_work c) + list_sum (map fweight (f_workers c)).

Record finv (c : fconf) : Prop := mkFI {
  fi_w : forall w, In w (f_workers c) ->
    match w with
    | FFetch it prev => it = prev /\ prev <= f_work c
    | FReady k it | FBusy k it => it = k /\ k < f_work c
    | FDone => n < f_work c
    end;
  fi_begun : Permutation (begun c ++ flat_map fclaimed (f_workers c)) (seq 0 (min (f_work c) n));
  fi_ended : Permutation (ended c ++ flat_map fbusy (f_workers c)) (begun c) }.

Lemma finit_inv : forall t, finv (finit t).
Proof.
  intros t. unfold finit. constructor; cbn [f_workers f_work f_log begun ended].
  - intros w Hw. apply repeat_spec in Hw. subst. split; [reflexivity|lia].
  - induction t; cbn; auto.
  - induction t; cbn; auto.
Qed.

Lemma finv_step : forall c i, finv c -> finv (fstep n i c).
Proof.
  intros [work ws log] i [W B E]. unfold fstep. cbn [f_workers f_work f_log] in *.
  destruct (nth_error ws i) as [[it prev|k it|k it|]|] eqn:Ei; try (constructor; assumption).
  - destruct (nth_split2 _ _ _ _ Ei) as (l1 & l2 & -> & ->). rewrite put_split.
    pose proof (W (FFetch it prev) ltac:(apply in_or_app; right; left; reflexivity)) as [-> Hp].
    assert (W' : forall w, In w (l1 ++ l2) -> match w with
      | FFetch it prev => it = prev /\ prev <= S work
      | FReady k it | FBusy k it => it = k /\ k < S work
      | FDone => n < S work end).
    { intros w Hw. assert (Hi : In w (l1 ++ FFetch prev prev :: l2)).
      { apply in_app_iff in Hw. apply in_or_app. destruct Hw; [left|right; right]; assumption. }
      specialize (W w Hi). destruct w; lia. }
    destruct (Nat.ltb_spec work n) as [L|L].
    + replace (prev + (work - prev)) with work by lia.
      constructor; cbn [f_workers f_work f_log].
      * intros w Hw. apply in_app_iff in Hw. destruct Hw as [Hw|[<-|Hw]].
        -- apply W'. apply in_or_app; auto.
        -- split; [reflexivity|lia].
        -- apply W'. apply in_or_app; auto.
      * unfold begun in *. cbn [f_log] in *. rewrite flat_map_app in *. cbn [flat_map fclaimed app] in *.
        rewrite (Nat.min_l (S work) n) by lia. rewrite seq_S. cbn [Nat.add].
        rewrite (Nat.min_l work n) in B by lia.
        etransitivity; [|apply Permutation_app_tail; exact B].
        rewrite <- !app_assoc. apply Permutation_app_head, Permutation_app_head.
        apply Permutation_cons_append.
      * unfold begun, ended in *. cbn [f_log] in *. rewrite flat_map_app in *. cbn [flat_map fbusy app] in *. exact E.
    + constructor; cbn [f_workers f_work f_log].
      * intros w Hw. apply in_app_iff in Hw. destruct Hw as [Hw|[<-|Hw]].
        -- apply W'. apply in_or_app; auto.
        -- lia.
        -- apply W'. apply in_or_app; auto.
      * unfold begun in *. cbn [f_log] in *. rewrite flat_map_app in *. cbn [flat_map fclaimed app] in *.
        rewrite (Nat.min_r (S work) n) by lia. rewrite (Nat.min_r work n) in B by lia. exact B.
      * unfold begun, ended in *. cbn [f_log] in *. rewrite flat_map_app in *. cbn [flat_map fbusy app] in *. exact E.
  - destruct (nth_split2 _ _ _ _ Ei) as (l1 & l2 & -> & ->). rewrite put_split.
    pose proof (W (FReady k it) ltac:(apply in_or_app; right; left; reflexivity)) as [-> Hk].
    constructor; cbn [f_workers f_work f_log].
    + intros w Hw. apply in_app_iff in Hw. destruct Hw as [Hw|[<-|Hw]].
      * apply W. apply in_or_app; auto.
      * split; [reflexivity|lia].
      * apply W. apply in_or_app; right; right; auto.
    + unfold begun in *. cbn [f_log] in *. rewrite !flat_map_app in *. cbn [flat_map fclaimed app] in *.
      etransitivity; [|exact B]. rewrite <- !app_assoc. apply Permutation_app_head. cbn [app].
      apply Permutation_middle.
    + unfold begun, ended in *. cbn [f_log] in *. rewrite !flat_map_app in *. cbn [flat_map fbusy app] in *.
      rewrite app_nil_r. etransitivity; [|apply Permutation_app_tail; exact E].
      rewrite <- !app_assoc. apply Permutation_app_head. apply Permutation_app_head.
      apply Permutation_cons_append.
  - destruct (nth_split2 _ _ _ _ Ei) as (l1 & l2 & -> & ->). rewrite put_split.
    pose proof (W (FBusy k it) ltac:(apply in_or_app; right; left; reflexivity)) as [-> Hk].
    constructor; cbn [f_workers f_work f_log].
    + intros w Hw. apply in_app_iff in Hw. destruct Hw as [Hw|[<-|Hw]].
      * apply W. apply in_or_app; auto.
      * split; [reflexivity|lia].
      * apply W. apply in_or_app; right; right; auto.
    + unfold begun in *. cbn [f_log] in *. rewrite !flat_map_app in *. cbn [flat_map fclaimed app] in *.
      rewrite app_nil_r. exact B.
    + unfold begun, ended in *. cbn [f_log] in *. rewrite !flat_map_app in *. cbn [flat_map fbusy app] in *.
      rewrite app_nil_r. etransitivity; [|exact E]. rewrite <- !app_assoc.
      apply Permutation_app_head. cbn [app]. apply Permutation_middle.
Qed.

Lemma finv_run : forall sched c, finv c -> finv (fold_left (fun c i => fstep n i c) sched c).
Proof. induction sched as [|i s IH]; intros c I; [exact I|]. cbn. apply IH, finv_step, I. Qed.

Lemma fstep_length : forall c i, length (f_workers (fstep n i c)) = length (f_workers c).
Proof.
  intros [work ws log] i. unfold fstep. cbn [f_workers f_work f_log].
  destruct (nth_error ws i) as [[it prev|k it|k it|]|] eqn:Ei; cbn [f_workers]; auto;
    destruct (nth_split2 _ _ _ _ Ei) as (l1 & l2 & -> & ->); rewrite put_split, !app_length; reflexivity.
Qed.
Lemma frun_length : forall sched c,
  length (f_workers (fold_left (fun c i => fstep n i c) sched c)) = length (f_workers c).
Proof.
  induction sched as [|i s IH]; intros c; [reflexivity|]. cbn. rewrite IH. apply fstep_length.
Qed.

Lemma fdone_parts : forall c, fdone c ->
  flat_map fclaimed (f_workers c) = [] /\ flat_map fbusy (f_workers c) = [] /\
  list_sum (map fweight (f_workers c)) = 0.
Proof.
  intros [work ws log]. unfold fdone. cbn [f_workers]. induction ws as [|w ws IH]; intros D.
  - auto.
  - destruct (IH ltac:(intros; apply D; right; assumption)) as (A & B & C).
    rewrite (D w ltac:(left; reflexivity)). cbn. auto.
Qed.

Lemma fdone_all : forall c, finv c -> fdone c -> f_workers c <> [] ->
  Permutation (begun c) (seq 0 n) /\ Permutation (ended c) (seq 0 n).
Proof.
  intros c [W B E] D NE. destruct (fdone_parts c D) as (P1 & P2 & _).
  rewrite P1, app_nil_r in B. rewrite P2, app_nil_r in E.
  assert (n < f_work c).
  { destruct (f_workers c) as [|w ws] eqn:Ew; [congruence|].
    assert (w = FDone) by (apply D; rewrite Ew; left; reflexivity). subst.
    apply (W FDone). left; reflexivity. }
  rewrite Nat.min_r in B by lia. split; [exact B|]. etransitivity; eassumption.
Qed.

(** a thread that has not finished makes a step *)
Definition fmoves (c : fconf) (i : nat) : bool :=
  match nth_error (f_workers c) i with Some FDone | None => false | _ => true end.
Fixpoint fcount (sched : list nat) (c : fconf) : nat :=
  match sched with
  | [] => 0
  | i :: s => (if fmoves c i then 1 else 0) + fcount s (fstep n i c)
  end.

Lemma list_sum_app2 : forall a b, list_sum (a ++ b) = list_sum a + list_sum b.
Proof. intros. apply list_sum_app. Qed.

Lemma fstep_measure : forall c i,
  fmeasure (fstep n i c) + (if fmoves c i then 1 else 0) = fmeasure c.
Proof.
  intros [work ws log] i. unfold fmoves, fstep, fmeasure. cbn [f_workers f_work f_log].
  destruct (nth_error ws i) as [[it prev|k it|k it|]|] eqn:Ei; cbn [f_workers f_work]; try lia;
    destruct (nth_split2 _ _ _ _ Ei) as (l1 & l2 & -> & ->); rewrite put_split, !map_app, !list_sum_app2;
    cbn [map fweight]; unfold list_sum; cbn [fold_right]; fold list_sum.
  - destruct (Nat.ltb_spec work n); cbn [fweight]; lia.
  - lia.
  - lia.
Qed.

Lemma fcount_measure : forall sched c,
  fmeasure (fold_left (fun c i => fstep n i c) sched c) + fcount sched c = fmeasure c.
Proof.
  induction sched as [|i s IH]; intros c; cbn [fold_left fcount]; [lia|].
  pose proof (fstep_measure c i). specialize (IH (fstep n i c)). lia.
Qed.

Lemma finit_measure : forall t, fmeasure (finit t) = 3 * n + t.
Proof.
  intros t. unfold fmeasure, finit. cbn [f_work f_workers].
  rewrite Nat.sub_0_r. f_equal. induction t; cbn; auto.
Qed.

Lemma fmeasure_zero : forall c, list_sum (map fweight (f_workers c)) = 0 -> fdone c.
Proof.
  intros [work ws log]. unfold fdone. cbn [f_workers]. induction ws as [|w ws IH]; intros Z x [].
  - subst x. unfold list_sum in Z; cbn [map fold_right] in Z. destruct w; cbn [fweight] in Z; try lia. reflexivity.
  - apply IH; [|assumption]. unfold list_sum in *; cbn [map fold_right] in Z. lia.
Qed.
End ForEach.

(** ** transform_reduce *)
Section TR.
Variables (A B T : Type).
Variable rng : list A.
Variable map_ : A -> B.
Variable reduce : T -> B -> T.
Variable init : T.
Let tstep := tstep A B T rng map_ reduce.
Let n := length rng.

Definition tpend (w : tworker A B T) : list B :=
  match w with
  | TMap x => [map_ x] | TLock b | TRead b | TWrite b _ => [b] | TFetch | TDone => [] end.
Definition tcrit (w : tworker A B T) : bool :=
  match w with TRead _ | TWrite _ _ => true | _ => false end.
Definition tweight (w : tworker A B T) : nat :=
  match w with TFetch => 1 | TMap _ => 5 | TLock _ => 4 | TRead _ => 3 | TWrite _ _ => 2 | TDone => 0 end.
Definition tmeasure (c : tconf A B T) : nat :=
  5 * (n - t_work c) + list_sum (map tweight (t_workers c)).

Record tinv (c : tconf A B T) : Prop := mkTI {
  ti_done : In TDone (t_workers c) -> n < t_work c;
  ti_lock : forall i w, nth_error (t_workers c) i = Some w -> tcrit w = true -> t_lock c = Some i;
  ti_hold : forall i, t_lock c = Some i -> exists w, nth_error (t_workers c) i = Some w /\ tcrit w = true;
  ti_read : forall b r, In (TWrite b r) (t_workers c) -> r = t_result c;
  ti_merged : exists merged, t_result c = fold_left reduce merged init /\
    Permutation (merged ++ flat_map tpend (t_workers c)) (map map_ (firstn (t_work c) rng)) }.

Lemma tinit_inv : forall t, tinv (tinit init t).
Proof.
  intros t. unfold tinit.
  assert (R : forall w : tworker A B T, In w (repeat TFetch t) -> w = TFetch)
    by (intros w; apply repeat_spec).
  constructor; cbn [t_work t_lock t_result t_workers].
  - intros X. apply R in X. discriminate.
  - intros i w X Y. apply nth_error_In, R in X. subst. discriminate.
  - discriminate.
  - intros b r X. apply R in X. discriminate.
  - exists []. split; [reflexivity|]. cbn.
    replace (flat_map tpend (repeat TFetch t)) with (@nil B); [constructor|].
    clear R. induction t; cbn; auto.
Qed.

Lemma firstn_S_nth : forall X (l : list X) k x, nth_error l k = Some x ->
  firstn (S k) l = firstn k l ++ [x].
Proof.
  induction l as [|y l IH]; intros [|k] x E; cbn in *; try discriminate.
  - inversion E; reflexivity.
  - f_equal. apply IH; assumption.
Qed.

Lemma tinv_step : forall c i, tinv c -> tinv (tstep i c).
Proof.
  intros [work lock res ws] i [D L Hh R M]. unfold tstep, Run_Model.tstep.
  cbn [t_work t_lock t_result t_workers] in *.
  destruct (nth_error ws i) as [[|x|b|b|b r|]|] eqn:Ei; try (constructor; assumption);
    destruct (nth_split2 _ _ _ _ Ei) as (l1 & l2 & -> & ->).
  - (* fetch *)
    rewrite put_split.
    assert (NL : lock <> Some (length l1)).
    { intros ->. destruct (Hh _ eq_refl) as (w & Ew & Cw). rewrite Ei in Ew. inversion Ew; subst; discriminate. }
    assert (LK : forall w', tcrit w' = false -> forall i w, nth_error (l1 ++ w' :: l2) i = Some w ->
                 tcrit w = true -> lock = Some i).
    { intros w' Cw' j w. rewrite (nth_put _ l1 l2 TFetch). destruct (Nat.eqb_spec j (length l1)).
      - intros E C. inversion E; subst. congruence.
      - apply L. }
    assert (HK : forall w' j, lock = Some j -> exists w, nth_error (l1 ++ w' :: l2) j = Some w /\ tcrit w = true).
    { intros w' j Hj. rewrite (nth_put _ l1 l2 TFetch). destruct (Nat.eqb_spec j (length l1)) as [->|]; [congruence|]. apply Hh; assumption. }
    destruct M as (merged & Mr & Mp). rewrite flat_map_app in Mp. cbn [flat_map tpend app] in Mp.
    destruct (nth_error rng work) as [x|] eqn:Ex.
    + constructor; cbn [t_work t_lock t_result t_workers];
        [|apply LK; reflexivity|apply HK| |].
      * rewrite in_mid. intros [X|X]; [discriminate|].
        enough (n < work) by lia. apply D. apply in_mid_r. auto.
      * intros b r. rewrite in_mid. intros [X|X]; [discriminate|]. apply (R b). apply in_mid_r. auto.
      * exists merged. split; [assumption|]. rewrite flat_map_app. cbn [flat_map tpend app].
        rewrite (firstn_S_nth _ rng work x Ex), map_app. cbn [map].
        etransitivity; [|apply Permutation_app_tail; exact Mp].
        rewrite <- !app_assoc. apply Permutation_app_head, Permutation_app_head.
        apply Permutation_cons_append.
    + apply nth_error_None in Ex.
      constructor; cbn [t_work t_lock t_result t_workers];
        [|apply LK; reflexivity|apply HK| |].
      * intros _. subst n. lia.
      * intros b r. rewrite in_mid. intros [X|X]; [discriminate|]. apply (R b). apply in_mid_r. auto.
      * exists merged. split; [assumption|]. rewrite flat_map_app. cbn [flat_map tpend app].
        rewrite firstn_all2 in * by lia. exact Mp.
  - (* map *)
    rewrite put_split.
    constructor; cbn [t_work t_lock t_result t_workers]; auto.
    + rewrite in_mid. intros [X|X]; [discriminate|]. apply D. apply in_mid_r; auto.
    + intros j w. rewrite (nth_put _ l1 l2 (TMap x)). destruct (Nat.eqb_spec j (length l1)).
      * intros E C. inversion E; subst. discriminate.
      * apply L.
    + intros j Hj. destruct (Hh j Hj) as (w & Ew & Cw). rewrite (nth_put _ l1 l2 (TMap x)).
      destruct (Nat.eqb_spec j (length l1)) as [->|]; [|eauto].
      rewrite Ei in Ew. inversion Ew; subst; discriminate.
    + intros b r. rewrite in_mid. intros [X|X]; [discriminate|]. apply (R b). apply in_mid_r. auto.
    + destruct M as (merged & Mr & Mp). exists merged. split; [assumption|].
      rewrite flat_map_app in *. cbn [flat_map tpend app] in *. exact Mp.
  - (* lock *)
    destruct lock as [j|] eqn:El; [constructor; cbn [t_work t_lock t_result t_workers]; assumption|].
    rewrite put_split.
    constructor; cbn [t_work t_lock t_result t_workers].
    + rewrite in_mid. intros [X|X]; [discriminate|]. apply D. apply in_mid_r; auto.
    + intros j w. rewrite (nth_put _ l1 l2 (TLock b)). destruct (Nat.eqb_spec j (length l1)).
      * subst; reflexivity.
      * intros E C. specialize (L _ _ E C). discriminate.
    + intros j Hj. inversion Hj; subst j. rewrite (nth_put _ l1 l2 (TLock b)), Nat.eqb_refl. eauto.
    + intros b0 r. rewrite in_mid. intros [X|X]; [discriminate|]. apply (R b0). apply in_mid_r. auto.
    + destruct M as (merged & Mr & Mp). exists merged. split; [assumption|].
      rewrite flat_map_app in *. cbn [flat_map tpend app] in *. exact Mp.
  - (* read *)
    rewrite put_split.
    assert (lock = Some (length l1)) as -> by (eapply L; [exact Ei|reflexivity]).
    constructor; cbn [t_work t_lock t_result t_workers].
    + rewrite in_mid. intros [X|X]; [discriminate|]. apply D. apply in_mid_r; auto.
    + intros j w. rewrite (nth_put _ l1 l2 (TRead b)). destruct (Nat.eqb_spec j (length l1)).
      * subst; reflexivity.
      * apply L.
    + intros j Hj. inversion Hj; subst j. rewrite (nth_put _ l1 l2 (TRead b)), Nat.eqb_refl. eauto.
    + intros b0 r. rewrite in_mid. intros [X|X]; [congruence|]. apply (R b0). apply in_mid_r. auto.
    + destruct M as (merged & Mr & Mp). exists merged. split; [assumption|].
      rewrite flat_map_app in *. cbn [flat_map tpend app] in *. exact Mp.
  - (* write *)
    rewrite put_split.
    assert (lock = Some (length l1)) as -> by (eapply L; [exact Ei|reflexivity]).
    assert (r = res) as -> by (apply (R b); apply in_mid_r; auto).
    constructor; cbn [t_work t_lock t_result t_workers].
    + rewrite in_mid. intros [X|X]; [discriminate|]. apply D. apply in_mid_r; auto.
    + intros j w. rewrite (nth_put _ l1 l2 (TWrite b res)). destruct (Nat.eqb_spec j (length l1)) as [->|N].
      * intros E C. inversion E; subst; discriminate.
      * intros E C. specialize (L _ _ E C). congruence.
    + discriminate.
    + intros b0 r. rewrite in_mid. intros [X|X]; [discriminate|].
      exfalso. apply In_nth_error in X. destruct X as [j X].
      assert (Y : exists j', j' <> length l1 /\ nth_error (l1 ++ TWrite b res :: l2) j' = Some (TWrite b0 r)).
      { destruct (Nat.lt_ge_cases j (length l1)).
        - exists j. split; [lia|]. rewrite nth_error_app1 in * by lia. exact X.
        - exists (S j). split; [lia|]. rewrite nth_error_app2 in * by lia.
          replace (S j - length l1) with (S (j - length l1)) by lia. exact X. }
      destruct Y as (j' & Nj & Ej). specialize (L _ _ Ej eq_refl). congruence.
    + destruct M as (merged & Mr & Mp). exists (merged ++ [b]). split.
      * rewrite fold_left_app. cbn. congruence.
      * rewrite flat_map_app in *. cbn [flat_map tpend app] in *.
        etransitivity; [|exact Mp]. rewrite <- !app_assoc. apply Permutation_app_head.
        cbn [app]. apply Permutation_middle.
Qed.

Lemma tinv_run : forall sched c, tinv c -> tinv (fold_left (fun c i => tstep i c) sched c).
Proof. induction sched as [|i s IH]; intros c I; [exact I|]. cbn. apply IH, tinv_step, I. Qed.

Lemma tstep_length : forall c i, length (t_workers (tstep i c)) = length (t_workers c).
Proof.
  intros [work lock res ws] i. unfold tstep, Run_Model.tstep. cbn [t_work t_lock t_result t_workers].
  destruct (nth_error ws i) as [[|x|b|b|b r|]|] eqn:Ei; cbn [t_workers]; auto;
    destruct (nth_split2 _ _ _ _ Ei) as (l1 & l2 & -> & ->); try destruct lock; cbn [t_workers];
    rewrite ?put_split, ?app_length; reflexivity.
Qed.
Lemma trun_length : forall sched c,
  length (t_workers (fold_left (fun c i => tstep i c) sched c)) = length (t_workers c).
Proof. induction sched as [|i s IH]; intros c; [reflexivity|]. cbn. rewrite IH. apply tstep_length. Qed.

Lemma tdone_merged : forall c, tinv c -> tdone c -> t_workers c <> [] ->
  exists merged, Permutation merged (map map_ rng) /\ t_result c = fold_left reduce merged init.
Proof.
  intros c [D L Hh R M] Dn NE. destruct M as (merged & Mr & Mp). exists merged. split; [|exact Mr].
  assert (flat_map tpend (t_workers c) = []) as P.
  { clear - Dn. unfold tdone in Dn. induction (t_workers c) as [|w ws IH]; [reflexivity|].
    cbn. rewrite IH by (intros; apply Dn; right; assumption).
    rewrite (Dn w ltac:(left; reflexivity)). reflexivity. }
  assert (n < t_work c).
  { apply D. unfold tdone in Dn. clear - Dn NE. destruct (t_workers c) as [|w ws]; [congruence|].
    assert (w = TDone) as -> by (apply Dn; left; reflexivity). left; reflexivity. }
  rewrite P, app_nil_r, firstn_all2 in Mp by (subst n; lia). exact Mp.
Qed.

Definition tmoves (c : tconf A B T) (i : nat) : bool :=
  match nth_error (t_workers c) i with
  | None | Some TDone => false
  | Some (TLock _) => match t_lock c with None => true | Some _ => false end
  | _ => true
  end.
Fixpoint tcount (sched : list nat) (c : tconf A B T) : nat :=
  match sched with
  | [] => 0
  | i :: s => (if tmoves c i then 1 else 0) + tcount s (tstep i c)
  end.

Lemma tstep_measure : forall c i,
  tmeasure (tstep i c) + (if tmoves c i then 1 else 0) = tmeasure c.
Proof.
  intros [work lock res ws] i. unfold tmoves, tstep, Run_Model.tstep, tmeasure.
  cbn [t_work t_lock t_result t_workers].
  destruct (nth_error ws i) as [[|x|b|b|b r|]|] eqn:Ei; cbn [t_workers t_work]; try lia;
    try (destruct lock; cbn [t_workers t_work]; [lia|]);
    destruct (nth_split2 _ _ _ _ Ei) as (l1 & l2 & -> & ->); rewrite put_split, !map_app, !list_sum_app;
    cbn [map tweight]; unfold list_sum; cbn [fold_right]; fold list_sum; try lia.
  destruct (nth_error rng work) eqn:Ex; cbn [tweight].
  - assert (work < n) by (apply nth_error_Some; congruence). lia.
  - apply nth_error_None in Ex. subst n. lia.
Qed.
Lemma tcount_measure : forall sched c,
  tmeasure (fold_left (fun c i => tstep i c) sched c) + tcount sched c = tmeasure c.
Proof.
  induction sched as [|i s IH]; intros c; cbn [fold_left tcount]; [lia|].
  pose proof (tstep_measure c i). specialize (IH (tstep i c)). lia.
Qed.
Lemma tinit_measure : forall t, tmeasure (tinit init t) = 5 * n + t.
Proof.
  intros t. unfold tmeasure, tinit. cbn [t_work t_workers].
  rewrite Nat.sub_0_r. f_equal. induction t; cbn; auto.
Qed.

Lemma tprogress : forall c, tinv c -> tdone c \/ exists i, tmoves c i = true.
Proof.
  intros c [D L Hh R M]. destruct (t_lock c) as [i|] eqn:El.
  - right. exists i. unfold tmoves. destruct (Hh i eq_refl) as (w & -> & Cw).
    destruct w; try discriminate; reflexivity.
  - assert (X : (forall w, In w (t_workers c) -> w = TDone) \/ exists i w, nth_error (t_workers c) i = Some w /\ w <> TDone).
    { clear. induction (t_workers c) as [|w ws IH]; [left; intros w []|].
      destruct w; try (right; exists 0; eexists; split; [reflexivity|discriminate]).
      destruct IH as [IH|(i & w & E & N)].
      - left. intros w [<-|Hw]; [reflexivity|auto].
      - right. exists (S i), w. auto. }
    destruct X as [X|(i & w & E & N)]; [left; exact X|].
    right. exists i. unfold tmoves. rewrite E, El. destruct w; try reflexivity. congruence.
Qed.

(** order of merging does not matter for a reduction that commutes *)
Lemma fold_left_perm : (forall t a b, reduce (reduce t a) b = reduce (reduce t b) a) ->
  forall l1 l2, Permutation l1 l2 -> forall t, fold_left reduce l1 t = fold_left reduce l2 t.
Proof.
  intros Hc l1 l2 P. induction P; intros t; cbn; auto.
  - rewrite Hc. reflexivity.
  - rewrite IHP1. apply IHP2.
Qed.
End TR.

(** ** Singleton *)
Section Single.
Variable dc : bool.

Definition xcrit (a : act) : bool := match a with XMake _ | XAssign _ _ => true | _ => false end.

Record xinv (c : xconf) : Prop := mkXI {
  xi_crit : forall i a, nth_error (x_acts c) i = Some a -> xcrit a = true ->
    x_lock c = Some i /\ x_ptr c = None;
  xi_hold : forall i, x_lock c = Some i -> exists a, nth_error (x_acts c) i = Some a /\ xcrit a = true;
  xi_null : x_ptr c = None -> x_lock c = None -> x_made c = [];
  xi_make : forall arg, In (XMake arg) (x_acts c) -> x_made c = [];
  xi_assign : forall arg o, In (XAssign arg o) (x_acts c) -> x_made c = [arg] /\ o = 0;
  xi_ptr : forall o, x_ptr c = Some o -> o = 0 /\ length (x_made c) = 1 /\ x_lock c = None;
  xi_got : forall arg o m, In (XGot arg o m) (x_acts c) -> x_ptr c = Some o /\ (m = true -> x_made c = [arg]);
  xi_threw : In XThrew (x_acts c) -> dc = false \/ x_ptr c <> None;
  xi_once : forall i j a b, i <> j -> nth_error (x_acts c) i = Some a -> nth_error (x_acts c) j = Some b ->
    (xcrit a = true \/ exists arg o, a = XGot arg o true) -> (xcrit b = true \/ exists arg o, b = XGot arg o true) -> False }.

Lemma xinit_inv : forall calls, Forall is_call calls -> xinv (xinit calls).
Proof.
  intros calls F. rewrite Forall_forall in F.
  assert (N : forall a, In a calls -> a = XInstance \/ exists x, a = XSet x).
  { intros a Ha. specialize (F a Ha). destruct a; cbn in F; try contradiction; eauto. }
  constructor; cbn [x_acts x_ptr x_lock x_made xinit].
  - intros i a E C. apply nth_error_In, N in E. destruct E as [->|[x ->]]; discriminate.
  - discriminate.
  - reflexivity.
  - intros arg H. apply N in H. destruct H as [H|[x H]]; discriminate.
  - intros arg o H. apply N in H. destruct H as [H|[x H]]; discriminate.
  - discriminate.
  - intros arg o m H. apply N in H. destruct H as [H|[x H]]; discriminate.
  - intros H. apply N in H. destruct H as [H|[x H]]; discriminate.
  - intros i j a b _ Ea _ Ha _. apply nth_error_In, N in Ea.
    destruct Ea as [->|[x ->]]; destruct Ha as [Ha|(arg & o & Ha)]; discriminate.
Qed.

Lemma xinv_step : forall c i, xinv c -> xinv (xstep dc i c).
Proof.
  intros [ptr lock made acts] i [CR HO NU MK AS PT GO TH ON]. unfold xstep.
  cbn [x_acts x_ptr x_lock x_made] in *.
  destruct (nth_error acts i) as [a|] eqn:Ei; [|constructor; assumption].
  destruct (nth_split2 _ _ _ _ Ei) as (l1 & l2 & -> & ->).
  (* replacing a non-critical, not-maker activity by a new one *)
  assert (REP : forall a', xcrit a = false -> (forall arg o, a <> XGot arg o true) ->
     xcrit a' = false -> (forall arg o, a' <> XGot arg o true) ->
     (forall arg o m, a' = XGot arg o m -> ptr = Some o) ->
     (a' = XThrew -> dc = false \/ ptr <> None) ->
     xinv (mkX ptr lock made (l1 ++ a' :: l2))).
  { intros a' C NG C' NG' GO' TH'. constructor; cbn [x_acts x_ptr x_lock x_made]; auto.
    - intros j b. rewrite (nth_put _ l1 l2 a). destruct (Nat.eqb_spec j (length l1)).
      + intros E Cb. inversion E; subst; congruence.
      + apply CR.
    - intros j Hj. destruct (HO j Hj) as (b & Eb & Cb). rewrite (nth_put _ l1 l2 a).
      destruct (Nat.eqb_spec j (length l1)) as [->|]; [|eauto]. rewrite Ei in Eb. inversion Eb; subst; congruence.
    - intros arg. rewrite in_mid. intros [X|X]; [subst a'; discriminate|]. apply (MK arg). apply in_mid_r; auto.
    - intros arg o. rewrite in_mid. intros [X|X]; [subst a'; discriminate|]. apply AS. apply in_mid_r; auto.
    - intros arg o m. rewrite in_mid. intros [X|X].
      + split; [apply (GO' arg o m); auto|]. intros ->. exfalso. apply (NG' arg o). auto.
      + apply GO. apply in_mid_r; auto.
    - rewrite in_mid. intros [X|X]; [auto|]. apply TH. apply in_mid_r; auto.
    - intros i j b b' Nij. rewrite (nth_put _ l1 l2 a _ i), (nth_put _ l1 l2 a _ j).
      destruct (Nat.eqb_spec i (length l1)), (Nat.eqb_spec j (length l1)); try (subst; congruence).
      + intros E _ [X|(arg & o & X)] _; inversion E; subst; [congruence|eapply NG'; reflexivity].
      + intros _ E _ [X|(arg & o & X)]; inversion E; subst; [congruence|eapply NG'; reflexivity].
      + apply ON; assumption. }
  destruct a as [|x| |arg|arg o|arg o m|].
  - rewrite put_split. apply REP; try discriminate; destruct ptr as [o|]; try destruct dc; try discriminate; try reflexivity;
      first [congruence|auto].
  - destruct lock as [h|]; [constructor; cbn [x_acts x_ptr x_lock x_made]; assumption|].
    destruct ptr as [o|]; rewrite put_split.
    + apply REP; try discriminate; try reflexivity. intros _. right. discriminate.
    + constructor; cbn [x_acts x_ptr x_lock x_made].
      * intros j b. rewrite (nth_put _ l1 l2 (XSet x)). destruct (Nat.eqb_spec j (length l1)) as [->|].
        -- auto.
        -- intros E C. destruct (CR _ _ E C). discriminate.
      * intros j Hj. inversion Hj; subst j. rewrite (nth_put _ l1 l2 (XSet x)), Nat.eqb_refl. eauto.
      * discriminate.
      * intros arg. rewrite in_mid. intros [X|X]; [auto|]. apply (MK arg). apply in_mid_r; auto.
      * intros arg o. rewrite in_mid. intros [X|X]; [discriminate|]. apply AS. apply in_mid_r; auto.
      * discriminate.
      * intros arg o m. rewrite in_mid. intros [X|X]; [discriminate|].
        destruct (GO arg o m ltac:(apply in_mid_r; auto)). discriminate.
      * rewrite in_mid. intros [X|X]; [discriminate|]. apply TH. apply in_mid_r; auto.
      * intros i j b b' Nij. rewrite (nth_put _ l1 l2 (XSet x) _ i), (nth_put _ l1 l2 (XSet x) _ j).
        destruct (Nat.eqb_spec i (length l1)), (Nat.eqb_spec j (length l1)); try (subst; congruence).
        -- intros _ E _ [X|(arg & o & ->)]; [destruct (CR _ _ E X); discriminate|].
           apply nth_error_In, GO in E. destruct E; discriminate.
        -- intros E _ [X|(arg & o & ->)] _; [destruct (CR _ _ E X); discriminate|].
           apply nth_error_In, GO in E. destruct E; discriminate.
        -- apply ON; assumption.
  - destruct lock as [h|]; [constructor; cbn [x_acts x_ptr x_lock x_made]; assumption|].
    destruct ptr as [o|]; rewrite put_split.
    + apply REP; try discriminate; try reflexivity. intros arg o0 m X. congruence.
    + constructor; cbn [x_acts x_ptr x_lock x_made].
      * intros j b. rewrite (nth_put _ l1 l2 XDefault). destruct (Nat.eqb_spec j (length l1)) as [->|].
        -- auto.
        -- intros E C. destruct (CR _ _ E C). discriminate.
      * intros j Hj. inversion Hj; subst j. rewrite (nth_put _ l1 l2 XDefault), Nat.eqb_refl. eauto.
      * discriminate.
      * intros arg. rewrite in_mid. intros [X|X]; [auto|]. apply (MK arg). apply in_mid_r; auto.
      * intros arg o. rewrite in_mid. intros [X|X]; [discriminate|]. apply AS. apply in_mid_r; auto.
      * discriminate.
      * intros arg o m. rewrite in_mid. intros [X|X]; [discriminate|].
        destruct (GO arg o m ltac:(apply in_mid_r; auto)). discriminate.
      * rewrite in_mid. intros [X|X]; [discriminate|]. apply TH. apply in_mid_r; auto.
      * intros i j b b' Nij. rewrite (nth_put _ l1 l2 XDefault _ i), (nth_put _ l1 l2 XDefault _ j).
        destruct (Nat.eqb_spec i (length l1)), (Nat.eqb_spec j (length l1)); try (subst; congruence).
        -- intros _ E _ [X|(arg & o & ->)]; [destruct (CR _ _ E X); discriminate|].
           apply nth_error_In, GO in E. destruct E; discriminate.
        -- intros E _ [X|(arg & o & ->)] _; [destruct (CR _ _ E X); discriminate|].
           apply nth_error_In, GO in E. destruct E; discriminate.
        -- apply ON; assumption.
  - (* construction *)
    rewrite put_split. destruct (CR _ _ Ei eq_refl) as [-> ->].
    assert (made = []) as -> by (apply (MK arg); apply in_mid_r; auto).
    cbn [app length].
    constructor; cbn [x_acts x_ptr x_lock x_made].
    + intros j b. rewrite (nth_put _ l1 l2 (XMake arg)). destruct (Nat.eqb_spec j (length l1)) as [->|]; [auto|apply CR].
    + intros j Hj. inversion Hj; subst j. rewrite (nth_put _ l1 l2 (XMake arg)), Nat.eqb_refl. eauto.
    + discriminate.
    + intros arg'. rewrite in_mid. intros [X|X]; [discriminate|].
      exfalso. apply in_app_iff in X.
      assert (exists j, j <> length l1 /\ nth_error (l1 ++ XMake arg :: l2) j = Some (XMake arg')) as (j & Nj & Ej).
      { destruct X as [X|X]; apply In_nth_error in X; destruct X as [j X].
        - exists j. assert (j < length l1) by (apply nth_error_Some; congruence). split; [lia|]. rewrite nth_error_app1 by lia. exact X.
        - exists (length l1 + S j). split; [lia|]. rewrite nth_error_app2 by lia.
          replace (length l1 + S j - length l1) with (S j) by lia. exact X. }
      destruct (CR _ _ Ej eq_refl). congruence.
    + intros arg' o. rewrite in_mid. intros [X|X]; [inversion X; auto|].
      destruct (AS arg' o ltac:(apply in_mid_r; auto)); discriminate.
    + discriminate.
    + intros arg' o m. rewrite in_mid. intros [X|X]; [discriminate|].
      destruct (GO arg' o m ltac:(apply in_mid_r; auto)). discriminate.
    + rewrite in_mid. intros [X|X]; [discriminate|]. apply TH. apply in_mid_r; auto.
    + intros i j b b' Nij. rewrite (nth_put _ l1 l2 (XMake arg) _ i), (nth_put _ l1 l2 (XMake arg) _ j).
      destruct (Nat.eqb_spec i (length l1)), (Nat.eqb_spec j (length l1)); try (subst; congruence).
      * intros _ E _ Y. subst i. eapply (ON (length l1) j); eauto.
      * intros E _ Y _. subst j. eapply (ON i (length l1)); eauto.
      * apply ON; assumption.
  - (* assignment *)
    rewrite put_split. destruct (CR _ _ Ei eq_refl) as [-> ->].
    destruct (AS arg o ltac:(apply in_mid_r; auto)) as [-> ->].
    assert (OTH : forall j b, j <> length l1 -> nth_error (l1 ++ XAssign arg 0 :: l2) j = Some b -> xcrit b = false).
    { intros j b Nj E. destruct (xcrit b) eqn:C; [|reflexivity]. destruct (CR _ _ E C). congruence. }
    assert (OTH2 : forall b, In b (l1 ++ l2) -> xcrit b = false).
    { intros b X. apply in_app_iff in X.
      assert (exists j, j <> length l1 /\ nth_error (l1 ++ XAssign arg 0 :: l2) j = Some b) as (j & Nj & Ej).
      { destruct X as [X|X]; apply In_nth_error in X; destruct X as [j X].
        - exists j. assert (j < length l1) by (apply nth_error_Some; congruence). split; [lia|]. rewrite nth_error_app1 by lia. exact X.
        - exists (length l1 + S j). split; [lia|]. rewrite nth_error_app2 by lia.
          replace (length l1 + S j - length l1) with (S j) by lia. exact X. }
      eauto. }
    constructor; cbn [x_acts x_ptr x_lock x_made].
    + intros j b. rewrite (nth_put _ l1 l2 (XAssign arg 0)). destruct (Nat.eqb_spec j (length l1)) as [->|N].
      * intros E C. inversion E; subst; discriminate.
      * intros E C. rewrite (OTH _ _ N E) in C. discriminate.
    + discriminate.
    + discriminate.
    + intros arg'. rewrite in_mid. intros [X|X]; [discriminate|]. apply OTH2 in X. discriminate.
    + intros arg' o. rewrite in_mid. intros [X|X]; [discriminate|]. apply OTH2 in X. discriminate.
    + intros o X. inversion X; auto.
    + intros arg' o m. rewrite in_mid. intros [X|X]; [inversion X; auto|].
      destruct (GO arg' o m ltac:(apply in_mid_r; auto)). discriminate.
    + rewrite in_mid. intros [X|X]; [discriminate|]. right; discriminate.
    + intros i j b b' Nij. rewrite (nth_put _ l1 l2 (XAssign arg 0) _ i), (nth_put _ l1 l2 (XAssign arg 0) _ j).
      destruct (Nat.eqb_spec i (length l1)), (Nat.eqb_spec j (length l1)); try (subst; congruence).
      * intros _ E _ Y. subst i. eapply (ON (length l1) j); eauto.
      * intros E _ Y _. subst j. eapply (ON i (length l1)); eauto.
      * apply ON; assumption.
  - constructor; assumption.
  - constructor; assumption.
Qed.

Lemma xinv_run : forall sched c, xinv c -> xinv (fold_left (fun c i => xstep dc i c) sched c).
Proof. induction sched as [|i s IH]; intros c I; [exact I|]. cbn. apply IH, xinv_step, I. Qed.

Definition xfinished (a : act) : bool :=
  match a with XGot _ _ _ | XThrew => true | _ => false end.
Definition xmoves (c : xconf) (i : nat) : bool :=
  match nth_error (x_acts c) i with
  | None => false
  | Some (XSet _) | Some XDefault => match x_lock c with None => true | Some _ => false end
  | Some a => negb (xfinished a)
  end.

Lemma xprogress : forall c, xinv c ->
  (forall a, In a (x_acts c) -> xfinished a = true) \/ exists i, xmoves c i = true.
Proof.
  intros c I. destruct (x_lock c) as [i|] eqn:El.
  - right. exists i. destruct (xi_hold c I i El) as (a & E & C). unfold xmoves. rewrite E.
    destruct a; try discriminate; reflexivity.
  - assert (X : (forall a, In a (x_acts c) -> xfinished a = true) \/
                exists i a, nth_error (x_acts c) i = Some a /\ xfinished a = false).
    { clear. induction (x_acts c) as [|a l IH]; [left; intros a []|].
      destruct (xfinished a) eqn:F; [|right; exists 0, a; auto].
      destruct IH as [IH|(i & b & E & N)].
      - left. intros b [<-|Hb]; auto.
      - right. exists (S i), b. auto. }
    destruct X as [X|(i & a & E & N)]; [left; exact X|].
    right. exists i. unfold xmoves. rewrite E, El. destruct a; try reflexivity; discriminate.
Qed.

Definition xweight (a : act) : nat :=
  match a with XInstance => 4 | XSet _ => 3 | XDefault => 3 | XMake _ => 2 | XAssign _ _ => 1
             | XGot _ _ _ => 0 | XThrew => 0 end.
Definition xmeasure (c : xconf) : nat := list_sum (map xweight (x_acts c)).
Lemma xstep_measure : forall c i, xmoves c i = true -> xmeasure (xstep dc i c) < xmeasure c.
Proof.
  intros [ptr lock made acts] i. unfold xmoves, xstep, xmeasure. cbn [x_acts x_ptr x_lock x_made].
  destruct (nth_error acts i) as [a|] eqn:Ei; [|discriminate].
  destruct (nth_split2 _ _ _ _ Ei) as (l1 & l2 & -> & ->).
  intros X.
  destruct a as [|x| |arg|arg o|arg o m|]; try discriminate X;
    try (destruct lock; [discriminate X|]); try destruct ptr; try destruct dc; cbn [x_acts];
    rewrite put_split, !map_app, !list_sum_app; cbn [map xweight]; unfold list_sum; cbn [fold_right]; lia.
Qed.
Lemma xstep_stay : forall c i, xmoves c i = false -> xstep dc i c = c.
Proof.
  intros [ptr lock made acts] i. unfold xmoves, xstep. cbn [x_acts x_ptr x_lock x_made].
  destruct (nth_error acts i) as [a|] eqn:Ei; [|reflexivity].
  destruct a; try discriminate; try reflexivity; destruct lock; try discriminate; reflexivity.
Qed.
End Single.
