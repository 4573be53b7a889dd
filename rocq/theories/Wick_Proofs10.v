(** Loops: following the contractions through the columns. *)
From Coq Require Import List NArith ZArith Bool Arith Lia Permutation.
From Verif Require Import Wick_Model Wick_Spec Wick_Proofs1 Wick_Proofs2 Wick_Proofs3 Wick_Proofs4 Wick_Proofs5 Wick_Proofs6.
Import ListNotations.

(** * Sums over labellings *)
Section Csum.
  Context {X : Type}.
  Fixpoint csum (ls : list X) (f : list (X * bool) -> nat) : nat :=
    match ls with
    | [] => f []
    | x :: ls' => csum ls' (fun l => f ((x, true) :: l)) + csum ls' (fun l => f ((x, false) :: l))
    end.

  Lemma csum_ext ls : forall f g, (forall l, map fst l = ls -> f l = g l) -> csum ls f = csum ls g.
  Proof.
    induction ls as [|x ls IH]; intros f g H; [apply H; reflexivity|]. cbn. f_equal; apply IH; intros l Hl; apply H; cbn; congruence.
  Qed.
  Lemma csum_add ls : forall f g, csum ls (fun l => f l + g l) = csum ls f + csum ls g.
  Proof. induction ls as [|x ls IH]; intros f g; [reflexivity|]. cbn. rewrite (IH (fun l => f ((x, true) :: l)) (fun l => g ((x, true) :: l))), (IH (fun l => f ((x, false) :: l)) (fun l => g ((x, false) :: l))). lia. Qed.
  Lemma csum_app a : forall b f, csum (a ++ b) f = csum a (fun la => csum b (fun lb => f (la ++ lb))).
  Proof. induction a as [|x a IH]; intros b f; [reflexivity|]. cbn. rewrite !IH. reflexivity. Qed.
  Lemma csum_const ls c : csum ls (fun _ => c) = c * 2 ^ length ls.
  Proof. induction ls as [|x ls IH]; cbn; [lia|]. rewrite IH. lia. Qed.
  Lemma csum_filter ls : forall P, length (filter P (labellings ls)) = csum ls (fun l => if P l then 1 else 0).
  Proof.
    induction ls as [|x ls IH]; intros P; cbn; [destruct (P []); reflexivity|].
    rewrite filter_app, app_length. rewrite <- !IH.
    assert (E : forall b l, length (filter P (map (cons (x, b)) l)) = length (filter (fun l => P ((x, b) :: l)) l)).
    { intros b l. induction l as [|y l IHl]; [reflexivity|]. cbn. destruct (P ((x, b) :: y)); cbn; lia. }
    rewrite !E. reflexivity.
  Qed.
End Csum.

Section Loops.
  Context {I : Type}.
  Variable ieqb : I -> I -> bool.
  Hypothesis ieqb_spec : forall i j, ieqb i j = true <-> i = j.
  Notation op := (op I).
  Notation col := (I * I)%type.
  Notation lab := (list (col * bool)).
  Notation spin_at := (spin_at ieqb).
  Notation same_spin := (same_spin ieqb).

  Lemma ieqb_refl i : ieqb i i = true. Proof. apply ieqb_spec. reflexivity. Qed.
  Lemma ieqb_neq i j : i <> j -> ieqb i j = false.
  Proof. intros H. destruct (ieqb i j) eqn:E; [|reflexivity]. apply ieqb_spec in E. contradiction. Qed.

  Lemma spin_at_app pick (a b : lab) i : spin_at pick (a ++ b) i = match spin_at pick a i with Some s => Some s | None => spin_at pick b i end.
  Proof.
    unfold Wick_Spec.spin_at. induction a as [|p a IH]; [reflexivity|]. cbn. destruct (ieqb (pick (fst p)) i); [reflexivity|exact IH].
  Qed.
  Lemma spin_at_none pick (a : lab) i : ~ In i (map pick (map fst a)) -> spin_at pick a i = None.
  Proof.
    unfold Wick_Spec.spin_at. induction a as [|p a IH]; intros H; [reflexivity|]. cbn in *.
    rewrite ieqb_neq by (intros E; apply H; left; exact E). apply IH. intros Hi. apply H. right. exact Hi.
  Qed.
  Lemma spin_at_hit pick (x : col) s (b : lab) : spin_at pick ((x, s) :: b) (pick x) = Some s.
  Proof. unfold Wick_Spec.spin_at. cbn. rewrite ieqb_refl. reflexivity. Qed.
  Lemma spin_at_miss pick (x : col) s (b : lab) i : pick x <> i -> spin_at pick ((x, s) :: b) i = spin_at pick b i.
  Proof. intros H. unfold Wick_Spec.spin_at. cbn. rewrite ieqb_neq by exact H. reflexivity. Qed.

  Definition weight (links : list (I * I)) (l : lab) : nat := if forallb (same_spin l) links then 1 else 0.
  Lemma weight_cons ac links l : weight (ac :: links) l = if same_spin l ac then weight links l else 0.
  Proof. unfold weight. cbn. destruct (same_spin l ac); reflexivity. Qed.
  Lemma weight_ext links l l' : (forall ac, In ac links -> same_spin l ac = same_spin l' ac) -> weight links l = weight links l'.
  Proof.
    intros H. unfold weight. replace (forallb (same_spin l) links) with (forallb (same_spin l') links); [reflexivity|].
    induction links as [|ac links IH]; [reflexivity|]. cbn. rewrite (H ac (or_introl eq_refl)), IH; [reflexivity|]. intros; apply H; right; auto.
  Qed.
  Lemma labellings_csum cols links : spin_labellings ieqb cols links = csum cols (weight links).
  Proof. unfold spin_labellings. apply csum_filter. Qed.

  Lemma nodup_app_inv {Y} (a b : list Y) : NoDup (a ++ b) -> NoDup a /\ NoDup b /\ (forall x, In x a -> ~ In x b).
  Proof.
    induction a as [|x a IH]; intros H; [split; [constructor|split; [exact H|intros ? []]]|].
    cbn in H. apply NoDup_cons_iff in H. destruct H as (Hx & H). destruct (IH H) as (H1 & H2 & H3). rewrite in_app_iff in Hx.
    split; [constructor; tauto|]. split; [exact H2|]. intros y [<-|Hy]; [tauto|auto].
  Qed.

  (** one column closed by a contraction *)
  Lemma loop_closed A x B a c links : a = snd x -> c = fst x -> NoDup (map fst (A ++ x :: B)) -> NoDup (map snd (A ++ x :: B)) ->
    ~ In a (map fst links) -> ~ In c (map snd links) ->
    csum (A ++ x :: B) (weight ((a, c) :: links)) = 2 * csum (A ++ B) (weight links).
  Proof.
    intros -> -> Hf Hs Ha Hc. rewrite !csum_app. cbn [csum].
    rewrite csum_add. rewrite map_app in Hf, Hs. cbn [map] in Hf, Hs. apply NoDup_remove in Hf. apply NoDup_remove in Hs.
    rewrite <- map_app in Hf, Hs. destruct Hf as (_ & Hf), Hs as (_ & Hs).
    assert (E : forall s, csum A (fun la => csum B (fun l => weight ((snd x, fst x) :: links) (la ++ (x, s) :: l))) =
                          csum A (fun la => csum B (fun l => weight links (la ++ l)))).
    { intros s. apply csum_ext. intros la Hla. apply csum_ext. intros lb Hlb. rewrite weight_cons.
      assert (Na : spin_at snd la (snd x) = None) by (apply spin_at_none; rewrite Hla; intros Hin; apply Hs; rewrite map_app; apply in_app_iff; auto).
      assert (Nc : spin_at fst la (fst x) = None) by (apply spin_at_none; rewrite Hla; intros Hin; apply Hf; rewrite map_app; apply in_app_iff; auto).
      unfold Wick_Spec.same_spin at 1. cbn [fst snd]. rewrite !spin_at_app, Na, Nc, !spin_at_hit, Bool.eqb_reflx.
      apply weight_ext. intros [a' c'] Hin. unfold Wick_Spec.same_spin. cbn [fst snd]. rewrite !spin_at_app.
      rewrite !spin_at_miss; [reflexivity| |].
      - intros E. apply Hc. rewrite E. apply (in_map snd) in Hin. exact Hin.
      - intros E. apply Ha. rewrite E. apply (in_map fst) in Hin. exact Hin. }
    rewrite !E. lia.
  Qed.

  (** two columns merged by a contraction: the annihilator stands in the first *)
  Lemma merged A x B y C z a c links :
    ((a = snd x /\ c = fst y /\ z = (fst x, snd y)) \/ (a = snd y /\ c = fst x /\ z = (fst y, snd x))) ->
    NoDup (map fst (A ++ x :: B ++ y :: C)) -> NoDup (map snd (A ++ x :: B ++ y :: C)) ->
    ~ In a (map fst links) -> ~ In c (map snd links) ->
    csum (A ++ x :: B ++ y :: C) (weight ((a, c) :: links)) = csum (A ++ z :: B ++ C) (weight links).
  Proof.
    intros Hcase Hf Hs Ha Hc. rewrite !csum_app. cbn [csum]. apply csum_ext. intros la Hla. rewrite !csum_app. cbn [csum].
    assert (Dist : forall (pick : col -> I), NoDup (map pick (A ++ x :: B ++ y :: C)) ->
      ~ In (pick x) (map pick A) /\ ~ In (pick y) (map pick A) /\ ~ In (pick x) (map pick B) /\ ~ In (pick y) (map pick B) /\
      ~ In (pick y) (map pick C) /\ ~ In (pick x) (map pick C) /\ pick x <> pick y).
    { intros pick H. rewrite !map_app in H. cbn [map] in H. rewrite map_app in H. cbn [map] in H.
      apply nodup_app_inv in H. destruct H as (_ & H & H1). apply NoDup_cons_iff in H. destruct H as (H2 & H). apply nodup_app_inv in H. destruct H as (_ & H & H3).
      apply NoDup_cons_iff in H. destruct H as (H4 & _). rewrite in_app_iff in H2. cbn [In] in H2.
      repeat split.
      - intros Hi. apply (H1 _ Hi). left. reflexivity.
      - intros Hi. apply (H1 _ Hi). right. apply in_app_iff. right. left. reflexivity.
      - tauto.
      - intros Hi. apply (H3 _ Hi). left. reflexivity.
      - exact H4.
      - tauto.
      - intros E. apply H2. right. left. congruence. }
    destruct (Dist fst Hf) as (F1 & F2 & F3 & F4 & F5 & F6 & F7). destruct (Dist snd Hs) as (S1 & S2 & S3 & S4 & S5 & S6 & S7). clear Dist.
    assert (E : forall s, csum B (fun lb => csum C (fun l => weight ((a, c) :: links) (la ++ (x, s) :: lb ++ (y, true) :: l)) +
                                     csum C (fun l => weight ((a, c) :: links) (la ++ (x, s) :: lb ++ (y, false) :: l))) =
                          csum B (fun lb => csum C (fun l => weight links (la ++ (z, s) :: lb ++ l)))).
    { intros s. apply csum_ext. intros lb Hlb.
      assert (W : forall t l, map fst l = C -> weight ((a, c) :: links) (la ++ (x, s) :: lb ++ (y, t) :: l) = if Bool.eqb s t then weight links (la ++ (z, s) :: lb ++ l) else 0).
      { intros t l Hl. rewrite weight_cons.
        assert (Hsame : same_spin (la ++ (x, s) :: lb ++ (y, t) :: l) (a, c) = Bool.eqb s t).
        { unfold Wick_Spec.same_spin. cbn [fst snd]. destruct Hcase as [(-> & -> & _)|(-> & -> & _)].
          - rewrite !spin_at_app, (spin_at_none snd la), (spin_at_none fst la) by (rewrite Hla; assumption).
            rewrite spin_at_hit, spin_at_miss, spin_at_app, (spin_at_none fst lb), spin_at_hit by (rewrite ?Hlb; assumption). reflexivity.
          - rewrite !spin_at_app, (spin_at_none snd la), (spin_at_none fst la) by (rewrite Hla; assumption).
            rewrite spin_at_hit, spin_at_miss, spin_at_app, (spin_at_none snd lb), spin_at_hit by (rewrite ?Hlb; assumption).
            destruct s, t; reflexivity. }
        rewrite Hsame. destruct (Bool.eqb s t) eqn:Est; [|reflexivity]. apply Bool.eqb_prop in Est. subst t.
        apply weight_ext. intros [a' c'] Hin.
        assert (Na : a <> a') by (intros ->; apply Ha; apply (in_map fst) in Hin; exact Hin).
        assert (Nc : c <> c') by (intros ->; apply Hc; apply (in_map snd) in Hin; exact Hin).
        assert (Look : forall pick i,
          (pick z = pick y /\ pick x <> i /\ ~ In (pick y) (map pick B)) \/ (pick z = pick x /\ pick y <> i) ->
          spin_at pick (la ++ (x, s) :: lb ++ (y, s) :: l) i = spin_at pick (la ++ (z, s) :: lb ++ l) i).
        { intros pick i Hp. rewrite !spin_at_app. destruct (spin_at pick la i); [reflexivity|].
          destruct Hp as [(E1 & E2 & E3)|(E1 & E2)].
          - rewrite spin_at_miss by exact E2. rewrite spin_at_app. destruct (ieqb (pick y) i) eqn:Ey.
            + apply ieqb_spec in Ey. subst i. rewrite (spin_at_none pick lb) by (rewrite Hlb; exact E3). rewrite spin_at_hit. rewrite <- E1, spin_at_hit. reflexivity.
            + assert (pick y <> i) by (intros E; apply ieqb_spec in E; congruence).
              rewrite (spin_at_miss pick y) by assumption. rewrite (spin_at_miss pick z) by congruence. rewrite spin_at_app. reflexivity.
          - destruct (ieqb (pick x) i) eqn:Ex.
            + apply ieqb_spec in Ex. subst i. rewrite spin_at_hit, <- E1, spin_at_hit. reflexivity.
            + assert (pick x <> i) by (intros E; apply ieqb_spec in E; congruence).
              rewrite (spin_at_miss pick x) by assumption. rewrite (spin_at_miss pick z) by congruence. rewrite !spin_at_app.
              rewrite (spin_at_miss pick y) by assumption. reflexivity. }
        unfold Wick_Spec.same_spin. cbn [fst snd].
        destruct Hcase as [(Ea & Ec & Ez)|(Ea & Ec & Ez)]; rewrite (Look snd a'), (Look fst c'); try reflexivity; subst a c z; cbn [fst snd]; auto. }
      destruct s.
      - rewrite (csum_ext C (fun l => weight ((a, c) :: links) (la ++ (x, true) :: lb ++ (y, true) :: l)) (fun l => weight links (la ++ (z, true) :: lb ++ l))) by (intros l Hl; rewrite (W true l Hl); reflexivity).
        rewrite (csum_ext C (fun l => weight ((a, c) :: links) (la ++ (x, true) :: lb ++ (y, false) :: l)) (fun _ => 0)) by (intros l Hl; rewrite (W false l Hl); reflexivity).
        rewrite csum_const. lia.
      - rewrite (csum_ext C (fun l => weight ((a, c) :: links) (la ++ (x, false) :: lb ++ (y, false) :: l)) (fun l => weight links (la ++ (z, false) :: lb ++ l))) by (intros l Hl; rewrite (W false l Hl); reflexivity).
        rewrite (csum_ext C (fun l => weight ((a, c) :: links) (la ++ (x, false) :: lb ++ (y, true) :: l)) (fun _ => 0)) by (intros l Hl; rewrite (W true l Hl); reflexivity).
        rewrite csum_const. lia. }
    rewrite (E true), (E false). reflexivity.
  Qed.

  (** ** One step *)
  Definition step1 (result : list col) (ac : I * I) : list col * nat :=
    match find_index (fun p => ieqb (snd p) (fst ac)) result, find_index (fun p => ieqb (fst p) (snd ac)) result with
    | Some ai, Some ci =>
        if Nat.eqb ai ci then (list_erase result ci, 1)
        else match nth_error result ai, nth_error result ci with
             | Some pa, Some pc =>
                 if Nat.ltb ai ci
                 then (list_erase (replace_nth result ai (fun p => (fst p, snd pc))) ci, 0)
                 else (list_erase (replace_nth result ci (fun p => (fst pa, snd p))) ai, 0)
             | _, _ => (result, 0)
             end
    | _, _ => (result, 0)
    end.

  Lemma find_index_ext {Y} (f g : Y -> bool) l : (forall y, f y = g y) -> find_index f l = find_index g l.
  Proof. intros H. induction l as [|y l IH]; [reflexivity|]. cbn. rewrite H, IH. reflexivity. Qed.

  Lemma target_step_step1 result n lr : ocre (fst lr) <> ocre (snd lr) ->
    target_step ieqb (result, n) lr = (fst (step1 result (link lr)), n + snd (step1 result (link lr))).
  Proof.
    intros H. destruct lr as [l r]. cbn [fst snd] in H. unfold target_step, step1, link. cbn [fst snd].
    destruct (ocre l) eqn:El, (ocre r) eqn:Er; try congruence; cbn [negb andb orb fst snd].
    - destruct (find_index (fun p => ieqb (snd p) (oidx r)) result) as [ai|]; [|cbn; rewrite Nat.add_0_r; reflexivity].
      destruct (find_index (fun p => ieqb (fst p) (oidx l)) result) as [ci|]; [|cbn; rewrite Nat.add_0_r; reflexivity].
      destruct (Nat.eqb ai ci); [cbn; rewrite Nat.add_1_r; reflexivity|].
      destruct (nth_error result ai), (nth_error result ci); try (cbn; rewrite Nat.add_0_r; reflexivity).
      destruct (Nat.ltb ai ci); cbn; rewrite Nat.add_0_r; reflexivity.
    - rewrite (find_index_ext (fun p => ieqb (snd p) (oidx l) || false) (fun p => ieqb (snd p) (oidx l))) by (intros; apply orb_false_r).
      rewrite (find_index_ext (fun p => ieqb (fst p) (oidx r) || false) (fun p => ieqb (fst p) (oidx r))) by (intros; apply orb_false_r).
      destruct (find_index (fun p => ieqb (snd p) (oidx l)) result) as [ai|]; [|cbn; rewrite Nat.add_0_r; reflexivity].
      destruct (find_index (fun p => ieqb (fst p) (oidx r)) result) as [ci|]; [|cbn; rewrite Nat.add_0_r; reflexivity].
      destruct (Nat.eqb ai ci); [cbn; rewrite Nat.add_1_r; reflexivity|].
      destruct (nth_error result ai), (nth_error result ci); try (cbn; rewrite Nat.add_0_r; reflexivity).
      destruct (Nat.ltb ai ci); cbn; rewrite Nat.add_0_r; reflexivity.
  Qed.

  Lemma erase_at {Y} (A : list Y) x B : list_erase (A ++ x :: B) (length A) = A ++ B.
  Proof. unfold list_erase. rewrite firstn_app, Nat.sub_diag, firstn_all. cbn [firstn]. rewrite app_nil_r. f_equal.
    replace (S (length A)) with (length (A ++ [x])) by (rewrite app_length; cbn; lia).
    replace (A ++ x :: B) with ((A ++ [x]) ++ B) by (rewrite <- app_assoc; reflexivity).
    rewrite skipn_app, skipn_all, Nat.sub_diag. reflexivity. Qed.

  (** the four outcomes *)
  Lemma step1_cases result ac :
    (~ In (fst ac) (map snd result) /\ step1 result ac = (result, 0)) \/
    (~ In (snd ac) (map fst result) /\ step1 result ac = (result, 0)) \/
    (exists A x B, result = A ++ x :: B /\ fst ac = snd x /\ snd ac = fst x /\ step1 result ac = (A ++ B, 1)) \/
    (exists A x B y C z, result = A ++ x :: B ++ y :: C /\ step1 result ac = (A ++ z :: B ++ C, 0) /\
       ((fst ac = snd x /\ snd ac = fst y /\ z = (fst x, snd y)) \/ (fst ac = snd y /\ snd ac = fst x /\ z = (fst y, snd x)))).
  Proof.
    unfold step1.
    destruct (find_index (fun p => ieqb (snd p) (fst ac)) result) as [ai|] eqn:Ea.
    2:{ left. split; [|reflexivity]. intros Hin. apply in_map_iff in Hin. destruct Hin as (p & E & Hp). pose proof (find_index_none _ _ Ea p Hp) as H. cbn in H. rewrite E, ieqb_refl in H. discriminate. }
    destruct (find_index (fun p => ieqb (fst p) (snd ac)) result) as [ci|] eqn:Ec.
    2:{ right. left. split; [|reflexivity]. intros Hin. apply in_map_iff in Hin. destruct Hin as (p & E & Hp). pose proof (find_index_none _ _ Ec p Hp) as H. cbn in H. rewrite E, ieqb_refl in H. discriminate. }
    apply find_index_nth in Ea, Ec. destruct Ea as (pa & Ha & Ea), Ec as (pc & Hc & Ec). apply ieqb_spec in Ea, Ec.
    right. right. destruct (Nat.eqb_spec ai ci) as [->|Hne].
    - left. rewrite Ha in Hc. injection Hc as <-. apply nth_error_split in Ha. destruct Ha as (A & B & -> & <-).
      exists A, pa, B. rewrite erase_at. auto.
    - right. rewrite Ha, Hc.
      destruct (nth_error_split2 result ai ci pa pc Hne Ha Hc) as (A & B & C & x & y & -> & [(-> & -> & -> & ->)|(-> & -> & -> & ->)]).
      + replace (length A <? length A + S (length B)) with true by (symmetry; apply Nat.ltb_lt; lia).
        exists A, pa, B, pc, C, (fst pa, snd pc). split; [reflexivity|]. split; [|left; auto].
        rewrite replace_at.
        replace (A ++ (fst pa, snd pc) :: B ++ pc :: C) with ((A ++ (fst pa, snd pc) :: B) ++ pc :: C) by (rewrite <- app_assoc; reflexivity).
        replace (length A + S (length B)) with (length (A ++ (fst pa, snd pc) :: B)) by (rewrite app_length; reflexivity).
        rewrite erase_at, <- app_assoc. reflexivity.
      + replace (length A + S (length B) <? length A) with false by (symmetry; apply Nat.ltb_ge; lia).
        exists A, pc, B, pa, C, (fst pa, snd pc). split; [reflexivity|]. split; [|right; auto].
        rewrite replace_at.
        replace (A ++ (fst pa, snd pc) :: B ++ pa :: C) with ((A ++ (fst pa, snd pc) :: B) ++ pa :: C) by (rewrite <- app_assoc; reflexivity).
        replace (length A + S (length B)) with (length (A ++ (fst pa, snd pc) :: B)) by (rewrite app_length; reflexivity).
        rewrite erase_at, <- app_assoc. reflexivity.
  Qed.

  Lemma step1_count result ac links :
    NoDup (map fst result) -> NoDup (map snd result) -> ~ In (fst ac) (map fst links) -> ~ In (snd ac) (map snd links) ->
    let '(result', k) := step1 result ac in
    csum result (weight (ac :: links)) = 2 ^ k * csum result' (weight links) /\
    NoDup (map fst result') /\ NoDup (map snd result') /\
    (forall i, In i (map fst result') <-> In i (map fst result) /\ (In (fst ac) (map snd result) -> i <> snd ac)) /\
    (forall i, In i (map snd result') <-> In i (map snd result) /\ (In (snd ac) (map fst result) -> i <> fst ac)) /\
    (In (fst ac) (map snd result) -> In (snd ac) (map fst result) -> length result = S (length result')).
  Proof.
    intros Hf Hs Ha Hc. destruct ac as [a c]. cbn [fst snd] in *.
    destruct (step1_cases result (a, c)) as [(Hn & E)|[(Hn & E)|[(A & x & B & Er & E1 & E2 & E)|(A & x & B & y & C & z & Er & E & Hz)]]]; rewrite E; cbn [fst snd] in *.
    - split; [|repeat split; auto; try tauto].
      + cbn [Nat.pow]. rewrite Nat.mul_1_l. apply csum_ext. intros l Hl. rewrite weight_cons. unfold Wick_Spec.same_spin. cbn [fst snd].
        rewrite (spin_at_none snd) by (rewrite Hl; exact Hn). reflexivity.
      + intros Hc'. intros ->. apply Hn. assumption.
    - split; [|repeat split; auto; try tauto].
      + cbn [Nat.pow]. rewrite Nat.mul_1_l. apply csum_ext. intros l Hl. rewrite weight_cons. unfold Wick_Spec.same_spin. cbn [fst snd].
        rewrite (spin_at_none fst) by (rewrite Hl; exact Hn). destruct (spin_at snd l a); reflexivity.
      + intros Hc'. intros ->. apply Hn. assumption.
    - split; [rewrite Er; apply (loop_closed A x B a c links E1 E2); rewrite <- ?Er; assumption|].
      subst result. rewrite map_app in Hf, Hs. cbn [map] in Hf, Hs. pose proof (NoDup_remove _ _ _ Hf) as (F1 & F2). pose proof (NoDup_remove _ _ _ Hs) as (S1 & S2).
      rewrite !map_app. cbn [map]. split; [exact F1|]. split; [exact S1|].
      split; [|split].
      + intros i. rewrite in_app_iff in F2. rewrite !in_app_iff. cbn [In]. subst a c. split.
        * intros H. split; [tauto|]. intros _ ->. tauto.
        * intros (H1 & H2). assert (i <> fst x) by (apply H2; auto). intuition congruence.
      + intros i. rewrite in_app_iff in S2. rewrite !in_app_iff. cbn [In]. subst a c. split.
        * intros H. split; [tauto|]. intros _ ->. tauto.
        * intros (H1 & H2). assert (i <> snd x) by (apply H2; auto). intuition congruence.
      + intros _ _. rewrite !app_length. cbn. lia.
    - split; [cbn [Nat.pow]; rewrite Nat.mul_1_l, Er; apply merged; rewrite <- ?Er; assumption|].
      subst result. rewrite !map_app in *. cbn [map] in *. rewrite !map_app in *. cbn [map] in *.
      assert (Hff : fst z = fst x /\ c = fst y \/ fst z = fst y /\ c = fst x) by (destruct Hz as [(? & ? & ->)|(? & ? & ->)]; cbn; auto).
      assert (Hss : snd z = snd y /\ a = snd x \/ snd z = snd x /\ a = snd y) by (destruct Hz as [(? & ? & ->)|(? & ? & ->)]; cbn; auto).
      assert (G : forall (pa pb pc : list I) px py pz k, NoDup (pa ++ px :: pb ++ py :: pc) -> (pz = px /\ k = py \/ pz = py /\ k = px) ->
        NoDup (pa ++ pz :: pb ++ pc) /\ (forall i, In i (pa ++ pz :: pb ++ pc) <-> In i (pa ++ px :: pb ++ py :: pc) /\ i <> k) /\ In k (pa ++ px :: pb ++ py :: pc)).
      { clear. intros pa pb pc px py pz k H Hk.
        assert (P : Permutation (pa ++ px :: pb ++ py :: pc) (k :: pa ++ pz :: pb ++ pc)).
        { destruct Hk as [(-> & ->)|(-> & ->)].
          - symmetry. replace (pa ++ px :: pb ++ py :: pc) with ((pa ++ px :: pb) ++ py :: pc) by (rewrite <- app_assoc; reflexivity).
            eapply Permutation_trans; [|apply Permutation_middle]. rewrite <- app_assoc. reflexivity.
          - symmetry. eapply Permutation_trans; [|apply Permutation_middle]. apply perm_skip. apply Permutation_app_head. apply Permutation_middle. }
        pose proof (Permutation_NoDup P H) as H2. apply NoDup_cons_iff in H2. destruct H2 as (H3 & H4). split; [exact H4|]. split.
        - intros i. split.
          + intros Hi. split; [apply (Permutation_in i (Permutation_sym P)); right; exact Hi|]. intros ->. contradiction.
          + intros (Hi & Hne). apply (Permutation_in i P) in Hi. destruct Hi as [->|Hi]; [congruence|exact Hi].
        - apply (Permutation_in k (Permutation_sym P)). left. reflexivity. }
      destruct (G _ _ _ _ _ (fst z) c Hf Hff) as (G1 & G2 & G3). destruct (G _ _ _ _ _ (snd z) a Hs ltac:(tauto)) as (G4 & G5 & G6).
      split; [exact G1|]. split; [exact G4|]. split; [|split].
      + intros i. rewrite G2. tauto.
      + intros i. rewrite G5. tauto.
      + intros _ _. rewrite !app_length. cbn. rewrite !app_length. cbn. lia.
  Qed.

  Definition paired (ct : list (op * op)) : Prop := forall lr, In lr ct -> ocre (fst lr) <> ocre (snd lr).

  Theorem loops_count : forall ct cols n, paired ct -> NoDup (map fst cols) -> NoDup (map snd cols) ->
    NoDup (map fst (map link ct)) -> NoDup (map snd (map link ct)) ->
    let '(res, k) := fold_left (target_step ieqb) ct (cols, n) in
    spin_labellings ieqb cols (map link ct) * 2 ^ n = 2 ^ (k + length res) /\
    (incl (map fst (map link ct)) (map snd cols) -> incl (map snd (map link ct)) (map fst cols) -> length cols = length ct + length res).
  Proof.
    induction ct as [|lr ct IH]; intros cols n Hp Hf Hs Ha Hc.
    - cbn. rewrite labellings_csum. rewrite (csum_ext cols (weight []) (fun _ => 1)) by reflexivity. rewrite csum_const, Nat.pow_add_r. split; [lia|reflexivity].
    - cbn [fold_left map]. rewrite target_step_step1 by (apply Hp; left; reflexivity). cbn [map] in Ha, Hc.
      apply NoDup_cons_iff in Ha. destruct Ha as (Ha1 & Ha). apply NoDup_cons_iff in Hc. destruct Hc as (Hc1 & Hc).
      pose proof (step1_count cols (link lr) (map link ct) Hf Hs Ha1 Hc1) as H. destruct (step1 cols (link lr)) as [cols' k1]. cbn [fst snd].
      destruct H as (E & Hf' & Hs' & Hin1 & Hin2 & Hl).
      specialize (IH cols' (n + k1) (fun x Hx => Hp x (or_intror Hx)) Hf' Hs' Ha Hc).
      destruct (fold_left (target_step ieqb) ct (cols', n + k1)) as [res k]. destruct IH as (IH1 & IH2).
      split.
      + rewrite labellings_csum, E, <- labellings_csum, <- IH1, Nat.pow_add_r. ring.
      + intros Hi1 Hi2. rewrite Hl; [|apply Hi1; left; reflexivity|apply Hi2; left; reflexivity]. cbn [length]. rewrite IH2; [lia| |].
        * intros i Hi. apply Hin2. split; [apply Hi1; right; exact Hi|]. intros _ ->. contradiction.
        * intros i Hi. apply Hin1. split; [apply Hi2; right; exact Hi|]. intros _ ->. contradiction.
  Qed.
End Loops.
