(** normalize: sign of the rearrangement, and pairing of columns. *)
From Coq Require Import List ZArith Bool Arith Lia Permutation.
From Verif Require Import Wick_Model Wick_Spec Wick_Proofs1 Wick_Proofs2 Wick_Proofs3 Wick_Proofs4.
Import ListNotations.

(** * Rearrangements *)
Lemma re_trans {X} n k (u v w : list X) : rearranged n u v -> rearranged k v w -> rearranged (k + n) u w.
Proof. intros H1 H2. induction H2; [exact H1|]. cbn. constructor. apply IHrearranged. exact H1. Qed.

Lemma re_move {X} (a : list X) x b c : rearranged (length b) (a ++ x :: b ++ c) (a ++ b ++ x :: c).
Proof.
  revert a. induction b as [|y b IH]; intros a; [constructor|].
  cbn [app length]. rewrite <- Nat.add_1_r. apply (re_trans 1 (length b) _ (a ++ y :: x :: b ++ c)).
  - constructor. constructor.
  - specialize (IH (a ++ [y])). rewrite <- !app_assoc in IH. exact IH.
Qed.

Lemma re_move_back {X} (a : list X) x b c : rearranged (length b) (a ++ b ++ x :: c) (a ++ x :: b ++ c).
Proof.
  revert a. induction b as [|y b IH]; intros a; [constructor|].
  cbn [app length]. apply (re_trans (length b) 1 _ (a ++ y :: x :: b ++ c)).
  - specialize (IH (a ++ [y])). rewrite <- !app_assoc in IH. exact IH.
  - constructor. constructor.
Qed.

(** exchanging two elements is an odd number of neighbour exchanges *)
Lemma re_exchange {X} (a : list X) x b y c : rearranged (S (length b + length b)) (a ++ x :: b ++ y :: c) (a ++ y :: b ++ x :: c).
Proof.
  replace (S (length b + length b)) with (length b + S (length b)) by lia.
  apply (re_trans _ _ _ (a ++ b ++ y :: x :: c)).
  - change (S (length b)) with (1 + length b). apply (re_trans _ _ _ (a ++ b ++ x :: y :: c)); [apply re_move|].
    rewrite !app_assoc. constructor. constructor.
  - apply re_move_back.
Qed.

Lemma re_permutation {X} n (u v : list X) : rearranged n u v -> Permutation u v.
Proof.
  induction 1; [apply Permutation_refl|]. eapply Permutation_trans; [exact IHrearranged|].
  apply Permutation_app_head. apply perm_swap.
Qed.

Section Norm.
  Context {I : Type}.
  Variable ieqb : I -> I -> bool.
  Hypothesis ieqb_spec : forall i j, ieqb i j = true <-> i = j.
  Notation op := (op I).
  Notation nest := (list (list op)).
  Variable fermi : bool.
  Notation sg := (sign fermi).

  Definition is_cre (o : op) := ocre o = true.
  Definition is_ann (o : op) := ocre o = false.

  Lemma concat_nil_prefix (gs : nest) k : (forall i, i < k -> nth i gs [] = []) -> k < length gs ->
    gs = firstn k gs ++ nth k gs [] :: skipn (S k) gs /\ concat (firstn k gs) = [].
  Proof.
    intros H Hk. split; [apply firstn_skipn_nth; exact Hk|].
    revert gs H Hk. induction k as [|k IH]; intros gs H Hk; [reflexivity|].
    destruct gs as [|g gs]; [reflexivity|]. cbn [firstn concat]. specialize (H 0 ltac:(lia)) as H0. cbn in H0. rewrite H0. cbn.
    apply IH; [|cbn in Hk; lia]. intros i Hi. apply (H (S i)). lia.
  Qed.

  Lemma normalize_loop_ok nnops : forall l nops pos phase cres groups n u,
    nops = pos + length l -> length groups = nnops ->
    tags_ok 0 nnops l ->
    (forall x i, In x l -> i < nnops - fst x - 1 -> nth i groups [] = []) ->
    phase = sg n -> rearranged n u (cres ++ map snd l ++ concat groups) ->
    Forall is_cre cres -> Forall (Forall is_ann) groups ->
    let '(phase', cres', groups') := normalize_loop fermi nops nnops l pos phase cres groups in
    exists n', phase' = sg n' /\ rearranged n' u (cres' ++ concat groups') /\ Forall is_cre cres' /\ Forall (Forall is_ann) groups'.
  Proof.
    induction l as [|[r o] l IH]; intros nops pos phase cres groups n u Hn Hg Ht Hempty Hph Hre Hc Ha.
    - cbn. exists n. auto.
    - destruct Ht as (Hr & Hle & Ht). cbn [fst] in *. cbn [normalize_loop]. cbn [map snd app] in Hre.
      destruct (ocre o) eqn:Eo.
      + apply (IH nops (S pos) phase (cres ++ [o]) groups n u); auto.
        * cbn in Hn. lia.
        * intros x i Hx. apply Hempty. right. exact Hx.
        * rewrite <- app_assoc. exact Hre.
        * apply Forall_app. split; [exact Hc|]. constructor; [exact Eo|constructor].
      + set (g := nnops - r - 1).
        assert (Hgl : g < length groups) by (unfold g; lia).
        destruct (concat_nil_prefix groups g) as (Eg & Eg0); [|exact Hgl|].
        { intros i Hi. apply (Hempty (r, o) i (or_introl eq_refl)). exact Hi. }
        assert (Hnu : nest_update groups g (fun h => h ++ [o]) = firstn g groups ++ (nth g groups [] ++ [o]) :: skipn (S g) groups).
        { unfold nest_update. apply (update_split groups g (fun h => h ++ [o]) []). exact Hgl. }
        apply (IH nops (S pos) _ cres _ (length (map (@snd nat op) l ++ nth g groups []) + n) u).
        * cbn in Hn. lia.
        * unfold nest_update. rewrite length_update. exact Hg.
        * exact Ht.
        * intros x i Hx Hi. unfold nest_update. rewrite (nth_update groups g (fun h => h ++ [o])) by exact Hgl.
          destruct (Nat.eqb_spec i g) as [->|_]; [unfold g in Hi; specialize (Hle x Hx); lia|]. apply (Hempty x i (or_intror Hx) Hi).
        * subst phase. rewrite app_length, map_length.
          replace (nops - pos - 1) with (length l) by (cbn in Hn; lia).
          rewrite (sign_add _ _ n). change (nnops - r - 1) with g. unfold sign. destruct (fermi && Nat.odd n), (fermi && Nat.odd (length l + length (nth g groups []))); reflexivity.
        * rewrite Hnu, concat_app. cbn [concat]. rewrite Eg0. cbn [app].
          rewrite Eg, concat_app in Hre. cbn [concat] in Hre. rewrite Eg0 in Hre. cbn [app] in Hre.
          refine (re_trans _ _ _ _ _ Hre _). rewrite <- !app_assoc. cbn [app].
          rewrite !(app_assoc (map snd l)). apply re_move.
        * exact Hc.
        * rewrite Hnu. rewrite Eg in Ha. apply Forall_app in Ha. destruct Ha as (Ha1 & Ha2). inversion Ha2; subst.
          apply Forall_app. split; [assumption|]. constructor; [|assumption]. apply Forall_app. split; [assumption|]. constructor; [exact Eo|constructor].
  Qed.

  Lemma concat_repeat_nil k : concat (repeat (@nil op) k) = [].
  Proof. induction k; [reflexivity|]. cbn. exact IHk. Qed.

  Lemma rev_groups (groups : nest) : rev (flat_map (fun g => rev g) (rev groups)) = concat groups.
  Proof.
    induction groups as [|g gs IH]; [reflexivity|]. cbn [rev concat]. rewrite flat_map_app. cbn [flat_map].
    rewrite app_nil_r, rev_app_distr, rev_involutive, IH. reflexivity.
  Qed.

  Lemma nth_error_split2 {X} (l : list X) i j x y : i <> j -> nth_error l i = Some x -> nth_error l j = Some y ->
    exists l1 l2 l3 a b, l = l1 ++ a :: l2 ++ b :: l3 /\
      ((i = length l1 /\ j = length l1 + S (length l2) /\ a = x /\ b = y) \/ (j = length l1 /\ i = length l1 + S (length l2) /\ a = y /\ b = x)).
  Proof.
    assert (W : forall i j x y, i < j -> nth_error l i = Some x -> nth_error l j = Some y ->
      exists l1 l2 l3, l = l1 ++ x :: l2 ++ y :: l3 /\ i = length l1 /\ j = length l1 + S (length l2)).
    { clear. intros i j x y Hij Hi Hj. apply nth_error_split in Hi. destruct Hi as (l1 & r & -> & <-).
      rewrite nth_error_app2 in Hj by lia. replace (j - length l1) with (S (j - length l1 - 1)) in Hj by lia. cbn in Hj.
      apply nth_error_split in Hj. destruct Hj as (l2 & l3 & -> & Hl). exists l1, l2, l3. repeat split. lia. }
    intros Hne Hi Hj. destruct (Nat.lt_ge_cases i j) as [H|H].
    - destruct (W i j x y H Hi Hj) as (l1 & l2 & l3 & E & E1 & E2). exists l1, l2, l3, x, y. auto 10.
    - destruct (W j i y x ltac:(lia) Hj Hi) as (l1 & l2 & l3 & E & E1 & E2). exists l1, l2, l3, y, x. auto 10.
  Qed.

  Lemma replace_at {X} (l1 : list X) x l2 f : replace_nth (l1 ++ x :: l2) (length l1) f = l1 ++ f x :: l2.
  Proof. unfold replace_nth. rewrite firstn_app, skipn_app, Nat.sub_diag, firstn_all, skipn_all. cbn. rewrite app_nil_r. reflexivity. Qed.

  Lemma swap_nth_split (l1 : list op) a l2 b l3 :
    swap_nth (l1 ++ a :: l2 ++ b :: l3) (length l1) (length l1 + S (length l2)) = l1 ++ b :: l2 ++ a :: l3 /\
    swap_nth (l1 ++ a :: l2 ++ b :: l3) (length l1 + S (length l2)) (length l1) = l1 ++ b :: l2 ++ a :: l3.
  Proof.
    unfold swap_nth.
    assert (E1 : nth_error (l1 ++ a :: l2 ++ b :: l3) (length l1) = Some a) by (rewrite nth_error_app2, Nat.sub_diag by lia; reflexivity).
    assert (E2 : nth_error (l1 ++ a :: l2 ++ b :: l3) (length l1 + S (length l2)) = Some b).
    { rewrite nth_error_app2 by lia. replace (length l1 + S (length l2) - length l1) with (S (length l2)) by lia. cbn.
      rewrite nth_error_app2, Nat.sub_diag by lia. reflexivity. }
    rewrite E1, E2. split.
    - rewrite replace_at.
      replace (l1 ++ b :: l2 ++ b :: l3) with ((l1 ++ b :: l2) ++ b :: l3) by (rewrite <- app_assoc; reflexivity).
      replace (length l1 + S (length l2)) with (length (l1 ++ b :: l2)) by (rewrite app_length; reflexivity).
      rewrite replace_at, <- app_assoc. reflexivity.
    - replace (replace_nth (l1 ++ a :: l2 ++ b :: l3) (length l1 + S (length l2)) (fun _ => a)) with (l1 ++ a :: l2 ++ a :: l3).
      + rewrite replace_at. reflexivity.
      + replace (l1 ++ a :: l2 ++ b :: l3) with ((l1 ++ a :: l2) ++ b :: l3) by (rewrite <- app_assoc; reflexivity).
        replace (length l1 + S (length l2)) with (length (l1 ++ a :: l2)) by (rewrite app_length; reflexivity).
        rewrite replace_at, <- app_assoc. reflexivity.
  Qed.

  Lemma swap_nth_spec (l : list op) i j x y : i <> j -> nth_error l i = Some x -> nth_error l j = Some y ->
    exists l1 l2 l3 a b, l = l1 ++ a :: l2 ++ b :: l3 /\ swap_nth l i j = l1 ++ b :: l2 ++ a :: l3.
  Proof.
    intros Hne Hi Hj. destruct (nth_error_split2 l i j x y Hne Hi Hj) as (l1 & l2 & l3 & a & b & -> & [(-> & -> & -> & ->)|(-> & -> & -> & ->)]).
    - exists l1, l2, l3, x, y. split; [reflexivity|]. apply swap_nth_split.
    - exists l1, l2, l3, y, x. split; [reflexivity|]. apply swap_nth_split.
  Qed.

  Lemma find_index_nth {Y} (f : Y -> bool) l i : find_index f l = Some i -> exists y, nth_error l i = Some y /\ f y = true.
  Proof.
    revert i. induction l as [|y l IH]; intros i H; [discriminate|]. cbn in H. destruct (f y) eqn:E.
    - injection H as <-. exists y. auto.
    - destruct (find_index f l) as [k|]; [|discriminate]. injection H as <-. apply IH. reflexivity.
  Qed.
  Lemma find_index_none {Y} (f : Y -> bool) l : find_index f l = None -> forall y, In y l -> f y = false.
  Proof.
    induction l as [|z l IH]; intros H y Hy; [destruct Hy|]. cbn in H. destruct (f z) eqn:E; [discriminate|].
    destruct (find_index f l); [discriminate|]. destruct Hy as [<-|Hy]; auto.
  Qed.

  (** [frame l]: the operator sequence with the row [l] in it *)
  Lemma pair_step_sign pairs key partner extra row phase other p n u (frame : list op -> list op) :
    (forall l1 a l2 b l3, exists k, Nat.odd k = true /\ rearranged k (frame (l1 ++ a :: l2 ++ b :: l3)) (frame (l1 ++ b :: l2 ++ a :: l3))) ->
    p + extra < length other ->
    phase = sg n -> rearranged n u (frame other) ->
    let '(phase', other') := pair_step ieqb fermi pairs key partner extra row (phase, other) p in
    exists n', phase' = sg n' /\ rearranged n' u (frame other') /\ Permutation other other'.
  Proof.
    intros Hfr Hp Hph Hre. unfold pair_step.
    destruct (nth_error row p) as [o|]; [|exists n; auto].
    destruct (find _ pairs) as [q|]; [|exists n; auto].
    destruct (find_index _ other) as [src|] eqn:Es; [|exists n; auto].
    destruct (Nat.eqb_spec (p + extra) src) as [E|E]; [exists n; auto|].
    apply find_index_nth in Es. destruct Es as (x & Hx & _).
    destruct (nth_error other (p + extra)) as [y|] eqn:Hy; [|apply nth_error_None in Hy; lia].
    destruct (swap_nth_spec other src (p + extra) x y ltac:(auto) Hx Hy) as (l1 & l2 & l3 & a & b & -> & ->).
    destruct (Hfr l1 a l2 b l3) as (k & Hk & Hrk).
    exists (k + n). split; [|split].
    - rewrite sign_add. subst phase. unfold sign. rewrite Hk. destruct fermi, (Nat.odd n); reflexivity.
    - exact (re_trans _ _ _ _ _ Hre Hrk).
    - apply Permutation_app_head.
      apply (Permutation_trans (l' := a :: b :: l2 ++ l3)); [apply perm_skip; symmetry; apply Permutation_middle|].
      apply (Permutation_trans (l' := b :: a :: l2 ++ l3)); [apply perm_swap|]. apply perm_skip. apply Permutation_middle.
  Qed.

  Lemma pair_fold_sign pairs key partner extra row (frame : list op -> list op) :
    (forall l1 a l2 b l3, exists k, Nat.odd k = true /\ rearranged k (frame (l1 ++ a :: l2 ++ b :: l3)) (frame (l1 ++ b :: l2 ++ a :: l3))) ->
    forall ps phase other n u,
    (forall p, In p ps -> p + extra < length other) ->
    phase = sg n -> rearranged n u (frame other) ->
    let '(phase', other') := fold_left (pair_step ieqb fermi pairs key partner extra row) ps (phase, other) in
    exists n', phase' = sg n' /\ rearranged n' u (frame other') /\ Permutation other other'.
  Proof.
    intros Hfr. induction ps as [|p ps IH]; intros phase other n u Hp Hph Hre.
    - cbn. exists n. auto.
    - cbn [fold_left].
      pose proof (pair_step_sign pairs key partner extra row phase other p n u frame Hfr (Hp p (or_introl eq_refl)) Hph Hre) as H1.
      destruct (pair_step ieqb fermi pairs key partner extra row (phase, other) p) as [ph1 o1].
      destruct H1 as (n1 & E1 & R1 & P1).
      specialize (IH ph1 o1 n1 u). rewrite <- (Permutation_length P1) in IH.
      specialize (IH (fun q Hq => Hp q (or_intror Hq)) E1 R1).
      destruct (fold_left _ ps (ph1, o1)) as [ph2 o2]. destruct IH as (n2 & E2 & R2 & P2).
      exists n2. split; [exact E2|]. split; [exact R2|]. exact (Permutation_trans P1 P2).
  Qed.

  Lemma frame_right (cres : list op) : forall l1 a l2 b l3, exists k, Nat.odd k = true /\
    rearranged k (cres ++ rev (l1 ++ a :: l2 ++ b :: l3)) (cres ++ rev (l1 ++ b :: l2 ++ a :: l3)).
  Proof.
    intros l1 a l2 b l3. exists (S (length (rev l2) + length (rev l2))). split.
    - rewrite Nat.odd_succ, Nat.even_add. destruct (Nat.even (length (rev l2))); reflexivity.
    - rewrite !rev_app_distr. cbn [rev]. rewrite !rev_app_distr. cbn [rev]. rewrite <- !app_assoc. cbn [app].
      rewrite !(app_assoc cres (rev l3)). apply re_exchange.
  Qed.
  Lemma frame_left (anns : list op) : forall l1 a l2 b l3, exists k, Nat.odd k = true /\
    rearranged k ((l1 ++ a :: l2 ++ b :: l3) ++ anns) ((l1 ++ b :: l2 ++ a :: l3) ++ anns).
  Proof.
    intros l1 a l2 b l3. exists (S (length l2 + length l2)). split.
    - rewrite Nat.odd_succ, Nat.even_add. destruct (Nat.even (length l2)); reflexivity.
    - rewrite <- !app_assoc. cbn [app]. rewrite <- !app_assoc. cbn [app]. apply re_exchange.
  Qed.

  Lemma normalize_sign (n : nest) pairs :
    let '(phase, ca) := normalize ieqb fermi n pairs in
    exists k, phase = sg k /\ rearranged k (concat n) (normal_operator ca) /\ Forall is_cre (fst ca) /\ Forall is_ann (snd ca).
  Proof.
    unfold normalize.
    pose proof (normalize_loop_ok (length n) (tag_nest n 0) (opsize n) 0 1%Z [] (repeat [] (length n)) 0 (concat n)) as H.
    rewrite tag_nest_length, repeat_length, tag_nest_snd, concat_repeat_nil, app_nil_r in H. cbn [app Nat.add] in H.
    specialize (H eq_refl eq_refl (tag_nest_tags n 0)).
    assert (Hrep : forall i, nth i (repeat (@nil op) (length n)) [] = []) by (intros i; generalize (length n); intros k; revert i; induction k as [|k IH]; intros [|i]; cbn; auto).
    specialize (H (fun _ i _ _ => Hrep i)). rewrite sign_0 in H. specialize (H eq_refl (re_refl _)).
    specialize (H (Forall_nil _)).
    assert (Hf : Forall (Forall is_ann) (repeat [] (length n))) by (clear; induction (length n); cbn; constructor; auto).
    specialize (H Hf).
    destruct (normalize_loop fermi (opsize n) (length n) (tag_nest n 0) 0 1%Z [] (repeat [] (length n))) as [[phase cres] groups].
    destruct H as (k & Hk & Hre & Hc & Hg).
    set (anns := flat_map (fun g => rev g) (rev groups)).
    assert (Hanns : concat groups = rev anns) by (unfold anns; rewrite rev_groups; reflexivity).
    assert (Ha : Forall is_ann anns).
    { unfold anns. apply Forall_flat_map. apply Forall_rev. revert Hg. apply Forall_impl. intros g. apply Forall_rev. }
    rewrite Hanns in Hre. clearbody anns. clear Hanns Hg groups.
    destruct pairs as [|q0 qs]; [exists k; auto|]. set (pairs := q0 :: qs).
    destruct (Nat.eqb_spec (length cres) (Nat.min (length cres) (length anns))) as [E|E].
    - pose proof (pair_fold_sign pairs fst snd (length anns - Nat.min (length cres) (length anns)) cres (fun l => cres ++ rev l) (frame_right cres)
                    (rev (seq 0 (Nat.min (length cres) (length anns)))) phase anns k (concat n)) as H.
      specialize (H ltac:(intros p Hp; apply in_rev in Hp; apply in_seq in Hp; lia) Hk Hre).
      destruct (fold_left _ _ (phase, anns)) as [ph an]. destruct H as (k' & E1 & R1 & P1).
      exists k'. cbn [fst snd]. repeat split; auto. rewrite Forall_forall in *. intros x Hx. apply Ha. apply (Permutation_in x (Permutation_sym P1) Hx).
    - pose proof (pair_fold_sign pairs snd fst (length cres - Nat.min (length cres) (length anns)) anns (fun l => l ++ rev anns) (frame_left (rev anns))
                    (rev (seq 0 (Nat.min (length cres) (length anns)))) phase cres k (concat n)) as H.
      specialize (H ltac:(intros p Hp; apply in_rev in Hp; apply in_seq in Hp; lia) Hk Hre).
      destruct (fold_left _ _ (phase, cres)) as [ph cr]. destruct H as (k' & E1 & R1 & P1).
      exists k'. cbn [fst snd]. repeat split; auto. rewrite Forall_forall in *. intros x Hx. apply Hc. apply (Permutation_in x (Permutation_sym P1) Hx).
  Qed.
End Norm.
