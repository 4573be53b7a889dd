(** Collecting like terms. *)
From Coq Require Import List Bool Arith Lia Permutation.
From Verif Require Import Wick_Spec Wick_Ring Expr_Model Expr_Spec Expr_Proofs1 Expr_Proofs2 Expr_Proofs3 Expr_Proofs4 Expr_Proofs5.
Import ListNotations.

Section P.
  Variable k : kops.
  Variable a : aops k.
  Variable i : interpretation k a.
  Notation E := (expr (K k) (A a)).
  Notation clone := (clone k a).
  Notation append := (append k a).
  Notation is_prod := (is_prod k a).
  Notation is_sum := (is_sum k a).
  Notation is_const := (is_const k a).
  Notation is_zero := (is_zero k a).
  Notation value := (value i).
  Local Open Scope op_scope.
  Hypothesis aeqb_val : forall x y, aeqb a x y = true -> val i x = val i y.

  Lemma eqb_all (e : E) : forall l, Forall (fun x => forall y, eqb k a x y = true -> value x = value y) l ->
    forall m, (fix all l m := match l, m with [], [] => true | x :: l', y :: m' => eqb k a x y && all l' m' | _, _ => false end) l m = true ->
    map value l = map value m.
  Proof.
    clear e. induction 1 as [|x l Hx _ IH]; intros [|y m] H; try discriminate; auto. apply andb_prop in H as [H1 H2]. cbn [map]. f_equal; auto.
  Qed.
  Lemma eqb_value e : forall f, eqb k a e f = true -> value e = value f.
  Proof.
    induction e as [z|y|kd s fs IH|ci ss IH|] using expr_ind'; intros [w|y'|kd' s' fs'|ci' ss'|] H; try discriminate H.
    - cbn in H. apply (keqb_iff _ _ i) in H. now subst.
    - cbn in H. cbn. auto.
    - cbn [eqb] in H. apply andb_prop in H as [H1 H2]. apply (keqb_iff _ _ i) in H1. subst s'. cbn [Expr_Spec.value]. f_equal. f_equal. eapply eqb_all; eauto. exact EErr.
    - cbn [eqb] in H. cbn [Expr_Spec.value]. f_equal. eapply eqb_all; eauto. exact EErr.
  Qed.
  Lemma eqb_list_value l : forall m, eqb_list k a l m = true -> map value l = map value m.
  Proof.
    induction l as [|x l IH]; intros [|y m] H; try discriminate; auto. cbn [eqb_list] in H. apply andb_prop in H as [H1 H2]. cbn [map]. f_equal; auto. now apply eqb_value.
  Qed.
  Lemma eqb_kind e f : eqb k a e f = true -> is_prod e = is_prod f /\ is_const e = is_const f.
  Proof. destruct e, f; cbn; intros; try discriminate; auto. Qed.

  Lemma tidy_ok (e : E) : tidy e -> ok e.
  Proof.
    induction e as [z|y|kd s fs IH|ci ss IH|] using expr_ind'; intros Ht; try exact Logic.I.
    - apply tidy_prod in Ht as [_ Ht]. apply ok_prod. rewrite Forall_forall in *. intros x Hx. apply IH; auto. apply Ht; auto.
    - apply tidy_sum in Ht as [Hci Ht]. apply ok_sum. split.
      + destruct ci as [j|]; cbn; auto. now apply Hci.
      + rewrite Forall_forall in *. intros x Hx. apply IH; auto. apply Ht; auto.
    - destruct Ht.
  Qed.

  (** the elements of the set *)
  Definition good (x : E) : Prop := tidy x.
  Definition total (l : list E) : car (ir i) := rsum (map value l).
  Definition nconst (l : list E) : nat := count_const k a l.
  Lemma nconst_app l m : nconst (l ++ m) = (nconst l + nconst m)%nat.
  Proof. unfold nconst, count_const. now rewrite filter_app, app_length. Qed.
  Lemma total_app l m : total (l ++ m) = total l + total m.
  Proof. unfold total. now rewrite map_app, rsum_app. Qed.
  Lemma total_1 x : total [x] = value x. Proof. unfold total. cbn [map]. apply rsum_1. Qed.

  Lemma nth_split3 (j : nat) (l : list E) : j < length l -> l = firstn j l ++ nth j l EErr :: skipn (S j) l.
  Proof. intros H. apply nth_split_at. now apply nth_error_nth'. Qed.

  Lemma accumulate1_good look x acc : lookup_spec look -> tidy x -> Forall good acc -> (nconst acc + nconst [x] <= 1)%nat ->
    Forall good (accumulate1 k a look x acc) /\ total (accumulate1 k a look x acc) = total acc + value x /\
    nconst (accumulate1 k a look x acc) <= (nconst acc + nconst [x])%nat.
  Proof.
    intros Hl Hx Hacc Hc. unfold accumulate1. destruct (look acc x) as [j|] eqn:Hj.
    2:{ split; [apply Forall_app; split; auto|]. rewrite total_app, total_1, nconst_app. split; auto. }
    destruct (Hl acc x j Hj) as [Hlt Hp]. set (old := nth j acc EErr) in *.
    pose proof (nth_split3 j acc Hlt) as Hs. fold old in Hs.
    assert (Hold : good old). { rewrite Forall_forall in Hacc. apply Hacc. unfold old. now apply nth_In. }
    assert (Hpre : Forall good (firstn j acc) /\ Forall good (skipn (S j) acc)).
    { rewrite Hs in Hacc. apply Forall_app in Hacc as [H1 H2]. inversion H2; auto. }
    destruct Hpre as [Hpre Hpost].
    assert (Htot : total acc = total (firstn j acc) + (value old + total (skipn (S j) acc))).
    { transitivity (total (firstn j acc ++ [old] ++ skipn (S j) acc)); [now rewrite Hs at 1|]. now rewrite !total_app, total_1. }
    assert (Hnc : nconst acc = (nconst (firstn j acc) + (nconst [old] + nconst (skipn (S j) acc)))%nat).
    { transitivity (nconst (firstn j acc ++ [old] ++ skipn (S j) acc)); [now rewrite Hs at 1|]. now rewrite !nconst_app. }
    assert (Hset : forall y, good y -> value y = value old + value x -> (nconst [y] <= nconst [old] + nconst [x])%nat ->
      Forall good (set_at k a j y acc) /\ total (set_at k a j y acc) = total acc + value x /\ nconst (set_at k a j y acc) <= (nconst acc + nconst [x])%nat).
    { intros y Hy Hv Hn. unfold set_at. split; [apply Forall_app; split; auto|]. rewrite Htot, Hnc, !total_app, !nconst_app.
      change (y :: skipn (S j) acc) with ([y] ++ skipn (S j) acc). rewrite total_app, nconst_app, total_1, Hv. split; [ncr|lia]. }
    assert (Hrep : forall y, good y -> value y = value old + value x -> (nconst [y] <= nconst [old] + nconst [x])%nat ->
      Forall good (remove_at k a j acc ++ [y]) /\ total (remove_at k a j acc ++ [y]) = total acc + value x /\ nconst (remove_at k a j acc ++ [y]) <= (nconst acc + nconst [x])%nat).
    { intros y Hy Hv Hn. unfold remove_at. split; [repeat (apply Forall_app; split; auto)|]. rewrite Htot, Hnc, !total_app, !nconst_app, total_1, Hv. split; [ncr|lia]. }
    unfold good in *.
    destruct (is_prod x) eqn:Hxp; destruct (is_prod old) eqn:Hop.
    - (* both products *)
      destruct x as [z|y|kd s fs|ci ss|]; try discriminate. destruct old as [z|y|kd' s' fs'|ci ss|]; try discriminate.
      cbn [proportional] in Hp.
      replace (add_identical k a (EProd kd' s' fs') (EProd kd s fs)) with (EProd kd' (kadd k s' s) fs' : E) by (cbn [add_identical]; rewrite Hp; now destruct fs' as [|? []]).
      apply Hset; [|  |exact (Nat.le_0_l _)].
      + apply tidy_prod. apply tidy_prod in Hold. exact Hold.
      + cbn [Expr_Spec.value]. rewrite (eqb_list_value _ _ Hp), (emb_add _ _ i). ncr.
    - (* the new one is a product of the old one *)
      destruct x as [z|y|kd s fs|ci ss|]; try discriminate.
      assert (Hfs : exists y, fs = [y] /\ eqb k a y old = true).
      { destruct old; cbn [proportional] in Hp; try discriminate; destruct fs as [|y [|y' fs]]; try discriminate; eauto. }
      destruct Hfs as (y & -> & He). rewrite (tidy_clone k a _ Hx).
      pose proof Hx as Hx'. apply tidy_prod in Hx' as [-> Hfs]. inversion Hfs as [|? ? (T1 & T2 & T3) _]; subst.
      cbn [prod_of_expr fold_left]. rewrite append_push by auto. cbn [push fst snd app]. rewrite tidy_clone by auto.
      assert (Hai : add_identical k a (EProd PPlain (kmul k (k1 k) s) [y]) old = EProd PPlain (kadd k (kmul k (k1 k) s) (k1 k)) [y]).
      { cbn [add_identical]. rewrite He. destruct old; auto. discriminate. }
      rewrite Hai. apply Hrep.
      + apply tidy_prod. split; auto.
      + cbn [Expr_Spec.value map]. rewrite rprod_1, (emb_add _ _ i), (emb_mul _ _ i), (emb_1 _ _ i), (eqb_value _ _ He). ncr.
      + exact (Nat.le_0_l _).
    - (* the old one is a product of the new one *)
      destruct old as [z|y|kd' s' fs'|ci ss|]; try discriminate.
      assert (Hfs : exists y, fs' = [y] /\ eqb k a y x = true).
      { destruct x; cbn [proportional] in Hp; try discriminate; destruct fs' as [|y [|y' fs']]; try discriminate; eauto. }
      destruct Hfs as (y & -> & He).
      assert (Hai : add_identical k a (EProd kd' s' [y]) x = EProd kd' (kadd k s' (k1 k)) [y]).
      { cbn [add_identical]. rewrite He. destruct x; auto. discriminate. }
      rewrite Hai. apply Hset.
      + apply tidy_prod. apply tidy_prod in Hold. exact Hold.
      + cbn [Expr_Spec.value map]. rewrite rprod_1, (emb_add _ _ i), (emb_1 _ _ i), (eqb_value _ _ He). ncr.
      + exact (Nat.le_0_l _).
    - (* neither is *)
      assert (Hxc : is_const x = false).
      { destruct (is_const x) eqn:Hxc; auto. exfalso. destruct x as [z| | | |]; try discriminate. unfold nconst, count_const in Hc, Hnc. cbn in Hc.
        destruct old as [w| | | |]; try discriminate; try (cbn in Hnc; lia); cbn [proportional] in Hp; cbn in Hp; try discriminate. }
      assert (He : eqb k a old x = true).
      { destruct x, old; cbn [proportional] in Hp; try discriminate; auto. }
      rewrite append_push by auto. cbn [scale push fst snd app]. rewrite (tidy_clone k a x Hx). apply Hrep.
      + apply tidy_prod. split; auto. constructor; auto. repeat split; auto.
      + cbn [Expr_Spec.value map]. rewrite rprod_1, (emb_mul _ _ i), (emb_add _ _ i), (emb_1 _ _ i), (eqb_value _ _ He). ncr.
      + exact (Nat.le_0_l _).
  Qed.

  Definition inv acc v n := Forall good acc /\ total acc = v /\ nconst acc <= n.

  Lemma accumulate_good look flat x : lookup_spec look -> forall acc v n, Forall tidy (terms flat [x]) -> (n + nconst (terms flat [x]) <= 1)%nat ->
    inv acc v n -> inv (accumulate k a look flat x acc) (v + value x) (n + nconst (terms flat [x]))%nat.
  Proof.
    intros Hl. assert (Hone : forall y acc v n, tidy y -> (n + nconst [y] <= 1)%nat -> inv acc v n -> inv (accumulate1 k a look y acc) (v + value y) (n + nconst [y])%nat).
    { intros y acc v n Hy Hn (H1 & H2 & H3). destruct (accumulate1_good look y acc Hl Hy H1) as (G1 & G2 & G3); [lia|]. split; auto. split; [congruence|lia]. }
    destruct flat.
    2:{ intros acc v n Ht Hn Hi. cbn [terms] in *. inversion Ht; subst. destruct x; cbn [accumulate]; apply Hone; auto. }
    cbn [terms]. intros acc v n. cbn [flat_map]. rewrite app_nil_r. revert acc v n.
    induction x as [z|y|kd s fs IH|ci ss IH|] using expr_ind'; intros acc v n Ht Hn Hi; cbn [terms_of] in *; cbn [accumulate].
    - inversion Ht; subst. now apply Hone. - inversion Ht; subst. now apply Hone. - inversion Ht; subst. now apply Hone.
    - cbn [Expr_Spec.value]. revert acc v n Ht Hn Hi. induction ss as [|x ss IHs]; intros acc v n Ht Hn Hi; cbn [fold_left map flat_map].
      + cbn [rsum fold_right]. rewrite Nat.add_0_r. replace (v + r0 (ir i)) with v by ncr. exact Hi.
      + inversion IH as [|? ? Hx IH']; subst. cbn [flat_map] in Ht, Hn. apply Forall_app in Ht as [Ht1 Ht2]. rewrite nconst_app in *.
        rewrite rsum_cons. replace (v + (value x + rsum (map value ss))) with (v + value x + rsum (map value ss)) by ncr.
        rewrite Nat.add_assoc. apply IHs; auto; [lia|]. apply Hx; auto. lia.
    - inversion Ht; subst. now apply Hone.
  Qed.

  Lemma terms_cons flat x xs : terms flat (x :: xs) = terms (k:=k) (a:=a) flat [x] ++ terms flat xs.
  Proof. destruct flat; cbn [terms flat_map app]; auto. now rewrite app_nil_r. Qed.
  Lemma accumulate_all look flat xs : lookup_spec look -> forall acc v n, Forall tidy (terms flat xs) -> (n + nconst (terms flat xs) <= 1)%nat ->
    inv acc v n -> inv (fold_left (fun acc x => accumulate k a look flat x acc) xs acc) (v + rsum (map value xs)) (n + nconst (terms flat xs))%nat.
  Proof.
    intros Hl. induction xs as [|x xs IH]; intros acc v n Ht Hn Hi; cbn [fold_left map].
    - assert (H0 : terms (k:=k) (a:=a) flat [] = []) by (destruct flat; reflexivity). rewrite H0. cbn. rewrite Nat.add_0_r. replace (v + r0 (ir i)) with v by ncr. exact Hi.
    - rewrite terms_cons in *. apply Forall_app in Ht as [Ht1 Ht2]. rewrite nconst_app in *. rewrite rsum_cons, Nat.add_assoc.
      replace (v + (value x + rsum (map value xs))) with (v + value x + rsum (map value xs)) by ncr. apply IH; auto; [lia|]. apply accumulate_good; auto. lia.
  Qed.

  (** the sum at the end *)
  Lemma move_only_keep post : forall pre ci n, Forall (fun x => is_zero x = false) post -> (nconst post + match ci with Some _ => 1 | None => 0 end <= 1)%nat ->
    length post < n -> exists ci', move_only k a n (pre ++ post) ci (length pre) (length pre) = Some (ci', pre ++ post) /\
      (ci_ok k a ci pre -> ci_ok k a ci' (pre ++ post)).
  Proof.
    induction post as [|x post IH]; intros pre ci n Hz Hc Hn; (destruct n as [|n]; [cbn in Hn; lia|]); cbn [move_only].
    - rewrite app_nil_r. replace (nth_error pre (length pre)) with (@None E) by (symmetry; apply nth_error_None; lia). rewrite Nat.eqb_refl. eauto.
    - rewrite nth_error_app2, Nat.sub_diag by lia. cbn [nth_error]. inversion Hz as [|? ? Hx Hz']; subst. rewrite Hx. cbn [length] in Hn.
      replace (x :: post) with ([x] ++ post) in * by reflexivity. rewrite nconst_app in Hc. rewrite !app_assoc.
      assert (Hlen : S (length pre) = length (pre ++ [x])) by (rewrite app_length; cbn; lia).
      assert (Hgo : (nconst post + match ci with Some _ => 1 | None => 0 end <= 1)%nat -> exists ci', move_only k a n ((pre ++ [x]) ++ post) ci (S (length pre)) (S (length pre)) = Some (ci', (pre ++ [x]) ++ post) /\ (ci_ok k a ci pre -> ci_ok k a ci' ((pre ++ [x]) ++ post))).
      { intros Hc'. rewrite Hlen. destruct (IH (pre ++ [x]) ci n) as (ci' & H1 & H2); auto; [lia|]. exists ci'. split; auto. intros Hci. apply H2. now apply ci_ok_app. }
      destruct x as [z|y|kd s fs|cj ss|]; try (apply Hgo; cbn in Hc; lia).
      destruct ci as [j|]. { unfold nconst, count_const in Hc. cbn in Hc. lia. }
      rewrite Hlen. destruct (IH (pre ++ [EConst z]) (Some (length pre)) n) as (ci' & H1 & H2); auto; try lia. { unfold nconst, count_const in *. cbn in Hc. lia. }
      exists ci'. split; auto. intros _. apply H2. exists z. now rewrite nth_error_app2, Nat.sub_diag.
  Qed.

  Lemma total_filter l : Forall ok l -> total (filter (fun x => negb (is_zero x)) l) = total l.
  Proof.
    induction 1 as [|x l Hx _ IH]; [reflexivity|]. unfold total in *. cbn [filter map]. rewrite rsum_cons, <- IH. destruct (is_zero x) eqn:Hz; cbn [negb map].
    - rewrite (is_zero_value k a i x Hz). ncr. - now rewrite rsum_cons.
  Qed.
  Lemma filter_nconst (f : E -> bool) l : nconst (filter f l) <= nconst l.
  Proof. induction l as [|x l IH]; cbn; auto. unfold nconst, count_const in *. destruct (f x); cbn; destruct (is_const x); cbn; lia. Qed.

  Lemma make_expr_good l : Forall tidy l -> nconst l <= 1 -> exists e, make_expr k a l = Some e /\ ok e /\ value e = total l.
  Proof.
    intros Ht Hc. assert (Hok : Forall ok l) by (eapply Forall_impl; [|exact Ht]; apply tidy_ok). unfold make_expr. destruct l as [|x [|y l]].
    - exists (EConst (k0 k)). split; auto. split; [exact Logic.I|]. cbn. apply emb_0.
    - exists x. split; auto. inversion Hok; subst. split; auto. now rewrite total_1.
    - unfold make_sum_impl. set (l' := filter _ (x :: y :: l)).
      assert (Hok' : Forall ok l'). { unfold l'. apply Forall_forall. intros z Hz. apply filter_In in Hz as [Hz _]. rewrite Forall_forall in Hok. auto. }
      destruct (move_only_keep l' [] None (S (length l'))) as (ci & H1 & H2); auto.
      { unfold l'. apply Forall_forall. intros z Hz. apply filter_In in Hz as [_ Hz]. now destruct (is_zero z). }
      { pose proof (filter_nconst (fun x => negb (is_zero x)) (x :: y :: l)). fold l' in H. rewrite Nat.add_0_r. exact (Nat.le_trans _ _ _ H Hc). }
      cbn [app length] in H1, H2. rewrite H1. cbn [option_map fst snd]. exists (ESum ci l'). split; auto. split.
      + apply ok_sum. split; auto. apply H2. exact Logic.I.
      + rewrite (value_sum k a i). unfold sv. cbn [snd]. unfold l'. exact (total_filter _ Hok).
  Qed.

  Lemma collect_good look flat xs l : lookup_spec look -> Forall tidy (terms flat xs) -> nconst (terms flat xs) <= 1 ->
    Permutation (fold_left (fun acc x => accumulate k a look flat x acc) xs []) l ->
    exists e, make_expr k a l = Some e /\ ok e /\ value e = rsum (map value xs).
  Proof.
    intros Hl Ht Hn Hp. destruct (accumulate_all look flat xs Hl [] (r0 _) 0 Ht) as (H1 & H2 & H3); auto. { split; auto. }
    destruct (make_expr_good l) as (e & G1 & G2 & G3).
    - rewrite Forall_forall in *. intros x Hx. apply H1. eapply Permutation_in; [apply Permutation_sym|]; eauto.
    - assert (Hc : nconst l = nconst (fold_left (fun acc x => accumulate k a look flat x acc) xs [])).
      { unfold nconst, count_const. clear -Hp. induction Hp; cbn; auto. - destruct (is_const x); cbn; auto. - destruct (is_const x), (is_const y); cbn; auto. - congruence. }
      lia.
    - exists e. split; auto. split; auto. rewrite G3. unfold total in *. rewrite (rsum_perm k a i _ (map value (fold_left (fun acc x => accumulate k a look flat x acc) xs []))).
      + rewrite H2. ncr. + apply Permutation_map. now apply Permutation_sym.
  Qed.

  (** like terms are collected *)
  Hypothesis aeqb_iff : forall x y, aeqb a x y = true <-> x = y.
  Lemma eqb_tidy_all l : Forall (fun x => forall y, tidy x -> tidy y -> eqb k a x y = true -> x = y) l -> forall m, Forall tidy l -> Forall tidy m ->
    (fix all l m := match l, m with [], [] => true | x :: l', y :: m' => eqb k a x y && all l' m' | _, _ => false end) l m = true -> l = m.
  Proof.
    induction 1 as [|x l Hx _ IH]; intros [|y m] Tl Tm H; try discriminate; auto. apply andb_prop in H as [H1 H2]. inversion Tl; inversion Tm; subst. f_equal; auto.
  Qed.
  Lemma tf_tidy l : Forall (tf k a) l -> Forall tidy l.
  Proof. apply Forall_impl. intros x (_ & _ & H). exact H. Qed.
  Lemma ts_tidy l : Forall (ts k a) l -> Forall tidy l.
  Proof. apply Forall_impl. intros x (_ & _ & H). exact H. Qed.
  Lemma eqb_tidy e : forall f, tidy e -> tidy f -> eqb k a e f = true -> e = f.
  Proof.
    induction e as [z|y|kd s fs IH|ci ss IH|] using expr_ind'; intros [w|y'|kd' s' fs'|ci' ss'|] He Hf H; try discriminate H.
    - cbn in H. apply (keqb_iff _ _ i) in H. now subst.
    - cbn in H. apply aeqb_iff in H. now subst.
    - cbn [eqb] in H. apply andb_prop in H as [H1 H2]. apply (keqb_iff _ _ i) in H1. subst s'. apply tidy_prod in He as [-> He]. apply tidy_prod in Hf as [-> Hf].
      f_equal. eapply eqb_tidy_all; eauto using tf_tidy.
    - cbn [eqb] in H. apply tidy_sum in He as [Hci He]. apply tidy_sum in Hf as [Hcj Hf]. assert (Hss : ss = ss') by (eapply eqb_tidy_all; eauto using ts_tidy). subst ss'.
      f_equal. destruct ci as [j|].
      + symmetry. apply Hcj, Hci. reflexivity.
      + destruct ci' as [j|]; auto. apply Hci, Hcj. reflexivity.
  Qed.
  Lemma eqb_list_tidy l : forall m, Forall tidy l -> Forall tidy m -> eqb_list k a l m = true -> l = m.
  Proof.
    induction l as [|x l IH]; intros [|y m] Tl Tm H; try discriminate; auto. cbn [eqb_list] in H. apply andb_prop in H as [H1 H2]. inversion Tl; inversion Tm; subst. f_equal; auto. now apply eqb_tidy.
  Qed.
  Lemma eqb_refl e : tidy e -> eqb k a e e = true.
  Proof.
    assert (Hall : forall l, Forall (fun x => tidy x -> eqb k a x x = true) l -> Forall tidy l ->
      (fix all l m := match l, m with [], [] => true | x :: l', y :: m' => eqb k a x y && all l' m' | _, _ => false end) l l = true).
    { induction 1 as [|x l Hx _ IH]; auto. intros Ht. inversion Ht; subst. rewrite Hx by auto. auto. }
    induction e as [z|y|kd s fs IH|ci ss IH|] using expr_ind'; intros He; cbn [eqb].
    - now apply (keqb_iff _ _ i). - now apply aeqb_iff.
    - apply tidy_prod in He as [-> He]. rewrite (proj2 (keqb_iff _ _ i s s) eq_refl). apply Hall; auto using tf_tidy.
    - apply tidy_sum in He as [_ He]. apply Hall; auto using ts_tidy.
    - destruct He.
  Qed.
  Lemma eqb_list_refl l : Forall tidy l -> eqb_list k a l l = true.
  Proof. induction 1; cbn [eqb_list]; auto. now rewrite eqb_refl. Qed.
  Lemma factors_tidy (e : E) : tidy e -> Forall tidy (factors_of e).
  Proof. destruct e; cbn [factors_of]; intros H; auto. apply tidy_prod in H as [_ H]. now apply tf_tidy. Qed.

  (** equal terms have the same factors, and the converse *)
  Lemma proportional_factors e f : tidy e -> tidy f -> (is_const e && is_const f) = false -> proportional k a e f = true -> factors_of e = factors_of f.
  Proof.
    intros He Hf Hc H. pose proof (factors_tidy e He) as Te. pose proof (factors_tidy f Hf) as Tf.
    destruct e as [z|y|kd s fs|ci ss|], f as [w|y'|kd' s' fs'|ci' ss'|]; cbn [proportional] in H; try discriminate; cbn [factors_of] in *;
      try (f_equal; apply eqb_tidy; auto; fail); try (now apply eqb_list_tidy);
      try (destruct fs as [|q [|? ?]]; try discriminate; f_equal; apply eqb_tidy; auto; inversion Te; auto);
      try (destruct fs' as [|q [|? ?]]; try discriminate; f_equal; symmetry; apply eqb_tidy; auto; inversion Tf; auto).
  Qed.
  Lemma factors_proportional e f : tidy e -> tidy f -> factors_of e = factors_of f -> proportional k a e f = true.
  Proof.
    intros He Hf H. pose proof (factors_tidy e He) as Te. pose proof (factors_tidy f Hf) as Tf.
    destruct e as [z|y|kd s fs|ci ss|], f as [w|y'|kd' s' fs'|ci' ss'|]; cbn [proportional]; auto; cbn [factors_of] in *; subst;
      try discriminate H; try (injection H as -> ); try (now apply eqb_refl); try (now apply eqb_list_refl); try (destruct He; fail); try (destruct Hf; fail).
    all: try (injection H; intros; subst; now apply eqb_refl). all: try (cbv beta iota; now apply eqb_refl). all: try (cbv beta iota; now inversion Te). all: subst; now apply eqb_refl.
  Qed.

  Notation keys := (map factors_of).
  Lemma nconst_in x l : In x l -> nconst [x] <= nconst l.
  Proof. intros H. apply in_split in H as (l1 & l2 & ->). rewrite nconst_app. change (x :: l2) with ([x] ++ l2). rewrite nconst_app. lia. Qed.
  Lemma const_pair x y acc : In y acc -> (nconst acc + nconst [x] <= 1)%nat -> (is_const y && is_const x) = false.
  Proof.
    intros Hy Hc. apply nconst_in in Hy. unfold nconst, count_const in *. cbn [filter] in *. destruct (is_const x), (is_const y); auto. cbn [length] in *. lia.
  Qed.
  Lemma accumulate1_keys look x acc : lookup_spec look -> lookup_complete look -> tidy x -> Forall good acc -> (nconst acc + nconst [x] <= 1)%nat ->
    NoDup (keys acc) -> NoDup (keys (accumulate1 k a look x acc)).
  Proof.
    intros Hl Hlc Hx Hacc Hc Hnd. unfold accumulate1. destruct (look acc x) as [j|] eqn:Hj.
    2:{ rewrite map_app. cbn [map]. apply (Permutation_NoDup (l := factors_of x :: keys acc)); [apply Permutation_cons_append|]. constructor; auto. intros Hin. apply in_map_iff in Hin as (y & Hy & Hin).
        pose proof (Hlc acc x Hj) as Hn. rewrite Forall_forall in Hn, Hacc. specialize (Hn y Hin). rewrite (factors_proportional y x) in Hn; auto; [discriminate|]. now apply Hacc. }
    destruct (Hl acc x j Hj) as [Hlt Hp]. set (old := nth j acc EErr) in *.
    pose proof (nth_split3 j acc Hlt) as Hs. fold old in Hs.
    assert (Hin : In old acc) by (unfold old; now apply nth_In).
    assert (Hold : tidy old). { rewrite Forall_forall in Hacc. now apply Hacc. }
    pose proof (const_pair x old acc Hin Hc) as Hcp.
    pose proof (proportional_factors old x Hold Hx Hcp Hp) as Hk.
    assert (Hset : forall y, factors_of y = factors_of old -> NoDup (keys (set_at k a j y acc))).
    { intros y Hy. unfold set_at. rewrite map_app. cbn [map]. rewrite Hy. rewrite Hs in Hnd. now rewrite map_app in Hnd. }
    assert (Hrep : forall y, factors_of y = factors_of old -> NoDup (keys (remove_at k a j acc ++ [y]))).
    { intros y Hy. apply (Permutation_NoDup (l := keys acc)); auto. rewrite Hs at 1. unfold remove_at. rewrite !map_app. cbn [map]. rewrite Hy. rewrite <- app_assoc.
      apply Permutation_app_head. apply Permutation_cons_append. }
    unfold good in *.
    destruct (is_prod x) eqn:Hxp; destruct (is_prod old) eqn:Hop.
    - destruct x as [z|y|kd s fs|ci ss|]; try discriminate. destruct old as [z|y|kd' s' fs'|ci ss|]; try discriminate.
      cbn [proportional] in Hp.
      replace (add_identical k a (EProd kd' s' fs') (EProd kd s fs)) with (EProd kd' (kadd k s' s) fs' : E) by (cbn [add_identical]; rewrite Hp; now destruct fs' as [|? []]).
      apply Hset; auto.
    - destruct x as [z|y|kd s fs|ci ss|]; try discriminate.
      assert (Hfs : fs = [old]). { cbn [factors_of] in Hk. rewrite <- Hk. now destruct old. }
      subst fs. rewrite (tidy_clone k a _ Hx). pose proof Hx as Hx'. apply tidy_prod in Hx' as [-> Hfs]. inversion Hfs as [|? ? (T1 & T2 & T3) _]; subst.
      cbn [prod_of_expr fold_left]. rewrite append_push by auto. cbn [push fst snd app]. rewrite tidy_clone by auto.
      assert (Hai : add_identical k a (EProd PPlain (kmul k (k1 k) s) [old]) old = EProd PPlain (kadd k (kmul k (k1 k) s) (k1 k)) [old]).
      { cbn [add_identical]. rewrite eqb_refl by auto. clear -Hop. destruct old; auto. discriminate. }
      rewrite Hai. apply Hrep. now destruct old.
    - destruct old as [z|y|kd' s' fs'|ci ss|]; try discriminate.
      assert (Hfs : fs' = [x]). { cbn [factors_of] in Hk. rewrite Hk. now destruct x. }
      subst fs'. assert (Hai : add_identical k a (EProd kd' s' [x]) x = EProd kd' (kadd k s' (k1 k)) [x]).
      { cbn [add_identical]. rewrite eqb_refl by auto. clear -Hxp. destruct x; auto. discriminate. }
      rewrite Hai. now apply Hset.
    - assert (Hxo : x = old). { destruct x, old; try discriminate; cbn [factors_of] in Hk; congruence. }
      assert (Hxc : is_const x = false). { rewrite Hxo in *. now destruct (is_const old). }
      rewrite append_push by auto. cbn [scale push fst snd app]. rewrite (tidy_clone k a x Hx). apply Hrep. rewrite Hxo. now destruct old.
  Qed.
  Definition inv2 acc v n := inv acc v n /\ NoDup (keys acc).
  Lemma accumulate_keys look flat x : lookup_spec look -> lookup_complete look -> forall acc v n, Forall tidy (terms flat [x]) -> (n + nconst (terms flat [x]) <= 1)%nat ->
    inv2 acc v n -> NoDup (keys (accumulate k a look flat x acc)).
  Proof.
    intros Hl Hlc. assert (Hone : forall y acc v n, tidy y -> (n + nconst [y] <= 1)%nat -> inv2 acc v n -> NoDup (keys (accumulate1 k a look y acc))).
    { intros y acc v n Hy Hn ((H1 & H2 & H3) & H4). apply accumulate1_keys; auto. lia. }
    destruct flat.
    2:{ intros acc v n Ht Hn Hi. cbn [terms] in *. inversion Ht; subst. destruct x; cbn [accumulate]; eapply Hone; eauto. }
    cbn [terms]. intros acc v n. cbn [flat_map]. rewrite app_nil_r. revert acc v n.
    induction x as [z|y|kd s fs IH|ci ss IH|] using expr_ind'; intros acc v n Ht Hn Hi; cbn [terms_of] in *; cbn [accumulate].
    - inversion Ht; subst. eapply Hone; eauto. - inversion Ht; subst. eapply Hone; eauto. - inversion Ht; subst. eapply Hone; eauto.
    - revert acc v n Ht Hn Hi. induction ss as [|x ss IHs]; intros acc v n Ht Hn Hi; cbn [fold_left].
      + apply Hi.
      + inversion IH as [|? ? Hx IH']; subst. cbn [flat_map] in Ht, Hn. apply Forall_app in Ht as [Ht1 Ht2]. rewrite nconst_app in Hn.
        assert (Htt : terms (k:=k) (a:=a) true [x] = terms_of x) by (cbn [terms flat_map]; apply app_nil_r).
        apply (IHs IH' _ (v + value x) (n + nconst (terms_of x))%nat); auto; [lia|]. split.
        * pose proof (accumulate_good look true x Hl acc v n) as G. rewrite Htt in G. apply G; auto; [lia|]. apply Hi.
        * eapply Hx; eauto. lia.
    - inversion Ht; subst. eapply Hone; eauto.
  Qed.
  Lemma collect_keys look flat xs : lookup_spec look -> lookup_complete look -> forall acc v n, Forall tidy (terms flat xs) -> (n + nconst (terms flat xs) <= 1)%nat ->
    inv2 acc v n -> NoDup (keys (fold_left (fun acc x => accumulate k a look flat x acc) xs acc)).
  Proof.
    intros Hl Hlc. induction xs as [|x xs IH]; intros acc v n Ht Hn Hi; cbn [fold_left]; [apply Hi|].
    rewrite terms_cons in *. apply Forall_app in Ht as [Ht1 Ht2]. rewrite nconst_app in *.
    apply (IH _ (v + value x) (n + nconst (terms flat [x]))%nat); auto; [lia|]. split.
    - apply accumulate_good; auto; [lia|]. apply Hi. - eapply accumulate_keys; eauto. lia.
  Qed.
End P.
