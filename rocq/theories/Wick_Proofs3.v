(** The recursion over cursors and mutable state runs through exactly the patterns of the pure
    enumeration, and restores its state. *)
From Coq Require Import List ZArith Bool Arith Lia Permutation.
From Verif Require Import Wick_Model Wick_Spec Wick_Proofs1 Wick_Proofs2.
Import ListNotations.

(** * Cursors *)
Section Cursor.
  Context {I : Type}.
  Notation op := (op I).
  Notation nest := (list (list op)).
  Notation flat n := (tag_nest n 0).

  Lemma tag_nest_app (a b : nest) r : tag_nest (a ++ b) r = tag_nest a r ++ tag_nest b (r + length a).
  Proof.
    revert r. induction a as [|g a IH]; intros r; cbn; [rewrite Nat.add_0_r; reflexivity|].
    rewrite IH, app_assoc. f_equal. f_equal. lia.
  Qed.

  Lemma tag_nest_snd (n : nest) r : map snd (tag_nest n r) = concat n.
  Proof.
    revert r. induction n as [|g n IH]; intros r; [reflexivity|]. cbn. rewrite map_app, map_map, IH. cbn. f_equal. apply map_id.
  Qed.

  Lemma tag_nest_length (n : nest) r : length (tag_nest n r) = opsize n.
  Proof. unfold opsize. rewrite <- (tag_nest_snd n r), map_length. reflexivity. Qed.

  Lemma tag_nest_tags (n : nest) r : tags_ok r (length n) (tag_nest n r).
  Proof.
    revert r. induction n as [|g n IH]; intros r; [exact Logic.I|].
    assert (IH' : forall x, In x (tag_nest n (S r)) -> S r <= fst x) by (intros x; apply (tags_ok_ge _ _ _ (IH (S r)))).
    cbn [tag_nest length].
    assert (Hd : tags_ok r (S (length n)) (tag_nest n (S r))).
    { specialize (IH (S r)). clear IH'. induction (tag_nest n (S r)) as [|x v IHv]; [exact Logic.I|].
      destruct IH as (H1 & H2 & H3). split; [lia|]. split; auto. }
    induction g as [|o g IHg]; [exact Hd|]. cbn. split; [lia|]. split; [|exact IHg].
    intros y Hy. apply in_app_iff in Hy. destruct Hy as [Hy|Hy].
    - apply in_map_iff in Hy. destruct Hy as (o' & <- & _). cbn. lia.
    - specialize (IH' y Hy). lia.
  Qed.

  (** the nest belonging to a flat list *)
  Definition unflat (m : nat) (v : list (nat * op)) : nest := map (fun k => members k v) (seq 0 m).

  Lemma members_tag_nest (n : nest) r k : members k (tag_nest n r) = if k <? r then [] else nth (k - r) n [].
  Proof.
    revert r. induction n as [|g n IH]; intros r.
    - destruct (k <? r); [reflexivity|]. destruct (k - r); reflexivity.
    - cbn [tag_nest]. rewrite members_app, IH.
      destruct (Nat.ltb_spec k r) as [H|H].
      + replace (k <? S r) with true by (symmetry; apply Nat.ltb_lt; lia). rewrite app_nil_r.
        apply members_none. intros x Hx. apply in_map_iff in Hx. destruct Hx as (o & <- & _). cbn. lia.
      + destruct (Nat.eq_dec k r) as [->|E].
        * replace (r <? S r) with true by (symmetry; apply Nat.ltb_lt; lia). rewrite app_nil_r, Nat.sub_diag. cbn [nth].
          rewrite members_all, map_map; [cbn; apply map_id|]. intros x Hx. apply in_map_iff in Hx. destruct Hx as (o & <- & _). reflexivity.
        * replace (k <? S r) with false by (symmetry; apply Nat.ltb_ge; lia).
          replace (k - r) with (S (k - S r)) by lia. cbn [nth].
          rewrite members_none; [reflexivity|]. intros x Hx. apply in_map_iff in Hx. destruct Hx as (o & <- & _). cbn. lia.
  Qed.

  Lemma unflat_flat (n : nest) : unflat (length n) (flat n) = n.
  Proof.
    unfold unflat. apply nth_ext with (d := []) (d' := []); rewrite map_length, seq_length; [reflexivity|].
    intros i Hi. rewrite (nth_indep _ [] (members 0 (flat n))) by (rewrite map_length, seq_length; exact Hi).
    rewrite (map_nth (fun k => members k (flat n))), seq_nth by exact Hi. cbn [Nat.add].
    rewrite members_tag_nest, Nat.sub_0_r. reflexivity.
  Qed.

  (** The cursor [c] is at the element [x] of [n], after [P] and before [S]. *)
  Definition at_elem (n : nest) (c : cursor) (P : list (nat * op)) (x : nat * op) (S : list (nat * op)) : Prop :=
    exists n1 g1 g2 n2, n = n1 ++ (g1 ++ snd x :: g2) :: n2 /\ fst x = length n1 /\
      c = mkc (length n1) (length g1) (Z.of_nat (length P)) /\
      P = tag_nest n1 0 ++ map (pair (length n1)) g1 /\
      S = map (pair (length n1)) g2 ++ tag_nest n2 (Datatypes.S (length n1)).
  Definition at_end (n : nest) (c : cursor) : Prop := c_r c = length n.

  Lemma at_elem_flat n c P x S : at_elem n c P x S -> flat n = P ++ x :: S.
  Proof.
    intros (n1 & g1 & g2 & n2 & -> & Hx & -> & -> & ->). rewrite tag_nest_app. cbn [tag_nest Nat.add].
    rewrite map_app. cbn [map]. rewrite <- Hx. rewrite <- !app_assoc. cbn [app]. rewrite <- surjective_pairing. reflexivity.
  Qed.

  Lemma nth_middle' {X} (n1 : list X) g n2 d : nth (length n1) (n1 ++ g :: n2) d = g.
  Proof. rewrite app_nth2, Nat.sub_diag by lia. reflexivity. Qed.

  Lemma at_elem_not_end n c P x S : at_elem n c P x S -> c_is_end n c = false.
  Proof.
    intros (n1 & g1 & g2 & n2 & -> & Hx & -> & -> & ->). unfold c_is_end. cbn [c_r]. apply Nat.eqb_neq. rewrite app_length. cbn. lia.
  Qed.
  Lemma at_elem_read n c P x S : at_elem n c P x S -> c_read n c = Some (snd x).
  Proof.
    intros (n1 & g1 & g2 & n2 & -> & Hx & -> & -> & ->). unfold c_read. cbn [c_r c_e]. rewrite nth_middle'.
    rewrite nth_error_app2, Nat.sub_diag by lia. reflexivity.
  Qed.
  Lemma at_elem_r n c P x S : at_elem n c P x S -> c_r c = fst x /\ c_ord c = Z.of_nat (length P) /\ fst x < length n.
  Proof.
    intros (n1 & g1 & g2 & n2 & -> & Hx & -> & -> & ->). cbn [c_r c_ord]. rewrite (app_length n1). cbn [length]. split; [auto|]. split; [reflexivity|lia].
  Qed.

  Lemma nest_update_middle {X} (n1 : list (list X)) g n2 f : nest_update (n1 ++ g :: n2) (length n1) f = n1 ++ f g :: n2.
  Proof.
    unfold nest_update. rewrite firstn_app, skipn_app, Nat.sub_diag, firstn_all, skipn_all. cbn. rewrite app_nil_r. reflexivity.
  Qed.
  Lemma list_erase_middle {X} (g1 : list X) x g2 : list_erase (g1 ++ x :: g2) (length g1) = g1 ++ g2.
  Proof.
    unfold list_erase. rewrite firstn_app, Nat.sub_diag, firstn_all, firstn_O, app_nil_r.
    replace (S (length g1)) with (length (g1 ++ [x])) by (rewrite app_length; cbn; lia).
    replace (g1 ++ x :: g2) with ((g1 ++ [x]) ++ g2) by (rewrite <- app_assoc; reflexivity).
    rewrite skipn_app, Nat.sub_diag, skipn_all. reflexivity.
  Qed.
  Lemma list_insert_middle {X} (g1 : list X) x g2 : list_insert (g1 ++ g2) (length g1) x = g1 ++ x :: g2.
  Proof.
    unfold list_insert. rewrite firstn_app, Nat.sub_diag, firstn_all, firstn_O, app_nil_r.
    rewrite skipn_app, Nat.sub_diag, skipn_all. reflexivity.
  Qed.

  Lemma c_erase_flat n c P x S : at_elem n c P x S -> flat (c_erase n c) = P ++ S /\ length (c_erase n c) = length n.
  Proof.
    intros (n1 & g1 & g2 & n2 & -> & Hx & -> & -> & ->). unfold c_erase. cbn [c_r c_e].
    rewrite nest_update_middle, list_erase_middle. split; [|rewrite !app_length; reflexivity].
    rewrite tag_nest_app. cbn [tag_nest Nat.add]. rewrite map_app, <- !app_assoc. reflexivity.
  Qed.

  Lemma c_insert_erase n c P x S : at_elem n c P x S -> c_insert (c_erase n c) c (snd x) = n.
  Proof.
    intros (n1 & g1 & g2 & n2 & -> & Hx & -> & -> & ->). unfold c_erase, c_insert. cbn [c_r c_e].
    rewrite nest_update_middle, list_erase_middle, nest_update_middle, list_insert_middle. reflexivity.
  Qed.

  Lemma app_cons_split {X} (n1 : list X) G n2 m1 H m2 : n1 ++ G :: n2 = m1 ++ H :: m2 -> length n1 < length m1 ->
    exists k, m1 = n1 ++ G :: k /\ n2 = k ++ H :: m2.
  Proof.
    revert m1. induction n1 as [|a n1 IH]; intros m1 E Hl.
    - destruct m1 as [|b m1]; [cbn in Hl; lia|]. cbn in E. injection E as -> ->. exists m1. auto.
    - destruct m1 as [|b m1]; [cbn in Hl; lia|]. cbn in E. injection E as -> E. cbn in Hl.
      destruct (IH m1 E ltac:(lia)) as (k & -> & ->). exists k. auto.
  Qed.

  Lemma sorted_before k m u (x y : nat * op) v P : tags_ok k m (P ++ x :: u ++ y :: v) -> fst x <= fst y.
  Proof.
    intros H. apply tags_ok_app in H. destruct H as (_ & H & _). apply H. apply in_app_iff. cbn. tauto.
  Qed.

  (** erasing behind a cursor, in another range *)
  Lemma at_elem_erase_later n cl cr P x u y v : at_elem n cl P x (u ++ y :: v) -> at_elem n cr (P ++ x :: u) y v -> fst x <> fst y ->
    at_elem (c_erase n cr) cl P x (u ++ v).
  Proof.
    intros Hl Hr Hne.
    assert (Hlt : fst x < fst y).
    { pose proof (tag_nest_tags n 0) as Ht. rewrite (at_elem_flat _ _ _ _ _ Hl) in Ht. pose proof (sorted_before _ _ _ _ _ _ _ Ht). lia. }
    destruct Hl as (n1 & g1 & g2 & n2 & En & Hx & -> & HP & HS).
    destruct Hr as (m1 & h1 & h2 & m2 & Em & Hy & -> & HP' & HS').
    assert (Hn : n1 ++ (g1 ++ snd x :: g2) :: n2 = m1 ++ (h1 ++ snd y :: h2) :: m2) by (rewrite <- En; exact Em).
    destruct (app_cons_split _ _ _ _ _ _ Hn ltac:(lia)) as (k & -> & ->).
    subst n. unfold c_erase. cbn [c_r c_e]. rewrite Em, nest_update_middle, list_erase_middle.
    exists n1, g1, g2, (k ++ (h1 ++ h2) :: m2). repeat split; auto.
    - rewrite <- app_assoc. reflexivity.
    - rewrite app_length in HS'. cbn [length] in HS'.
      rewrite tag_nest_app in HS. cbn [tag_nest] in HS. rewrite map_app in HS. cbn [map] in HS.
      assert (Eu : u = map (pair (length n1)) g2 ++ tag_nest k (S (length n1)) ++ map (pair (S (length n1) + length k)) h1).
      { rewrite <- !app_assoc in HS. cbn [app] in HS.
        apply (app_inv_tail (y :: v)). rewrite HS. rewrite <- !app_assoc. f_equal. f_equal. f_equal.
        rewrite HS'. f_equal; [rewrite (surjective_pairing y); f_equal; rewrite Hy, app_length; cbn; lia|].
        replace (length n1 + S (length k)) with (S (length n1) + length k) by lia. reflexivity. }
      rewrite Eu, HS', tag_nest_app. cbn [tag_nest]. rewrite map_app, <- !app_assoc.
      replace (length n1 + S (length k)) with (S (length n1) + length k) by lia. reflexivity.
  Qed.

  Lemma skip_empty_spec (n : nest) r : exists k n', n = repeat [] k ++ n' /\ skip_empty n r = r + k /\
    match n' with [] => True | g :: _ => g <> [] end.
  Proof.
    revert r. induction n as [|g n IH]; intros r.
    - exists 0, []. cbn. repeat split; lia.
    - destruct g as [|o g].
      + destruct (IH (S r)) as (k & n' & -> & E & H). exists (S k), n'. cbn. rewrite E. repeat split; auto; lia.
      + exists 0, ((o :: g) :: n). cbn. repeat split; auto; try lia. discriminate.
  Qed.

  Lemma tag_nest_repeat k r : tag_nest (I := I) (repeat [] k) r = [].
  Proof. revert r. induction k as [|k IH]; intros r; [reflexivity|]. cbn. apply IH. Qed.

  Lemma c_begin_at n x S : flat n = x :: S -> at_elem n (c_begin n) [] x S.
  Proof.
    intros E. unfold c_begin. destruct (skip_empty_spec n 0) as (k & n' & Hn & -> & H). subst n. cbn [Nat.add].
    rewrite tag_nest_app, tag_nest_repeat, repeat_length in E. cbn [app Nat.add] in E.
    destruct n' as [|[|o g] n']; [discriminate E|congruence|].
    cbn in E. injection E as E1 E2. rewrite app_length, repeat_length. cbn [length].
    destruct (Nat.eqb_spec k (k + Datatypes.S (length n'))) as [Hk|Hk]; [lia|].
    exists (repeat [] k), [], g, n'. subst x. cbn [fst snd app length]. rewrite !repeat_length, tag_nest_repeat. auto.
  Qed.

  Lemma c_next_at n c P x S : at_elem n c P x S ->
    match S with
    | [] => at_end n (c_next n c)
    | y :: S' => at_elem n (c_next n c) (P ++ [x]) y S'
    end.
  Proof.
    intros (n1 & g1 & g2 & n2 & -> & Hx & -> & HP & HS). unfold c_next. cbn [c_r c_e c_ord]. rewrite nth_middle'.
    assert (Hord : (Z.of_nat (length P) + 1)%Z = Z.of_nat (length (P ++ [x]))) by (rewrite app_length; cbn; lia).
    destruct g2 as [|y g2].
    - replace (Datatypes.S (length g1) =? length (g1 ++ [snd x])) with true by (symmetry; apply Nat.eqb_eq; rewrite app_length; cbn; lia).
      cbn [map app] in HS.
      replace (skipn (Datatypes.S (length n1)) (n1 ++ (g1 ++ [snd x]) :: n2)) with n2.
      2:{ replace (Datatypes.S (length n1)) with (length (n1 ++ [g1 ++ [snd x]])) by (rewrite app_length; cbn; lia).
          replace (n1 ++ (g1 ++ [snd x]) :: n2) with ((n1 ++ [g1 ++ [snd x]]) ++ n2) by (rewrite <- app_assoc; reflexivity).
          rewrite skipn_app, Nat.sub_diag, skipn_all. reflexivity. }
      destruct (skip_empty_spec n2 (Datatypes.S (length n1))) as (k & n' & Hn & -> & H). subst n2.
      rewrite tag_nest_app, tag_nest_repeat, repeat_length in HS. cbn [app] in HS.
      destruct n' as [|[|o g] n'].
      + subst S. cbn. unfold at_end. cbn [c_r]. rewrite app_length. cbn [length]. rewrite app_length, repeat_length. cbn. lia.
      + congruence.
      + subst S. cbn [tag_nest map app].
        exists (n1 ++ (g1 ++ [snd x]) :: repeat [] k), [], g, n'. cbn [fst snd app].
        rewrite app_length. cbn [length]. rewrite repeat_length.
        replace (length n1 + Datatypes.S k) with (Datatypes.S (length n1) + k) by lia.
        repeat split; try reflexivity.
        * rewrite <- app_assoc. reflexivity.
        * rewrite Hord. reflexivity.
        * rewrite HP, tag_nest_app. cbn [tag_nest Nat.add]. rewrite tag_nest_repeat, map_app, app_nil_r. cbn [map]. rewrite app_nil_r, <- Hx, <- surjective_pairing, <- !app_assoc. reflexivity.
    - replace (Datatypes.S (length g1) =? length (g1 ++ snd x :: y :: g2)) with false by (symmetry; apply Nat.eqb_neq; rewrite app_length; cbn; lia).
      subst S. cbn [map app].
      exists n1, (g1 ++ [snd x]), g2, n2. cbn [fst snd]. rewrite app_length. cbn [length].
      repeat split; try reflexivity.
      + rewrite <- app_assoc. reflexivity.
      + rewrite Hord, Nat.add_1_r. reflexivity.
      + rewrite HP, map_app, <- !app_assoc. cbn [map]. rewrite <- Hx, <- surjective_pairing. reflexivity.
  Qed.

  Lemma at_elem_unique n c P x S v : at_elem n c P x S -> flat n = P ++ v -> v = x :: S.
  Proof. intros H E. rewrite (at_elem_flat _ _ _ _ _ H) in E. apply app_inv_head in E. congruence. Qed.

  (** the position of a cursor, at an element or at the end *)
  Definition at_pos (n : nest) (c : cursor) (P v : list (nat * op)) : Prop :=
    match v with [] => at_end n c | x :: S0 => at_elem n c P x S0 end.

  Lemma at_pos_next n c P x v : at_pos n c P (x :: v) -> at_pos n (c_next n c) (P ++ [x]) v.
  Proof. intros H. apply c_next_at in H. exact H. Qed.

  Lemma c_advance_at n : forall p2 c p1 v, flat n = p1 ++ p2 ++ v -> at_pos n c p1 (p2 ++ v) ->
    exists c', c_advance n c (length p2) = Some c' /\ at_pos n c' (p1 ++ p2) v.
  Proof.
    induction p2 as [|x p2 IH]; intros c p1 v E H.
    - exists c. rewrite app_nil_r. auto.
    - cbn [app] in H. cbn [length c_advance]. rewrite (at_elem_not_end _ _ _ _ _ H).
      apply at_pos_next in H. destruct (IH (c_next n c) (p1 ++ [x]) v) as (c' & Hc & Hp).
      + rewrite E, <- app_assoc. reflexivity.
      + exact H.
      + exists c'. split; [exact Hc|]. rewrite <- app_assoc in Hp. exact Hp.
  Qed.

  Lemma start_at n p v : flat n = p ++ v -> p ++ v <> [] -> exists c, c_advance n (c_begin n) (length p) = Some c /\ at_pos n c p v.
  Proof.
    intros E Hne. apply (c_advance_at n p (c_begin n) [] v E). unfold at_pos. rewrite <- E.
    destruct (flat n) as [|x S0] eqn:Ef; [congruence|]. apply c_begin_at. exact Ef.
  Qed.
End Cursor.
