(** flatten and adjoint. *)
From Coq Require Import List Bool Arith Lia Permutation.
From Verif Require Import Wick_Spec Wick_Ring Expr_Model Expr_Spec Expr_Proofs1 Expr_Proofs2.
Import ListNotations.

Section P.
  Variable k : kops.
  Variable a : aops k.
  Notation E := (expr (K k) (A a)).
  Notation depth := (depth k a).
  Notation clone := (clone k a).
  Notation append := (append k a).
  Notation sum_append := (sum_append k a).
  Notation is_prod := (is_prod k a).
  Notation is_sum := (is_sum k a).
  Notation is_const := (is_const k a).
  Notation is_zero := (is_zero k a).

  (** clone keeps the kind of an expression *)
  Lemma clone_kind e : is_prod (clone e) = is_prod e /\ is_sum (clone e) = is_sum e /\ is_const (clone e) = is_const e.
  Proof. destruct e; cbn; auto. Qed.

  Lemma unnested_prod kd s fs : unnested (k:=k) (a:=a) (EProd kd s fs) <-> Forall (fun x => is_prod x = false /\ unnested x) fs.
  Proof. apply fr_and. Qed.
  Lemma unnested_sum ci ss : unnested (k:=k) (a:=a) (ESum ci ss) <-> Forall (fun x => is_sum x = false /\ unnested x) ss.
  Proof. apply fr_and. Qed.

  Definition pflat (p : prod k a) : Prop := Forall (fun x => is_prod x = false /\ unnested x) (snd p).
  Definition sflat (p : sumst k a) : Prop := Forall (fun x => is_sum x = false /\ unnested x) (snd p).

  (** what append pushes *)
  Lemma append_unnested cl e t : unnested e -> (t = FNo -> is_prod e = false) ->
    (forall y, depth y <= depth e -> unnested y -> unnested (cl y)) -> (forall y, is_prod (cl y) = is_prod y) ->
    forall p, pflat p -> pflat (append cl t e p).
  Proof.
    revert t. induction e as [z|y|kd s fs IH|ci ss IH|] using expr_ind'; intros t Hu Ht Hcl Hk p Hp; cbn [Expr_Model.append]; auto.
    - apply Forall_app; split; auto. constructor; auto. rewrite Hk; auto.
    - assert (Hfl : forall t', pflat (fold_left (fun p x => append cl t' x p) fs (scale k a s p))).
      { intros t'. apply unnested_prod in Hu. rewrite Forall_forall in Hu, IH.
        apply fold_left_inv; [|exact Hp]. intros q x Hx Hq. destruct (Hu x Hx). apply IH; auto.
        intros y Hy. apply Hcl. pose proof (in_prod_depth _ _ _ kd s _ Hx). lia. }
      destruct t; auto. specialize (Ht eq_refl). discriminate.
    - apply Forall_app; split; auto. constructor; auto. rewrite Hk; auto.
    - apply Forall_app; split; auto. constructor; auto. rewrite Hk; auto.
  Qed.

  Lemma Forall_add_at (P : E -> Prop) j z l : (forall w, P (EConst w)) -> P EErr -> Forall P l -> Forall P (add_at k a j z l).
  Proof.
    intros H1 H2. revert l; induction j; destruct l as [|x l]; cbn; intros H; auto; inversion H; subst.
    - destruct x; constructor; auto. - constructor; auto.
  Qed.

  Lemma sum_append_unnested cl e : unnested e ->
    (forall y, depth y <= depth e -> unnested y -> unnested (cl y)) -> (forall y, is_sum (cl y) = is_sum y) ->
    forall p, sflat p -> sflat (sum_append cl e p).
  Proof.
    induction e as [z|y|kd s fs IH|ci ss IH|] using expr_ind'; intros Hu Hcl Hk p Hp; cbn [Expr_Model.sum_append].
    - destruct (is_zero _); auto. destruct (fst p).
      + apply Forall_add_at; cbn; auto. + apply Forall_app; split; cbn; auto.
    - destruct (is_zero _); auto. apply Forall_app; split; auto. constructor; auto. rewrite Hk; auto.
    - destruct (is_zero _); auto. apply Forall_app; split; auto. constructor; auto. rewrite Hk; auto.
    - apply unnested_sum in Hu. rewrite Forall_forall in Hu, IH. apply fold_left_inv; auto. intros q x Hx Hq. destruct (Hu x Hx). apply IH; auto.
      intros y Hy. apply Hcl. pose proof (in_sum_depth _ _ _ ci _ Hx). lia.
    - apply Forall_app; split; auto. constructor; auto. rewrite Hk; auto.
  Qed.

  Lemma clone_unnested e : unnested e -> unnested (clone e).
  Proof.
    induction e as [e IH] using (depth_ind k a). intros Hu. destruct e as [z|y|kd s fs|ci ss|]; auto.
    - rewrite clone_prod. cbn zeta. apply unnested_prod. apply unnested_prod in Hu. rewrite Forall_forall in Hu.
      apply (fold_left_inv pflat); [|constructor]. intros p x Hx Hp. destruct (Hu x Hx) as [H1 H2].
      pose proof (in_prod_depth _ _ _ kd s _ Hx) as Hd. apply append_unnested; auto.
      + intros _. destruct (clone_kind x) as (-> & _). auto.
      + intros y Hy. apply IH. pose proof (clone_depth k a x). lia.
      + intros y. apply clone_kind.
    - rewrite clone_sum. cbn zeta. apply unnested_sum. apply unnested_sum in Hu. rewrite Forall_forall in Hu.
      apply (fold_left_inv sflat); [|constructor]. intros p x Hx Hp. destruct (Hu x Hx) as [H1 H2].
      pose proof (in_sum_depth _ _ _ ci _ Hx) as Hd. apply sum_append_unnested; auto.
      + intros y Hy. apply IH. pose proof (clone_depth k a x). lia.
      + intros y. apply clone_kind.
  Qed.

  Lemma mk_prod_unnested kd s fs : Forall unnested fs -> unnested (mk_prod k a kd s FRec fs).
  Proof.
    intros H. rewrite Forall_forall in H. unfold mk_prod. cbn zeta. apply unnested_prod. apply (fold_left_inv pflat); [|constructor].
    intros p x Hx Hp. apply append_unnested; auto; try discriminate; [intros; now apply clone_unnested|intros; apply clone_kind].
  Qed.
  Lemma mk_sum_unnested ss : Forall unnested ss -> unnested (mk_sum k a ss).
  Proof.
    intros H. rewrite Forall_forall in H. unfold mk_sum. cbn zeta. apply unnested_sum. apply (fold_left_inv sflat); [|constructor].
    intros p x Hx Hp. apply sum_append_unnested; auto; [intros; now apply clone_unnested|intros; apply clone_kind].
  Qed.

  Lemma existsb_false {X} (f : X -> bool) l : existsb f l = false -> forall x, In x l -> f x = false.
  Proof. intros H x Hx. destruct (f x) eqn:Hf; auto. assert (existsb f l = true) by (apply existsb_exists; eauto). congruence. Qed.

  Lemma flatten_unnested e : unnested (flatten k a e).
  Proof.
    induction e as [z|y|kd s fs IH|ci ss IH|] using expr_ind'; cbn [flatten]; cbn; auto.
    - assert (Hall : Forall unnested (map (flatten k a) fs)) by (apply Forall_map; exact IH).
      destruct (existsb _ _) eqn:Hx; [now apply mk_prod_unnested|]. apply unnested_prod. rewrite Forall_forall in *.
      intros x Hin. split; auto. eapply existsb_false in Hx; eauto.
    - assert (Hall : Forall unnested (map (flatten k a) ss)) by (apply Forall_map; exact IH).
      destruct (existsb _ _) eqn:Hx; [now apply mk_sum_unnested|]. apply unnested_sum. rewrite Forall_forall in *.
      intros x Hin. split; auto. eapply existsb_false in Hx; eauto.
  Qed.

  Lemma flatten_ok (i : interpretation k a) e : ok e -> ok (flatten k a e) /\ value i (flatten k a e) = value i e.
  Proof.
    induction e as [z|y|kd s fs IH|ci ss IH|] using expr_ind'; intros Hok; cbn [flatten]; auto.
    - apply ok_prod in Hok. rewrite Forall_forall in IH, Hok.
      assert (Hall : Forall ok (map (flatten k a) fs)). { apply Forall_map, Forall_forall. intros x Hx. exact (proj1 (IH x Hx (Hok x Hx))). }
      assert (Hv : map (value i) (map (flatten k a) fs) = map (value i) fs). { rewrite map_map. apply map_ext_in. intros x Hx. exact (proj2 (IH x Hx (Hok x Hx))). }
      destruct (existsb _ _).
      + destruct (mk_prod_ok k a i PPlain s FRec _ Hall) as [H1 H2]. split; auto. rewrite H2, Hv. reflexivity.
      + split; [now apply ok_prod|]. cbn [value]. now rewrite Hv.
    - apply ok_sum in Hok as [Hci Hok]. rewrite Forall_forall in IH, Hok.
      assert (Hall : Forall ok (map (flatten k a) ss)). { apply Forall_map, Forall_forall. intros x Hx. exact (proj1 (IH x Hx (Hok x Hx))). }
      assert (Hv : map (value i) (map (flatten k a) ss) = map (value i) ss). { rewrite map_map. apply map_ext_in. intros x Hx. exact (proj2 (IH x Hx (Hok x Hx))). }
      destruct (existsb _ _).
      + destruct (mk_sum_ok k a i _ Hall) as [H1 H2]. split; auto. rewrite H2, Hv. reflexivity.
      + split; [apply ok_sum; split; auto|cbn [value]; now rewrite Hv]. destruct ci as [j|]; cbn in *; auto.
        destruct Hci as [z Hz]. exists z. rewrite nth_error_map, Hz. reflexivity.
  Qed.

  (** ** adjoint *)
  Section Star.
    Variable i : interpretation k a.
    Variable st : star_interp i.

    Lemma star_rprod l : star st (rprod l) = rprod (map (star st) (rev l)).
    Proof.
      induction l as [|x l IH]; [apply star_1|]. cbn [rev]. rewrite map_app, rprod_app. cbn [map]. rewrite rprod_1, rprod_cons, star_mul, IH. reflexivity.
    Qed.
    Lemma star_rsum l : star st (rsum l) = rsum (map (star st) l).
    Proof. induction l as [|x l IH]; [apply star_0|]. cbn [map]. rewrite !rsum_cons, star_add, IH. reflexivity. Qed.

    Lemma adj_ok n : forall e, ok e -> depth e <= n -> (forall s fs, e <> EProd PComm s fs) ->
      ok (adj k a n e) /\ value i (adj k a n e) = star st (value i e).
    Proof.
      induction n as [|n IH]; intros e Hok Hd Hk. { pose proof (depth_pos k a e); lia. }
      assert (Hsub : forall x, ok x -> depth x <= n -> ok (adj k a n (clone x)) /\ value i (adj k a n (clone x)) = star st (value i x)).
      { intros x Hx Hxd. destruct (clone_ok k a i x Hx) as [H1 H2]. rewrite <- H2. apply IH; auto.
        - pose proof (clone_depth k a x). lia.
        - intros s fs Hc. destruct x; discriminate. }
      destruct e as [z|y|kd s fs|ci ss|]; cbn [adj].
      - split; [exact Logic.I|]. cbn. symmetry. apply star_emb.
      - split; [exact Logic.I|]. cbn. symmetry. apply star_val.
      - assert (Hgo : ok (mk_prod k a kd (kconj k s) FRec (map (fun x => adj k a n (clone x)) (rev fs))) /\
          value i (mk_prod k a kd (kconj k s) FRec (map (fun x => adj k a n (clone x)) (rev fs))) = star st (value i (EProd kd s fs))).
        { apply ok_prod in Hok. rewrite Forall_forall in Hok.
          assert (Hx : forall x, In x (rev fs) -> ok x /\ depth x <= n).
          { intros x Hx. apply in_rev in Hx. split; auto. pose proof (in_prod_depth _ _ _ kd s _ Hx). lia. }
          destruct (mk_prod_ok k a i kd (kconj k s) FRec (map (fun x => adj k a n (clone x)) (rev fs))) as [H1 H2].
          { apply Forall_map, Forall_forall. intros x Hin. destruct (Hx x Hin). now apply Hsub. }
          split; auto. rewrite H2. cbn [value]. rewrite star_mul, star_emb, star_rprod, central_emb. f_equal. f_equal.
          rewrite <- map_rev, !map_map. apply map_ext_in. intros x Hin. destruct (Hx x Hin). now apply Hsub. }
        destruct kd; auto. exfalso. now apply (Hk s fs).
      - apply ok_sum in Hok as [_ Hok]. rewrite Forall_forall in Hok.
        assert (Hx : forall x, In x ss -> ok x /\ depth x <= n).
        { intros x Hx. split; auto. pose proof (in_sum_depth _ _ _ ci _ Hx). lia. }
        destruct (mk_sum_ok k a i (map (fun x => adj k a n (clone x)) ss)) as [H1 H2].
        { apply Forall_map, Forall_forall. intros x Hin. destruct (Hx x Hin). now apply Hsub. }
        split; auto. rewrite H2. cbn [value]. rewrite star_rsum. f_equal. rewrite !map_map. apply map_ext_in. intros x Hin. destruct (Hx x Hin). now apply Hsub.
      - destruct Hok.
    Qed.

    Lemma adjoint_ok e : ok e -> ok (adjoint k a e) /\ value i (adjoint k a e) = star st (value i e).
    Proof.
      intros He. destruct (clone_ok k a i e He) as [H1 H2]. rewrite <- H2. apply adj_ok; auto.
      intros s fs Hc. destruct e; discriminate.
    Qed.
    Lemma adj_in_place_ok e : ok e -> (forall s fs, e <> EProd PComm s fs) -> ok (adj_in_place k a e) /\ value i (adj_in_place k a e) = star st (value i e).
    Proof. intros He Hk. now apply adj_ok. Qed.

    Lemma adj_clone_enough n x : ok x -> depth x <= n -> adj k a n (clone x) = adjoint k a x.
    Proof.
      intros _ Hd. pose proof (clone_depth k a x) as Hc. unfold adjoint, adj_in_place.
      assert (Hgen : forall n m e, depth e <= n -> depth e <= m -> adj k a n e = adj k a m e).
      { clear. induction n as [|n IH]; intros m e Hn Hm. { pose proof (depth_pos k a e); lia. }
        destruct m as [|m]. { pose proof (depth_pos k a e); lia. }
        assert (Hx : forall l, mdepth k a l <= n -> mdepth k a l <= m -> map (fun x => adj k a n (clone x)) l = map (fun x => adj k a m (clone x)) l).
        { intros l H1 H2. apply map_ext_in. intros x Hx. apply (mdepth_in k a) in Hx. pose proof (clone_depth k a x). apply IH; lia. }
        assert (Hr : forall l, mdepth k a (rev l) <= mdepth k a l). { intros l. apply mdepth_le. intros x Hin. apply mdepth_in. now apply in_rev. }
        destruct e as [z|y|kd s fs|ci ss|]; cbn [adj]; auto.
        - rewrite depth_prod in *. specialize (Hr fs). rewrite (Hx fs), (Hx (rev fs)) by lia. reflexivity.
        - rewrite depth_sum in *. rewrite (Hx ss) by lia. reflexivity. }
      apply Hgen; lia.
    Qed.

    (** the adjoint of a CProduct, when the factors commute *)
    Lemma adj_comm_ok s fs : ok (k:=k) (a:=a) (EProd PComm s fs) ->
      (forall x y, In x fs -> In y fs -> rmul _ (value i x) (value i y) = rmul _ (value i y) (value i x)) ->
      ok (adj_in_place k a (EProd PComm s fs)) /\ value i (adj_in_place k a (EProd PComm s fs)) = star st (value i (EProd PComm s fs)).
    Proof.
      intros Hok Hc. apply ok_prod in Hok. rewrite Forall_forall in Hok. unfold adj_in_place. rewrite depth_prod. cbn [adj].
      assert (Hsub : forall x, In x fs -> ok (adj k a (mdepth k a fs) (clone x)) /\ value i (adj k a (mdepth k a fs) (clone x)) = star st (value i x)).
      { intros x Hx. rewrite adj_clone_enough; auto. - now apply adjoint_ok; auto. - now apply mdepth_in. }
      destruct (mk_prod_ok k a i PComm (kconj k s) FRec (map (fun x => adj k a (mdepth k a fs) (clone x)) fs)) as [H1 H2].
      { apply Forall_map, Forall_forall. intros x Hx. now apply Hsub. }
      split; auto. rewrite H2. cbn [value]. rewrite star_mul, star_emb, star_rprod, central_emb. f_equal.
      assert (Hm : map (value i) (map (fun x => adj k a (mdepth k a fs) (clone x)) fs) = map (star st) (map (value i) fs)).
      { rewrite !map_map. apply map_ext_in. intros x Hx. now apply Hsub. }
      rewrite Hm. clear -Hc. assert (Hc' : forall x y, In x (map (value i) fs) -> In y (map (value i) fs) -> rmul _ x y = rmul _ y x).
      { intros x y Hx Hy. apply in_map_iff in Hx as (x' & <- & Hx). apply in_map_iff in Hy as (y' & <- & Hy). auto. }
      rewrite <- star_rprod. revert Hc'. generalize (map (value i) fs). clear. intros l. induction l as [|x l IH]; intros Hc; cbn [map rprod fold_right].
      - symmetry. apply star_1.
      - assert (Hx : rmul (ir i) x (rprod l) = rmul _ (rprod l) x).
        { assert (Hx' : forall y, In y l -> rmul _ x y = rmul _ y x) by (intros; apply Hc; cbn; auto). clear -Hx'. induction l as [|y l IH]; cbn [rprod fold_right].
          - rewrite rmul_1_l, rmul_1_r. reflexivity.
          - change (fold_right (rmul (ir i)) (r1 (ir i)) l) with (rprod l). rewrite rmul_assoc, Hx' by (now left). rewrite <- !rmul_assoc. f_equal. apply IH. intros; apply Hx'; now right. }
        change (fold_right (rmul (ir i)) (r1 (ir i)) l) with (rprod l). rewrite Hx, star_mul. f_equal. apply IH. intros; apply Hc; now right.
    Qed.
  End Star.

  (** ** Tidy expressions: clone is the identity, and adjoint is the textbook adjoint. *)
  Definition tf (x : E) : Prop := is_prod x = false /\ is_const x = false /\ tidy x.
  Definition ts (x : E) : Prop := is_sum x = false /\ is_zero x = false /\ tidy x.
  Lemma tidy_prod kd s fs : tidy (k:=k) (a:=a) (EProd kd s fs) <-> kd = PPlain /\ Forall tf fs.
  Proof. cbn [tidy]. rewrite (fr_and tf). reflexivity. Qed.
  Lemma tidy_sum ci ss : tidy (k:=k) (a:=a) (ESum ci ss) <-> (forall i, (exists z, nth_error ss i = Some (EConst z)) <-> ci = Some i) /\ Forall ts ss.
  Proof. cbn [tidy]. rewrite (fr_and ts). reflexivity. Qed.

  Lemma append_push cl t x p : is_prod x = false -> is_const x = false -> append cl t x p = push k a p (cl x).
  Proof. destruct x; try discriminate; auto. Qed.

  Lemma fold_push (f : E -> E) fs : forall p, fold_left (fun p x => push k a p (f x)) fs p = (fst p, snd p ++ map f fs).
  Proof.
    induction fs as [|x fs IH]; intros p; cbn [fold_left map]. - rewrite app_nil_r. now destruct p. - rewrite IH. unfold push; cbn [fst snd]. now rewrite <- app_assoc.
  Qed.

  Lemma mk_prod_tidy kd s fs : Forall (fun x => is_prod x = false /\ is_const x = false /\ clone x = x) fs -> mk_prod k a kd s FRec fs = EProd kd s fs.
  Proof.
    intros H. rewrite Forall_forall in H. unfold mk_prod. rewrite (fold_left_ext _ (fun p x => push k a p x)).
    - rewrite (fold_push (fun x => x)). cbn [fst snd app]. now rewrite map_id.
    - intros p x Hx. destruct (H x Hx) as (H1 & H2 & H3). now rewrite append_push, H3.
  Qed.

  (** appending to a sum summands among which only the recorded one is a constant *)
  Lemma sum_tidy_gen (f : E -> E) ci ss : (forall i, (exists z, nth_error ss i = Some (EConst z)) <-> ci = Some i) ->
    Forall (fun x => is_sum (f x) = false /\ is_zero (f x) = false /\ is_const (f x) = is_const x /\ clone (f x) = f x) ss ->
    fold_left (fun st x => sum_append clone (f x) st) ss (None, []) = (ci, map f ss).
  Proof.
    intros Hci H.
    assert (Hgen : forall pre post, ss = pre ++ post ->
      fold_left (fun st x => sum_append clone (f x) st) post
        (match ci with Some j => if j <? length pre then Some j else None | None => None end, map f pre) = (ci, map f ss)).
    { intros pre post; revert pre. induction post as [|x post IH]; intros pre Hs; cbn [fold_left].
      - rewrite app_nil_r in Hs. subst pre. f_equal. destruct ci as [j|]; auto. destruct (Nat.ltb_spec j (length ss)); auto.
        exfalso. destruct (proj2 (Hci j) eq_refl) as [z Hz]. assert (j < length ss) by (apply nth_error_Some; congruence). lia.
      - assert (Hx : is_sum (f x) = false /\ is_zero (f x) = false /\ is_const (f x) = is_const x /\ clone (f x) = f x).
        { rewrite Forall_forall in H. apply H. rewrite Hs. apply in_elt. }
        destruct Hx as (H1 & H2 & H3 & H4).
        assert (Hstep : sum_append clone (f x) (match ci with Some j => if j <? length pre then Some j else None | None => None end, map f pre) =
          (match ci with Some j => if j <? length (pre ++ [x]) then Some j else None | None => None end, map f (pre ++ [x]))).
        { assert (Hconst : is_const x = true -> ci = Some (length pre)).
          { intros Hc. apply Hci. destruct x as [z| | | |]; try discriminate. exists z. rewrite Hs, nth_error_app2, Nat.sub_diag; auto. }
          assert (Hnconst : is_const x = false -> ci <> Some (length pre)).
          { intros Hc Hcc. destruct (proj2 (Hci (length pre)) Hcc) as [z Hz]. rewrite Hs, nth_error_app2, Nat.sub_diag in Hz; auto. cbn in Hz. inversion Hz; subst. discriminate. }
          rewrite app_length, map_app. cbn [length map].
          destruct (is_const x) eqn:Hc.
          - rewrite (Hconst eq_refl). rewrite Nat.ltb_irrefl. replace (length pre <? length pre + 1) with true by (symmetry; apply Nat.ltb_lt; lia).
            destruct (f x) as [z| | | |]; cbn in H3; try discriminate. cbn [Expr_Model.sum_append]. rewrite H2. cbn [fst snd]. now rewrite map_length.
          - specialize (Hnconst eq_refl).
            assert (Hlt : match ci with Some j => if j <? length pre + 1 then Some j else None | None => None end = match ci with Some j => if j <? length pre then Some j else None | None => None end).
            { destruct ci as [j|]; auto. destruct (Nat.ltb_spec j (length pre)), (Nat.ltb_spec j (length pre + 1)); auto; try lia. exfalso. apply Hnconst. f_equal. lia. }
            rewrite Hlt. destruct (f x) as [z|y|kd s fs|ci' ss'|]; cbn in H1, H3; try discriminate; cbn [Expr_Model.sum_append]; rewrite H2, H4; reflexivity. }
        rewrite Hstep. apply IH. rewrite Hs, <- app_assoc. reflexivity. }
    specialize (Hgen [] ss eq_refl). cbn [length map] in Hgen. rewrite <- Hgen. f_equal. f_equal. destruct ci as [j|]; auto.
  Qed.

  Lemma tidy_clone e : tidy e -> clone e = e.
  Proof.
    induction e as [z|y|kd s fs IH|ci ss IH|] using expr_ind'; intros Ht; auto.
    - apply tidy_prod in Ht as [-> Ht]. rewrite Forall_forall in IH, Ht. rewrite clone_prod. cbn zeta.
      rewrite (fold_left_ext _ (fun p x => push k a p x)).
      + rewrite (fold_push (fun x => x)). cbn [fst snd app]. now rewrite map_id.
      + intros p x Hx. destruct (Ht x Hx) as (H1 & H2 & H3). now rewrite !IH, append_push, IH by auto.
    - apply tidy_sum in Ht as [Hci Ht]. rewrite Forall_forall in IH, Ht. rewrite clone_sum. cbn zeta.
      rewrite (sum_tidy_gen clone ci); auto.
      + cbn [fst snd]. f_equal. rewrite <- (map_id ss) at 2. apply map_ext_in. intros x Hx. apply IH; auto. apply Ht; auto.
      + apply Forall_forall. intros x Hx. destruct (Ht x Hx) as (H1 & H2 & H3). rewrite !IH; auto.
  Qed.

  Section Adj.
    Hypothesis conj_conj : forall z, kconj k (kconj k z) = z.
    Hypothesis conj_zero : kconj k (k0 k) = k0 k.
    Hypothesis adj_adj : forall x, aadj a (aadj a x) = x.
    Hypothesis adj_zero : forall x, azero a (aadj a x) = azero a x.
    Hypothesis keqb_eq : forall x y, keqb k x y = true <-> x = y.

    Lemma adjoint_of_kind (e : E) : is_prod (adjoint_of e) = is_prod e /\ is_sum (adjoint_of e) = is_sum e /\ is_const (adjoint_of e) = is_const e.
    Proof. destruct e; cbn; auto. Qed.
    Lemma conj_is_zero z : keqb k (kconj k z) (k0 k) = keqb k z (k0 k).
    Proof.
      apply eq_true_iff_eq. rewrite !keqb_eq. split; intros H.
      - rewrite <- (conj_conj z), H. exact conj_zero. - now rewrite H.
    Qed.
    Lemma adjoint_of_zero (e : E) : is_zero (adjoint_of e) = is_zero e.
    Proof. destruct e; cbn; auto; apply conj_is_zero. Qed.

    Lemma adjoint_of_tidy (e : E) : tidy e -> tidy (adjoint_of e).
    Proof.
      induction e as [z|y|kd s fs IH|ci ss IH|] using expr_ind'; intros Ht; auto; cbn [adjoint_of].
      - apply tidy_prod in Ht as [-> Ht]. apply tidy_prod. split; auto. apply Forall_rev, Forall_map. rewrite Forall_forall in *. intros x Hx.
        destruct (Ht x Hx) as (H1 & H2 & H3). destruct (adjoint_of_kind x) as (G1 & _ & G3). repeat split; try congruence. auto.
      - apply tidy_sum in Ht as [Hci Ht]. apply tidy_sum. split.
        + intros j. rewrite <- Hci. rewrite nth_error_map. split; intros [z Hz].
          * destruct (nth_error ss j) as [[w| | | |]|]; cbn in Hz; try discriminate. eauto.
          * rewrite Hz. cbn. eauto.
        + apply Forall_map. rewrite Forall_forall in *. intros x Hx. destruct (Ht x Hx) as (H1 & H2 & H3). destruct (adjoint_of_kind x) as (_ & G2 & _).
          split; [congruence|]. split; [now rewrite adjoint_of_zero|auto].
    Qed.

    Lemma adj_tidy n : forall e, tidy e -> depth e <= n -> adj k a n e = adjoint_of e.
    Proof.
      induction n as [|n IH]; intros e Ht Hd. { pose proof (depth_pos k a e); lia. }
      assert (Hsub : forall x, tidy x -> depth x <= n -> adj k a n (clone x) = adjoint_of x). { intros x H1 H2. rewrite tidy_clone; auto. }
      destruct e as [z|y|kd s fs|ci ss|]; cbn [adj adjoint_of]; auto.
      - apply tidy_prod in Ht as [-> Ht]. rewrite Forall_forall in Ht.
        assert (Hm : map (fun x => adj k a n (clone x)) (rev fs) = rev (map adjoint_of fs)).
        { rewrite <- map_rev. apply map_ext_in. intros x Hx. apply in_rev in Hx. apply Hsub; [apply Ht; auto|]. pose proof (in_prod_depth _ _ _ PPlain s _ Hx). lia. }
        rewrite Hm. apply mk_prod_tidy. apply Forall_rev, Forall_map, Forall_forall. intros x Hx. destruct (Ht x Hx) as (H1 & H2 & H3).
        destruct (adjoint_of_kind x) as (G1 & _ & G3). split; [congruence|]. split; [congruence|]. apply tidy_clone, adjoint_of_tidy, H3.
      - apply tidy_sum in Ht as [Hci Ht]. rewrite Forall_forall in Ht.
        assert (Hm : map (fun x => adj k a n (clone x)) ss = map adjoint_of ss).
        { apply map_ext_in. intros x Hx. apply Hsub; [apply Ht; auto|]. pose proof (in_sum_depth _ _ _ ci _ Hx). lia. }
        rewrite Hm. unfold mk_sum.
        rewrite (sum_tidy_gen (fun x => x) ci). + cbn [fst snd]. now rewrite map_id.
        + intros j. rewrite <- Hci. rewrite nth_error_map. split; intros [z Hz].
          * destruct (nth_error ss j) as [[w| | | |]|]; cbn in Hz; try discriminate. eauto.
          * rewrite Hz. cbn. eauto.
        + apply Forall_map, Forall_forall. intros x Hx. destruct (Ht x Hx) as (H1 & H2 & H3). destruct (adjoint_of_kind x) as (_ & G2 & _).
          split; [congruence|]. split; [now rewrite adjoint_of_zero|]. split; auto. apply tidy_clone, adjoint_of_tidy, H3.
    Qed.

    Lemma adjoint_tidy (e : E) : tidy e -> adjoint k a e = adjoint_of e.
    Proof. intros H. unfold adjoint, adj_in_place. rewrite tidy_clone by auto. apply adj_tidy; auto. Qed.

    Lemma adjoint_of_involutive (e : E) : tidy e -> adjoint_of (adjoint_of e) = e.
    Proof.
      induction e as [z|y|kd s fs IH|ci ss IH|] using expr_ind'; intros Ht; cbn [adjoint_of]; auto.
      - now rewrite conj_conj. - now rewrite adj_adj.
      - apply tidy_prod in Ht as [-> Ht]. rewrite Forall_forall in *. rewrite conj_conj, map_rev, rev_involutive, map_map. f_equal.
        rewrite <- (map_id fs) at 2. apply map_ext_in. intros x Hx. apply IH; auto. apply Ht; auto.
      - apply tidy_sum in Ht as [_ Ht]. rewrite Forall_forall in *. rewrite map_map. f_equal.
        rewrite <- (map_id ss) at 2. apply map_ext_in. intros x Hx. apply IH; auto. apply Ht; auto.
    Qed.
  End Adj.
End P.
