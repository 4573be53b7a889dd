(** rapid_simplify. *)
From Coq Require Import List Bool Arith Lia Permutation.
From Verif Require Import Wick_Spec Wick_Ring Expr_Model Expr_Spec Expr_Proofs1 Expr_Proofs2 Expr_Proofs3 Expr_Proofs4.
Import ListNotations.

Section P.
  Variable k : kops.
  Variable a : aops k.
  Variable i : interpretation k a.
  Notation E := (expr (K k) (A a)).
  Notation depth := (depth k a).
  Notation clone := (clone k a).
  Notation append := (append k a).
  Notation sum_append := (sum_append k a).
  Notation is_prod := (is_prod k a).
  Notation is_sum := (is_sum k a).
  Notation is_const := (is_const k a).
  Notation is_zero := (is_zero k a).
  Notation value := (value i).
  Notation size := (@size k a).

  (** *** values *)
  Lemma flat_atom_ok x : ok x -> ok (flat_atom k a x) /\ value (flat_atom k a x) = value x.
  Proof.
    destruct x as [z|y|kd s l|ci l|]; cbn [flat_atom]; auto. intros _. pose proof (aflat_val _ _ i y) as H. destruct (aflat a y) as [[z|y']|]; cbn; auto.
  Qed.
  Lemma scan_factors_ok fs : Forall ok fs -> Forall ok (fst (scan_factors k a fs)) /\ map value (fst (scan_factors k a fs)) = map value fs.
  Proof.
    induction fs as [|x fs IH]; cbn [scan_factors]; auto. intros H. inversion H; subst. destruct (flat_atom_ok x H2) as [G1 G2]. destruct (is_prod _ || is_const _); cbn [fst map].
    - rewrite G2. auto.
    - destruct (scan_factors k a fs) as [r b]. cbn [fst map] in *. destruct (IH H3) as [I1 I2]. rewrite G2, I2. auto.
  Qed.
  Lemma simplify_product_ok kd s fs : ok (k:=k) (a:=a) (EProd kd s fs) ->
    ok (fst (simplify_product k a kd s fs)) /\ value (fst (simplify_product k a kd s fs)) = value (EProd kd s fs).
  Proof.
    intros Hok. apply ok_prod in Hok. unfold simplify_product. destruct (scan_factors_ok fs Hok) as [H1 H2]. destruct (scan_factors k a fs) as [fs1 b]. cbn [fst] in *.
    set (e1 := if b then mk_prod k a PPlain s FRec fs1 else EProd kd s fs1).
    assert (He1 : ok e1 /\ value e1 = value (EProd kd s fs)).
    { unfold e1. destruct b.
      - destruct (mk_prod_ok k a i PPlain s FRec fs1 H1) as [G1 G2]. split; auto. rewrite G2, H2. reflexivity.
      - split; [now apply ok_prod|]. cbn [Expr_Spec.value]. now rewrite H2. }
    assert (Hsh : exists kd1 s1 fs2, e1 = EProd kd1 s1 fs2). { unfold e1. destruct b; unfold mk_prod; cbn zeta; eauto. }
    destruct Hsh as (kd1 & s1 & fs2 & He). rewrite He in *. clearbody e1. destruct He1 as [G1 G2]. rewrite <- G2.
    destruct (keqb k s1 (k0 k)) eqn:Hz.
    - apply (keqb_iff _ _ i) in Hz. subst s1. cbn [fst]. split; [exact Logic.I|]. cbn [Expr_Spec.value]. rewrite (emb_0 _ _ i). symmetry. apply rmul_0_l.
    - destruct fs2 as [|x [|y fs2]]; auto.
      + split; [exact Logic.I|]. cbn. ncr.
      + destruct (keqb k s1 (k1 k)) eqn:H1k; auto. apply (keqb_iff _ _ i) in H1k. subst s1. cbn [fst]. apply ok_prod in G1. inversion G1; subst. split; auto.
        cbn [Expr_Spec.value map]. rewrite (emb_1 _ _ i), rprod_1. ncr.
  Qed.
  Lemma simplify_sum_ok ci ss : ok (k:=k) (a:=a) (ESum ci ss) ->
    ok (fst (simplify_sum k a ci ss)) /\ value (fst (simplify_sum k a ci ss)) = value (ESum ci ss).
  Proof.
    intros Hok. pose proof (proj1 (ok_sum k a ci ss) Hok) as [_ Hs]. unfold simplify_sum. destruct ss as [|x [|y ss]].
    - split; [exact Logic.I|]. cbn. apply emb_0.
    - inversion Hs; subst. split; auto. cbn [fst Expr_Spec.value map]. now rewrite rsum_1.
    - destruct (scan_summands k a 0 (x :: y :: ss)); auto. destruct (mk_sum_ok k a i (x :: y :: ss) Hs). auto.
  Qed.
  Lemma simplify_step_ok e : ok e -> ok (fst (simplify_step k a e)) /\ value (fst (simplify_step k a e)) = value e.
  Proof. intros H. destruct e; cbn [simplify_step]; auto. - now apply simplify_product_ok. - now apply simplify_sum_ok. Qed.

  (** *** sizes *)
  Definition tot (l : list E) : nat := fold_right (fun x n => size x + n) 0 l.
  Lemma tot_app l m : tot (l ++ m) = tot l + tot m.
  Proof. induction l as [|x l IH]; [reflexivity|]. unfold tot in *; cbn. lia. Qed.
  Lemma tot_in x l : In x l -> size x <= tot l.
  Proof. induction l as [|y l IH]; [intros []|]. unfold tot in *; cbn. intros [->|H]; [lia|]. apply IH in H. lia. Qed.
  Lemma size_pos (e : E) : 1 <= size e.
  Proof. destruct e; cbn; lia. Qed.
  Lemma size_prod kd s (fs : list E) : size (EProd kd s fs) = 2 + tot fs. Proof. reflexivity. Qed.
  Lemma size_sum ci (ss : list E) : size (ESum ci ss) = 2 + tot ss. Proof. reflexivity. Qed.

  Definition b2n (b : bool) : nat := if b then 1 else 0.
  Lemma append_size cl t : forall e p, (forall y, depth y <= depth e -> size (cl y) <= size y) ->
    tot (snd (append cl t e p)) + (match t with FNo => 0 | _ => b2n (is_prod e) end) + b2n (is_const e) <= tot (snd p) + size e.
  Proof.
    intros e; revert t. induction e as [z|y|kd s fs IH|ci ss IH|] using expr_ind'; intros t p Hcl; cbn [Expr_Model.append Expr_Model.is_prod Expr_Model.is_const b2n].
    - cbn [scale snd Expr_Spec.size]. destruct t; lia.
    - cbn [push snd]. rewrite tot_app. cbn [tot fold_right]. specialize (Hcl (EAtom y) (Nat.le_refl _)). destruct t; lia.
    - assert (Hfl : forall t', tot (snd (fold_left (fun p x => append cl t' x p) fs (scale k a s p))) <= tot (snd p) + tot fs).
      { intros t'. change (tot (snd p)) with (tot (snd (scale k a s p))). generalize (scale k a s p). clear p.
        assert (Hcl' : forall x y, In x fs -> depth y <= depth x -> size (cl y) <= size y). { intros x y Hx Hy. apply Hcl. pose proof (in_prod_depth _ _ _ kd s _ Hx). lia. }
        clear Hcl. induction fs as [|x fs IHf]; intros p; cbn [fold_left]; [cbn; lia|]. inversion IH as [|? ? Hx IH']; subst.
        specialize (IHf IH' (fun x' y H => Hcl' x' y (or_intror H)) (append cl t' x p)). specialize (Hx t' p (fun y => Hcl' x y (or_introl eq_refl))).
        cbn [tot fold_right]. fold (tot fs). lia. }
      rewrite size_prod. destruct t.
      + specialize (Hfl FNo). lia. + specialize (Hfl FRec). lia.
      + cbn [push snd]. rewrite tot_app. cbn [tot fold_right]. specialize (Hcl (EProd kd s fs) (Nat.le_refl _)). rewrite size_prod in Hcl. lia.
    - cbn [push snd]. rewrite tot_app. cbn [tot fold_right]. specialize (Hcl (ESum ci ss) (Nat.le_refl _)). destruct t; lia.
    - cbn [push snd]. rewrite tot_app. cbn [tot fold_right]. specialize (Hcl EErr (Nat.le_refl _)). destruct t; lia.
  Qed.
  Lemma add_at_tot j z (l : list E) : tot (add_at k a j z l) <= tot l + 1.
  Proof.
    revert l; induction j; destruct l as [|x l]; cbn; try lia. - destruct x; cbn [tot fold_right Expr_Spec.size]; lia. - specialize (IHj l). unfold tot in *. lia.
  Qed.
  Lemma add_at_tot_ok j z (l : list E) : ci_ok k a (Some j) l -> tot (add_at k a j z l) = tot l.
  Proof.
    revert l; induction j; destruct l as [|x l]; cbn; intros [w Hw]; try discriminate. - inversion Hw; subst. reflexivity. - f_equal. apply IHj. exists w. exact Hw.
  Qed.
  Lemma sum_append_size cl : forall e st, (forall y, depth y <= depth e -> size (cl y) <= size y) ->
    tot (snd (sum_append cl e st)) + b2n (is_sum e) <= tot (snd st) + size e.
  Proof.
    intros e. induction e as [z|y|kd s fs IH|ci ss IH|] using expr_ind'; intros st Hcl; cbn [Expr_Model.sum_append Expr_Model.is_sum b2n].
    - destruct (is_zero _); [lia|]. destruct (fst st); cbn [snd].
      + pose proof (add_at_tot n z (snd st)). cbn [Expr_Spec.size]. lia.
      + rewrite tot_app. cbn. lia.
    - destruct (is_zero _); [lia|]. cbn [snd]. rewrite tot_app. cbn [tot fold_right]. specialize (Hcl _ (Nat.le_refl _)). lia.
    - destruct (is_zero _); [lia|]. cbn [snd]. rewrite tot_app. cbn [tot fold_right]. specialize (Hcl _ (Nat.le_refl _)). lia.
    - rewrite size_sum. enough (tot (snd (fold_left (fun st x => sum_append cl x st) ss st)) <= tot (snd st) + tot ss) by lia. revert st.
      assert (Hcl' : forall x y, In x ss -> depth y <= depth x -> size (cl y) <= size y). { intros x y Hx Hy. apply Hcl. pose proof (in_sum_depth _ _ _ ci _ Hx). lia. }
      clear Hcl. induction ss as [|x ss IHf]; intros st; cbn [fold_left]; [cbn; lia|]. inversion IH as [|? ? Hx IH']; subst.
      specialize (IHf IH' (fun x' y H => Hcl' x' y (or_intror H)) (sum_append cl x st)). specialize (Hx st (fun y => Hcl' x y (or_introl eq_refl))).
      cbn [tot fold_right]. fold (tot ss). lia.
    - cbn [Expr_Model.is_zero snd]. rewrite tot_app. cbn [tot fold_right]. specialize (Hcl _ (Nat.le_refl _)). cbn in *. lia.
  Qed.
  Lemma clone_size e : size (clone e) <= size e.
  Proof.
    induction e as [e IH] using (depth_ind k a). destruct e as [z|y|kd s fs|ci ss|]; auto.
    - rewrite clone_prod. cbn zeta. rewrite !size_prod. apply le_n_S, le_n_S.
      enough (H : forall p, tot (snd (fold_left (fun p x => append clone FNo (clone x) p) fs p)) <= tot (snd p) + tot fs). { specialize (H (s, [])). cbn [snd tot fold_right] in H |- *. lia. }
      assert (IH' : forall x y, In x fs -> depth y <= depth x -> size (clone y) <= size y). { intros x y Hx Hy. apply IH. pose proof (in_prod_depth _ _ _ kd s _ Hx). lia. }
      clear IH. induction fs as [|x fs IHf]; intros p; cbn [fold_left]; [cbn; lia|]. specialize (IHf (fun x' y H => IH' x' y (or_intror H)) (append clone FNo (clone x) p)).
      assert (H := append_size clone FNo (clone x) p). pose proof (clone_depth k a x). specialize (IH' x).
      pose proof (IH' x (or_introl eq_refl) (Nat.le_refl _)). cbn [tot fold_right]. fold (tot fs).
      assert (tot (snd (append clone FNo (clone x) p)) <= tot (snd p) + size (clone x)). { enough (tot (snd (append clone FNo (clone x) p)) + 0 + b2n (is_const (clone x)) <= tot (snd p) + size (clone x)) by lia. apply H. intros y Hy. apply IH'; [now left|lia]. }
      lia.
    - rewrite clone_sum. cbn zeta. rewrite !size_sum. apply le_n_S, le_n_S.
      enough (H : forall p, tot (snd (fold_left (fun p x => sum_append clone (clone x) p) ss p)) <= tot (snd p) + tot ss). { specialize (H (None, [])). cbn [snd tot fold_right] in H |- *. lia. }
      assert (IH' : forall x y, In x ss -> depth y <= depth x -> size (clone y) <= size y). { intros x y Hx Hy. apply IH. pose proof (in_sum_depth _ _ _ ci _ Hx). lia. }
      clear IH. induction ss as [|x ss IHf]; intros p; cbn [fold_left]; [cbn; lia|]. specialize (IHf (fun x' y H => IH' x' y (or_intror H)) (sum_append clone (clone x) p)).
      assert (H := sum_append_size clone (clone x) p). pose proof (clone_depth k a x). specialize (IH' x).
      pose proof (IH' x (or_introl eq_refl) (Nat.le_refl _)). cbn [tot fold_right]. fold (tot ss).
      assert (tot (snd (sum_append clone (clone x) p)) <= tot (snd p) + size (clone x)). { enough (tot (snd (sum_append clone (clone x) p)) + b2n (is_sum (clone x)) <= tot (snd p) + size (clone x)) by lia. apply H. intros y Hy. apply IH'; [now left|lia]. }
      lia.
  Qed.

  Lemma flat_atom_size x : size (flat_atom k a x) <= size x.
  Proof. destruct x as [z|y|kd s l|ci l|]; cbn [flat_atom]; auto. destruct (aflat a y) as [[z|y']|]; auto. Qed.
  Lemma scan_factors_size fs : tot (fst (scan_factors k a fs)) <= tot fs.
  Proof.
    induction fs as [|x fs IH]; cbn [scan_factors]; auto. pose proof (flat_atom_size x). destruct (is_prod _ || is_const _); cbn [fst tot fold_right].
    - unfold tot in *. lia. - destruct (scan_factors k a fs). unfold tot in *. cbn [fst fold_right] in *. lia.
  Qed.
  Lemma scan_factors_rebuild fs : snd (scan_factors k a fs) = true -> exists x, In x (fst (scan_factors k a fs)) /\ is_prod x || is_const x = true.
  Proof.
    induction fs as [|x fs IH]; cbn [scan_factors]; [discriminate|]. destruct (is_prod (flat_atom k a x) || is_const (flat_atom k a x)) eqn:Hx; cbn [fst snd].
    - intros _. exists (flat_atom k a x). split; auto. now left.
    - destruct (scan_factors k a fs) as [r b]. cbn [fst snd] in *. intros H. destruct (IH H) as (y & Hy & Hy'). exists y. split; auto. now right.
  Qed.
  Lemma append_clone_size e p : tot (snd (append clone FRec e p)) + b2n (is_prod e || is_const e) <= tot (snd p) + size e.
  Proof. pose proof (append_size clone FRec e p (fun y _ => clone_size y)) as H. destruct e; cbn in *; lia. Qed.
  Lemma mk_prod_size kd s fs : size (mk_prod k a kd s FRec fs) <= 2 + tot fs /\
    ((exists x, In x fs /\ is_prod x || is_const x = true) -> size (mk_prod k a kd s FRec fs) < 2 + tot fs).
  Proof.
    unfold mk_prod. cbn zeta. rewrite size_prod.
    assert (H : forall p, tot (snd (fold_left (fun p x => append clone FRec x p) fs p)) <= tot (snd p) + tot fs /\
      ((exists x, In x fs /\ is_prod x || is_const x = true) -> tot (snd (fold_left (fun p x => append clone FRec x p) fs p)) < tot (snd p) + tot fs)).
    { induction fs as [|x fs IH]; intros p; cbn [fold_left].
      - split; [cbn; lia|]. intros (x & [] & _).
      - destruct (IH (append clone FRec x p)) as [H1 H2]. pose proof (append_clone_size x p) as H3. cbn [tot fold_right]. fold (tot fs). split; [lia|].
        intros (y & [->|Hy] & Hc). + rewrite Hc in H3. cbn in H3. lia. + assert (tot (snd (fold_left (fun p x => append clone FRec x p) fs (append clone FRec x p))) < tot (snd (append clone FRec x p)) + tot fs) by eauto. lia. }
    destruct (H (s, [])) as [H1 H2]. cbn [snd tot fold_right] in H1, H2. split; [unfold tot in *; lia|]. intros Hx. specialize (H2 Hx). unfold tot in *. lia.
  Qed.
  Lemma simplify_product_size kd s fs : let '(e', b) := simplify_product k a kd s fs in size e' + b2n b <= 2 + tot fs.
  Proof.
    unfold simplify_product. pose proof (scan_factors_size fs) as H1. pose proof (scan_factors_rebuild fs) as H2. destruct (scan_factors k a fs) as [fs1 b]. cbn [fst snd] in *.
    set (e1 := if b then mk_prod k a PPlain s FRec fs1 else EProd kd s fs1).
    assert (He1 : size e1 + b2n b <= 2 + tot fs).
    { unfold e1. destruct b; cbn [b2n]. - destruct (mk_prod_size PPlain s fs1) as [_ H3]. specialize (H3 (H2 eq_refl)). lia. - rewrite size_prod. lia. }
    assert (Hsh : exists kd1 s1 fs2, e1 = EProd kd1 s1 fs2). { unfold e1. destruct b; unfold mk_prod; cbn zeta; eauto. }
    destruct Hsh as (kd1 & s1 & fs2 & He). rewrite He in *. clearbody e1. rewrite size_prod in He1.
    destruct (keqb k s1 (k0 k)); [cbn; lia|]. destruct fs2 as [|x [|y fs2]].
    - cbn. lia. - destruct (keqb k s1 (k1 k)). + cbn in He1 |- *. lia. + rewrite size_prod. lia. - rewrite size_prod. lia.
  Qed.

  Lemma mk_sum_size ss : Forall ok ss -> size (mk_sum k a ss) <= 2 + tot ss /\ (scan_summands k a 0 ss = true -> size (mk_sum k a ss) < 2 + tot ss).
  Proof.
    intros Hok. unfold mk_sum. cbn zeta. rewrite size_sum.
    assert (H : forall n st, oks k a st -> n = (match fst st with Some _ => 1 | None => 0 end) ->
      tot (snd (fold_left (fun p x => sum_append clone x p) ss st)) <= tot (snd st) + tot ss /\
      (scan_summands k a n ss = true -> tot (snd (fold_left (fun p x => sum_append clone x p) ss st)) < tot (snd st) + tot ss)).
    { induction Hok as [|x ss Hx Hss IH]; intros n st Hst Hn; cbn [fold_left].
      - split; [cbn; lia|]. cbn. discriminate.
      - assert (Hst' := proj1 (sum_append_clone k a i x st Hx Hst)).
        assert (Hle : tot (snd (sum_append clone x st)) + b2n (is_sum x) <= tot (snd st) + size x) by (apply sum_append_size; intros; apply clone_size).
        destruct (IH _ _ Hst' eq_refl) as [G1 _]. cbn [tot fold_right]. fold (tot ss). split; [lia|].
        intros Hsc.
        assert (Hnext : scan_summands k a (match fst (sum_append clone x st) with Some _ => 1 | None => 0 end) ss = true -> tot (snd (fold_left (fun p x => sum_append clone x p) ss (sum_append clone x st))) < tot (snd st) + (size x + tot ss)).
        { intros Hs. destruct (IH _ _ Hst' eq_refl) as [_ G2]. specialize (G2 Hs). lia. }
        assert (Hless : tot (snd (sum_append clone x st)) < tot (snd st) + size x -> tot (snd (fold_left (fun p x => sum_append clone x p) ss (sum_append clone x st))) < tot (snd st) + (size x + tot ss)) by lia.
        destruct x as [z|y|kd s fs|ci l|]; cbn [scan_summands] in Hsc.
        + destruct (keqb k z (k0 k)) eqn:Hz.
          * apply Hless. cbn [Expr_Model.sum_append Expr_Model.is_zero]. rewrite Hz. cbn. lia.
          * destruct (fst st) as [j|] eqn:Hj; subst n.
            -- apply Hless. cbn [Expr_Model.sum_append Expr_Model.is_zero]. rewrite Hz, Hj. cbn [snd]. rewrite add_at_tot_ok; [cbn; lia|]. destruct Hst as [Hci _]. now rewrite Hj in Hci.
            -- cbn [Nat.eqb] in Hsc. apply Hnext. cbn [Expr_Model.sum_append Expr_Model.is_zero]. rewrite Hz, Hj. exact Hsc.
        + cbn [Expr_Model.sum_append] in Hnext, Hless |- *. destruct (is_zero (EAtom y)); apply Hnext; cbn [fst]; rewrite <- Hn; exact Hsc.
        + cbn [Expr_Model.sum_append] in Hnext, Hless |- *. destruct (is_zero (EProd kd s fs)); apply Hnext; cbn [fst]; rewrite <- Hn; exact Hsc.
        + apply Hless. cbn [Expr_Model.is_sum b2n] in Hle. lia.
        + destruct Hx. }
    destruct (H 0 (None, [])) as [H1 H2]; auto. { split; cbn; auto. } cbn [snd tot fold_right] in H1, H2. split; [unfold tot in *; lia|]. intros Hx. specialize (H2 Hx). unfold tot in *. lia.
  Qed.
  Lemma simplify_sum_size ci ss : Forall ok ss -> let '(e', b) := simplify_sum k a ci ss in size e' + b2n b <= 2 + tot ss.
  Proof.
    intros Hok. unfold simplify_sum. destruct ss as [|x [|y ss]].
    - cbn. lia. - cbn. lia.
    - destruct (scan_summands k a 0 (x :: y :: ss)) eqn:Hs. + destruct (mk_sum_size _ Hok) as [_ H]. specialize (H Hs). cbn [b2n]. lia. + rewrite size_sum. cbn [b2n]. lia.
  Qed.
  Lemma simplify_step_size e : ok e -> let '(e', b) := simplify_step k a e in size e' + b2n b <= size e.
  Proof.
    intros Hok. destruct e as [z|y|kd s fs|ci ss|]; cbn [simplify_step b2n]; try (cbn; lia).
    - apply simplify_product_size. - apply simplify_sum_size. now apply ok_sum in Hok.
  Qed.

  (** the loop ends, with an expression that a step left unchanged *)
  Lemma simplify_node_good (Q : E -> Prop) n : (forall e, ok e -> Q e -> Q (fst (simplify_step k a e))) ->
    forall e, ok e -> Q e -> size e < n ->
    let r := simplify_node k a n e in
    ok r /\ value r = value e /\ size r <= size e /\ exists r0, Q r0 /\ ok r0 /\ simplify_step k a r0 = (r, false).
  Proof.
    intros HQ. unfold simplify_node. induction n as [|n IH]; intros e Hok He Hs; [lia|]. cbn [while_changes].
    destruct (simplify_step_ok e Hok) as [H1 H2]. pose proof (simplify_step_size e Hok) as H3. specialize (HQ e Hok He).
    destruct (simplify_step k a e) as [e' b] eqn:Hst. cbn [fst] in *. destruct b; cbn [b2n] in H3.
    - destruct (IH e' H1 HQ) as (G1 & G2 & G3 & G4); [lia|]. cbn zeta. repeat split; auto; [|lia]. exact (eq_trans G2 H2).
    - cbn zeta. repeat split; auto; [lia|]. exists e. auto.
  Qed.

  (** *** the form of the result *)
  Notation "'simp' x" := (simplified (k:=k) (a:=a) x /\ good_leaves x) (at level 0, x at level 0).
  Definition pf (x : E) : Prop := is_prod x = false /\ is_const x = false /\ simplified x /\ match x with EAtom y => aflat a y = None | _ => True end.
  Definition sf (x : E) : Prop := is_sum x = false /\ x <> EConst (k0 k) /\ simplified x.
  Lemma simplified_prod kd s fs : simplified (k:=k) (a:=a) (EProd kd s fs) <-> s <> k0 k /\ fs <> [] /\ (s = k1 k -> 2 <= length fs) /\ Forall pf fs.
  Proof. cbn [simplified]. rewrite (fr_and pf). reflexivity. Qed.
  Lemma simplified_sum ci ss : simplified (k:=k) (a:=a) (ESum ci ss) <-> 2 <= length ss /\ count_const k a ss <= 1 /\ Forall sf ss.
  Proof. cbn [simplified]. rewrite (fr_and sf). reflexivity. Qed.
  Lemma good_prod kd s fs : good_leaves (k:=k) (a:=a) (EProd kd s fs) <-> Forall good_leaves fs.
  Proof. apply fr_and. Qed.
  Lemma good_sum ci fs : good_leaves (k:=k) (a:=a) (ESum ci fs) <-> Forall good_leaves fs.
  Proof. apply fr_and. Qed.

  Definition Q (e : E) : Prop := match e with EProd _ _ l | ESum _ l => Forall (fun x => simp x) l | _ => good_leaves e end.

  Lemma clone_const_inv x z : clone x = EConst z -> x = EConst z.
  Proof. destruct x as [w|y|kd s l|ci l|]; auto. - rewrite clone_prod. discriminate. - rewrite clone_sum. discriminate. Qed.
  Lemma clone_atom_inv x z : clone x = EAtom z -> x = EAtom z.
  Proof. destruct x as [w|y|kd s l|ci l|]; auto. - rewrite clone_prod. discriminate. - rewrite clone_sum. discriminate. Qed.

  Lemma clone_pf x : pf x -> (simplified (clone x)) -> pf (clone x).
  Proof.
    intros (H1 & H2 & H3 & H4) Hs. destruct (clone_kind k a x) as (K1 & K2 & K3). unfold pf. rewrite K1, K3. repeat split; auto.
    destruct (clone x) as [z|y|kd s l|ci l|] eqn:Hc; auto. apply clone_atom_inv in Hc. now subst x.
  Qed.
  Lemma clone_sf x : sf x -> simplified (clone x) -> sf (clone x).
  Proof.
    intros (H1 & H2 & H3) Hs. destruct (clone_kind k a x) as (K1 & K2 & K3). unfold sf. rewrite K2. repeat split; auto.
    intros Hc. apply clone_const_inv in Hc. auto.
  Qed.
  Lemma sf_nonzero x : sf x -> good_leaves x -> is_zero x = false.
  Proof.
    intros (H1 & H2 & H3) Hg. destruct x as [z|y|kd s l|ci l|]; cbn [Expr_Model.is_zero]; auto; try discriminate.
    - destruct (keqb k z (k0 k)) eqn:Hz; auto. apply (keqb_iff _ _ i) in Hz. subst z. now elim H2.
    - apply Hg.
    - apply simplified_prod in H3 as (H3 & _). destruct (keqb k s (k0 k)) eqn:Hz; auto. apply (keqb_iff _ _ i) in Hz. contradiction.
  Qed.
  Lemma count_const_map (f : E -> E) l : (forall x, is_const (f x) = is_const x) -> count_const k a (map f l) = count_const k a l.
  Proof. intros H. induction l as [|x l IH]; auto. unfold count_const in *; cbn [map filter]. rewrite H. destruct (is_const x); cbn; auto. Qed.

  Lemma sum_fold_keep (f : E -> E) ss : forall st, Forall (fun x => is_sum (f x) = false /\ is_zero (f x) = false) ss ->
    count_const k a (map f ss) + (match fst st with Some _ => 1 | None => 0 end) <= 1 ->
    snd (fold_left (fun st x => sum_append clone (f x) st) ss st) = snd st ++ map (fun x => clone (f x)) ss.
  Proof.
    induction ss as [|x ss IH]; intros st H Hc; cbn [fold_left map]. { now rewrite app_nil_r. }
    inversion H as [|? ? [H1 H2] H']; subst. unfold count_const in Hc. cbn [map filter] in Hc.
    assert (Hst : snd (sum_append clone (f x) st) = snd st ++ [clone (f x)] /\
      count_const k a (map f ss) + (match fst (sum_append clone (f x) st) with Some _ => 1 | None => 0 end) <= 1).
    { destruct (f x) as [z|y|kd s l|ci l|]; cbn [Expr_Model.sum_append Expr_Model.is_sum Expr_Model.is_const] in *; try discriminate; rewrite ?H2; try (split; [reflexivity|exact Hc]).
      cbn [length] in Hc. destruct (fst st); [lia|]. cbn [fst snd]. split; auto. unfold count_const. lia. }
    destruct Hst as [S1 S2]. rewrite IH; auto. rewrite S1, <- app_assoc. reflexivity.
  Qed.

  Lemma clone_simp e : simp e -> simp (clone e).
  Proof.
    induction e as [e IH] using (depth_ind k a). intros [Hs Hg]. destruct e as [z|y|kd s fs|ci ss|]; auto.
    - rewrite clone_prod. cbn zeta. apply simplified_prod in Hs as (H1 & H2 & H3 & H4). apply good_prod in Hg. rewrite Forall_forall in H4, Hg.
      assert (Hx : forall x, In x fs -> pf (clone (clone x)) /\ good_leaves (clone (clone x))).
      { intros x Hx. pose proof (in_prod_depth _ _ _ kd s _ Hx). pose proof (clone_depth k a x). assert (C1 : simp (clone x)). { apply IH; auto. split; auto. apply (H4 x Hx). }
        assert (C2 : simp (clone (clone x))) by (apply IH; auto; lia). split; [|apply C2]. apply clone_pf; [|apply C2]. apply clone_pf; [auto|apply C1]. }
      assert (Hf : fold_left (fun p x => append clone FNo (clone x) p) fs (s, []) = (s, map (fun x => clone (clone x)) fs)).
      { rewrite (fold_left_ext _ (fun p x => push k a p (clone (clone x)))). { rewrite fold_push. reflexivity. }
        intros p x Hi. destruct (H4 x Hi) as (P1 & P2 & _). destruct (clone_kind k a x) as (K1 & K2 & K3). rewrite append_push; auto; congruence. }
      rewrite Hf. cbn [fst snd]. split.
      + apply simplified_prod. repeat split; auto. { destruct fs; [congruence|discriminate]. } { now rewrite map_length. } apply Forall_map, Forall_forall. intros x Hi. now apply Hx.
      + apply good_prod, Forall_map, Forall_forall. intros x Hi. now apply Hx.
    - rewrite clone_sum. cbn zeta. apply simplified_sum in Hs as (H1 & H2 & H3). apply good_sum in Hg. rewrite Forall_forall in H3, Hg.
      assert (Hx : forall x, In x ss -> (sf (clone x) /\ good_leaves (clone x)) /\ sf (clone (clone x)) /\ good_leaves (clone (clone x))).
      { intros x Hx. pose proof (in_sum_depth _ _ _ ci _ Hx). pose proof (clone_depth k a x). assert (C1 : simp (clone x)). { apply IH; auto. split; auto. apply (H3 x Hx). }
        assert (C2 : simp (clone (clone x))) by (apply IH; auto; lia). assert (sf (clone x)) by (apply clone_sf; [auto|apply C1]). split; [split; [auto|apply C1]|]. split; [|apply C2]. apply clone_sf; [auto|apply C2]. }
      rewrite sum_fold_keep.
      + cbn [snd app]. split.
        * apply simplified_sum. rewrite map_length. split; auto. split. { rewrite count_const_map; auto. intros x. destruct (clone_kind k a x) as (_ & _ & K1), (clone_kind k a (clone x)) as (_ & _ & K2). congruence. }
          apply Forall_map, Forall_forall. intros x Hi. now apply Hx.
        * apply good_sum, Forall_map, Forall_forall. intros x Hi. now apply Hx.
      + apply Forall_forall. intros x Hi. destruct (Hx x Hi) as [[C1 C2] _]. split; [apply C1|]. now apply sf_nonzero.
      + cbn [fst]. rewrite Nat.add_0_r. rewrite count_const_map; auto. intros x. apply clone_kind.
  Qed.

  Lemma simp_Q e : simp e -> Q e.
  Proof.
    intros [Hs Hg]. destruct e as [z|y|kd s l|ci l|]; auto; cbn [Q].
    - apply simplified_prod in Hs as (_ & _ & _ & H). apply good_prod in Hg. rewrite Forall_forall in *. intros x Hx. split; auto. apply (H x Hx).
    - apply simplified_sum in Hs as (_ & _ & H). apply good_sum in Hg. rewrite Forall_forall in *. intros x Hx. split; auto. apply (H x Hx).
  Qed.
  Lemma append_simp t e : simp e -> forall p, Forall (fun x => simp x) (snd p) -> Forall (fun x => simp x) (snd (append clone t e p)).
  Proof.
    revert t. induction e as [z|y|kd s fs IH|ci ss IH|] using expr_ind'; intros t He p Hp; cbn [Expr_Model.append];
      assert (Hpush : Forall (fun x => simp x) (snd (push k a p (clone _)))) by (cbn [push snd]; apply Forall_app; split; auto; constructor; auto; apply clone_simp; exact He); auto.
    assert (HF : Forall (fun x => simp x) fs) by exact (simp_Q _ He). rewrite Forall_forall in IH, HF.
    destruct t; auto; apply (fold_left_inv (fun p => Forall (fun x => simp x) (snd p))); auto; intros q x Hx Hq; apply IH; auto.
  Qed.
  Lemma mk_prod_Q kd s fs : Forall (fun x => simp x) fs -> Q (mk_prod k a kd s FRec fs).
  Proof.
    intros H. unfold mk_prod. cbn zeta. cbn [Q]. rewrite Forall_forall in H. apply (fold_left_inv (fun p => Forall (fun x => simp x) (snd p))); [|constructor].
    intros p x Hx Hp. apply append_simp; auto.
  Qed.
  Lemma add_at_simp j z l : ci_ok k a (Some j) l -> Forall (fun x => simp x) l -> Forall (fun x => simp x) (add_at k a j z l).
  Proof.
    revert l; induction j; destruct l as [|x l]; cbn [add_at]; intros Hc H; inversion H; subst; try (destruct Hc as [w Hw]; discriminate).
    - destruct Hc as [w Hw]. cbn in Hw. inversion Hw; subst. constructor; auto.
    - constructor; auto.
  Qed.
  Lemma sum_append_simp e : ok e -> simp e -> forall st, oks k a st -> Forall (fun x => simp x) (snd st) -> Forall (fun x => simp x) (snd (sum_append clone e st)).
  Proof.
    induction e as [z|y|kd s fs IH|ci ss IH|] using expr_ind'; intros Hok He st Hst Hp; cbn [Expr_Model.sum_append].
    - destruct (is_zero _); auto. destruct st as [[j|] l]; cbn [fst snd] in *. + apply add_at_simp; auto. apply Hst. + apply Forall_app; split; auto.
    - destruct (is_zero _); auto. cbn [snd]. apply Forall_app; split; auto.
    - destruct (is_zero _); auto. cbn [snd]. apply Forall_app; split; auto. constructor; auto. now apply clone_simp.
    - assert (HF : Forall (fun x => simp x) ss) by exact (simp_Q _ He). apply ok_sum in Hok as [_ Hok]. rewrite Forall_forall in IH, HF, Hok.
      assert (Hinv : oks k a (fold_left (fun st x => sum_append clone x st) ss st) /\ Forall (fun x => simp x) (snd (fold_left (fun st x => sum_append clone x st) ss st))).
      { apply (fold_left_inv (fun st => oks k a st /\ Forall (fun x => simp x) (snd st))); auto. intros q x Hx [Hq1 Hq2]. split; [|apply IH; auto]. apply (sum_append_clone k a i); auto. }
      apply Hinv.
    - destruct Hok.
  Qed.
  Lemma mk_sum_Q ss : Forall ok ss -> Forall (fun x => simp x) ss -> Q (mk_sum k a ss).
  Proof.
    intros Hok H. unfold mk_sum. cbn zeta. cbn [Q]. rewrite Forall_forall in H, Hok.
    assert (Hinv : oks k a (fold_left (fun st x => sum_append clone x st) ss (None, [])) /\ Forall (fun x => simp x) (snd (fold_left (fun st x => sum_append clone x st) ss (None, [])))); [|apply Hinv].
    apply (fold_left_inv (fun st => oks k a st /\ Forall (fun x => simp x) (snd st))).
    - intros q x Hx [Hq1 Hq2]. split; [|apply sum_append_simp; auto]. apply (sum_append_clone k a i); auto.
    - split; [split; cbn; auto|constructor].
  Qed.

  Lemma flat_atom_simp x : simp x -> simp (flat_atom k a x).
  Proof.
    destruct x as [z|y|kd s l|ci l|]; auto. intros [_ Hg]. cbn in Hg. destruct Hg as [H1 H2]. cbn [flat_atom].
    destruct (aflat a y) as [[z|y']|] eqn:Hf; split; cbn; auto.
    - destruct H2 as [G1 G2]. split; auto. rewrite G2. auto.
    - split; auto. now rewrite Hf.
  Qed.
  Lemma scan_factors_simp fs : Forall (fun x => simp x) fs -> Forall (fun x => simp x) (fst (scan_factors k a fs)).
  Proof.
    induction fs as [|x fs IH]; cbn [scan_factors]; auto. intros H. inversion H; subst. pose proof (flat_atom_simp x H2). destruct (is_prod _ || is_const _); cbn [fst]; auto.
    destruct (scan_factors k a fs). cbn [fst] in *. auto.
  Qed.
  Lemma simplify_step_Q e : ok e -> Q e -> Q (fst (simplify_step k a e)).
  Proof.
    intros Hok HQ. destruct e as [z|y|kd s fs|ci ss|]; cbn [simplify_step]; auto.
    - cbn [Q] in HQ. unfold simplify_product. apply scan_factors_simp in HQ. destruct (scan_factors k a fs) as [fs1 b]. cbn [fst] in *.
      set (e1 := if b then mk_prod k a PPlain s FRec fs1 else EProd kd s fs1).
      assert (He1 : Q e1). { unfold e1. destruct b; auto. now apply mk_prod_Q. }
      assert (Hsh : exists kd1 s1 fs2, e1 = EProd kd1 s1 fs2). { unfold e1. destruct b; unfold mk_prod; cbn zeta; eauto. }
      destruct Hsh as (kd1 & s1 & fs2 & He). rewrite He in *. clearbody e1.
      destruct (keqb k s1 (k0 k)); [exact Logic.I|]. destruct fs2 as [|x [|y fs2]]; auto. { exact Logic.I. }
      destruct (keqb k s1 (k1 k)); auto. cbn [fst]. cbn [Q] in He1. inversion He1; subst. now apply simp_Q.
    - cbn [Q] in HQ. apply ok_sum in Hok as [_ Hok]. unfold simplify_sum. destruct ss as [|x [|y ss]].
      + exact Logic.I. + cbn [fst]. inversion HQ; subst. now apply simp_Q.
      + destruct (scan_summands k a 0 (x :: y :: ss)); auto. cbn [fst]. now apply mk_sum_Q.
  Qed.

  Lemma scan_factors_done fs : Forall (fun x => simp x) fs -> snd (scan_factors k a fs) = false -> Forall (fun x => pf x /\ good_leaves x) (fst (scan_factors k a fs)).
  Proof.
    induction fs as [|x fs IH]; cbn [scan_factors]; [intros; constructor|]. intros H. inversion H as [|? ? Hx H']; subst. pose proof (flat_atom_simp x Hx) as [F1 F2].
    destruct (is_prod (flat_atom k a x)) eqn:Hp; cbn [orb]; [discriminate|]. destruct (is_const (flat_atom k a x)) eqn:Hc; [discriminate|].
    destruct (scan_factors k a fs) as [r b]. cbn [fst snd] in *. intros Hb. constructor; auto. split; auto. repeat split; auto.
    destruct x as [z|y|kd s l|ci l|]; cbn [flat_atom]; auto. destruct Hx as [_ Hx]. cbn in Hx. destruct Hx as [_ Hx]. destruct (aflat a y) as [[z|y']|] eqn:Hf; auto. apply Hx.
  Qed.
  Lemma scan_summands_done ss : forall n, scan_summands k a n ss = false -> n <= 1 ->
    Forall (fun x => is_sum x = false /\ x <> EConst (k0 k)) ss /\ count_const k a ss + n <= 1.
  Proof.
    induction ss as [|x ss IH]; intros n Hs Hn; cbn [scan_summands] in Hs.
    - split; auto.
    - destruct x as [z|y|kd s l|ci l|]; try discriminate.
      + destruct (keqb k z (k0 k)) eqn:Hz; [discriminate|]. destruct (Nat.eqb_spec (S n) 2) as [|Hne]; [discriminate|]. destruct (IH (S n) Hs) as [H1 H2]; [lia|]. split.
        * constructor; auto. split; auto. intros [= ->]. assert (keqb k (k0 k) (k0 k) = true) by now apply (keqb_iff _ _ i). congruence.
        * unfold count_const in *. cbn. lia.
      + destruct (IH n Hs Hn) as [H1 H2]. split; auto. constructor; auto. split; auto. discriminate.
      + destruct (IH n Hs Hn) as [H1 H2]. split; auto. constructor; auto. split; auto. discriminate.
      + destruct (IH n Hs Hn) as [H1 H2]. split; auto. constructor; auto. split; auto. discriminate.
  Qed.

  Lemma simplify_step_done e r : ok e -> Q e -> simplify_step k a e = (r, false) -> simp r.
  Proof.
    intros Hok HQ. destruct e as [z|y|kd s fs|ci ss|]; cbn [simplify_step].
    - intros [= <-]. split; exact Logic.I.
    - intros [= <-]. split; [exact Logic.I|exact HQ].
    - cbn [Q] in HQ. unfold simplify_product. pose proof (scan_factors_done fs HQ) as Hd. destruct (scan_factors k a fs) as [fs1 b]. cbn [fst snd] in *. destruct b.
      { unfold mk_prod. cbn zeta. destruct (keqb k _ (k0 k)); [discriminate|]. destruct (snd _) as [|x [|y l]]; try discriminate. destruct (keqb k _ (k1 k)); discriminate. }
      destruct (keqb k s (k0 k)) eqn:Hz; [discriminate|]. specialize (Hd eq_refl).
      assert (Hs0 : s <> k0 k). { intros ->. assert (keqb k (k0 k) (k0 k) = true) by now apply (keqb_iff _ _ i). congruence. }
      assert (Hfin : fs1 <> [] -> (s = k1 k -> 2 <= length fs1) -> simp (EProd kd s fs1)).
      { intros H1 H2. rewrite Forall_forall in Hd. split; [apply simplified_prod; repeat split; auto|apply good_prod]; apply Forall_forall; intros x Hx; now apply Hd. }
      destruct fs1 as [|x [|y fs1]]; [discriminate| |].
      + destruct (keqb k s (k1 k)) eqn:H1; [discriminate|]. intros [= <-]. apply Hfin; [discriminate|]. intros ->. assert (keqb k (k1 k) (k1 k) = true) by now apply (keqb_iff _ _ i). congruence.
      + intros [= <-]. apply Hfin; [discriminate|]. cbn. lia.
    - cbn [Q] in HQ. unfold simplify_sum. destruct ss as [|x [|y ss]]; try discriminate.
      destruct (scan_summands k a 0 (x :: y :: ss)) eqn:Hs; [discriminate|]. intros [= <-]. apply scan_summands_done in Hs as [H1 H2]; auto. rewrite Forall_forall in HQ, H1.
      split; [apply simplified_sum|apply good_sum].
      + split; [cbn; lia|]. split; [lia|]. apply Forall_forall. intros z Hz. destruct (H1 z Hz), (HQ z Hz). repeat split; auto.
      + apply Forall_forall. intros z Hz. now apply HQ.
    - destruct Hok.
  Qed.

  Lemma visit_size n e : ok e -> size e < n ->
    let r := visit k a (simplify_node k a n) e in
    ok r /\ value r = value e /\ size r <= size e /\ (good_leaves e -> Q r).
  Proof.
    intros Hok Hs. cbn zeta. revert Hok Hs.
    set (f := fun x => simplify_node k a n (visit k a (simplify_node k a n) x)).
    assert (Hc : 2 <= n -> forall z, f (EConst z) = EConst z) by (intros H z; unfold f; destruct n as [|m]; [lia|]; reflexivity).
    induction e as [z|y|kd s fs IH|ci ss IH|] using expr_ind'; intros Hok Hs; cbn [visit]; fold f; try (repeat apply conj; auto; fail).
    - apply ok_prod in Hok. rewrite size_prod in Hs. rewrite Forall_forall in IH, Hok.
      assert (Hx : forall x, In x fs -> ok (f x) /\ value (f x) = value x /\ size (f x) <= size x /\ (good_leaves x -> simp (f x))).
      { intros x Hx. pose proof (tot_in x fs Hx). destruct (IH x Hx (Hok x Hx)) as (H1 & H2 & H3 & H4); [lia|].
        destruct (simplify_node_good (fun _ => True) n (fun _ _ _ => Logic.I) _ H1 Logic.I) as (G1 & G2 & G3 & _); [lia|].
        fold (f x) in *. repeat apply conj; auto; [congruence|lia|]. intros Hg. specialize (H4 Hg).
        destruct (simplify_node_good Q n simplify_step_Q _ H1 H4) as (_ & _ & _ & r0 & R1 & R2 & R3); [lia|]. fold (f x) in R3. eapply simplify_step_done; eauto. }
      split; [|split; [|split]].
      + apply ok_prod, Forall_map, Forall_forall. intros x Hi. now apply Hx.
      + cbn [Expr_Spec.value]. rewrite map_map. f_equal. f_equal. apply map_ext_in. intros x Hi. now apply Hx.
      + rewrite !size_prod. apply le_n_S, le_n_S. assert (Hle : forall x, In x fs -> size (f x) <= size x) by (intros; now apply Hx). clear -Hle. induction fs as [|x l IH]; cbn; auto. pose proof (Hle x (or_introl eq_refl)). specialize (IH (fun y H => Hle y (or_intror H))). unfold tot in *. lia.
      + intros Hg. apply good_prod in Hg. rewrite Forall_forall in Hg. cbn [Q]. apply Forall_map, Forall_forall. intros x Hi. apply Hx; auto.
    - apply ok_sum in Hok as [Hci Hok]. rewrite size_sum in Hs. rewrite Forall_forall in IH, Hok.
      assert (Hx : forall x, In x ss -> ok (f x) /\ value (f x) = value x /\ size (f x) <= size x /\ (good_leaves x -> simp (f x))).
      { intros x Hx. pose proof (tot_in x ss Hx). destruct (IH x Hx (Hok x Hx)) as (H1 & H2 & H3 & H4); [lia|].
        destruct (simplify_node_good (fun _ => True) n (fun _ _ _ => Logic.I) _ H1 Logic.I) as (G1 & G2 & G3 & _); [lia|].
        fold (f x) in *. repeat apply conj; auto; [congruence|lia|]. intros Hg. specialize (H4 Hg).
        destruct (simplify_node_good Q n simplify_step_Q _ H1 H4) as (_ & _ & _ & r0 & R1 & R2 & R3); [lia|]. fold (f x) in R3. eapply simplify_step_done; eauto. }
      split; [|split; [|split]].
      + apply ok_sum. split. { apply ci_ok_map; auto. apply Hc. lia. } apply Forall_map, Forall_forall. intros x Hi. now apply Hx.
      + cbn [Expr_Spec.value]. rewrite map_map. f_equal. apply map_ext_in. intros x Hi. now apply Hx.
      + rewrite !size_sum. apply le_n_S, le_n_S. assert (Hle : forall x, In x ss -> size (f x) <= size x) by (intros; now apply Hx). clear -Hle. induction ss as [|x l IH]; cbn; auto. pose proof (Hle x (or_introl eq_refl)). specialize (IH (fun y H => Hle y (or_intror H))). unfold tot in *. lia.
      + intros Hg. apply good_sum in Hg. rewrite Forall_forall in Hg. cbn [Q]. apply Forall_map, Forall_forall. intros x Hi. apply Hx; auto.
  Qed.

  Lemma rapid_simplify_good n e : ok e -> size e < n ->
    ok (rapid_simplify k a n e) /\ value (rapid_simplify k a n e) = value e /\ (good_leaves e -> simplified (rapid_simplify k a n e)).
  Proof.
    intros Hok Hs. destruct (visit_size n e Hok Hs) as (H1 & H2 & H3 & H4). unfold rapid_simplify.
    destruct (simplify_node_good (fun _ => True) n (fun _ _ _ => Logic.I) _ H1 Logic.I) as (G1 & G2 & G3 & _); [lia|]. repeat apply conj; auto; [congruence|].
    intros Hg. specialize (H4 Hg). destruct (simplify_node_good Q n simplify_step_Q _ H1 H4) as (_ & _ & _ & r0 & R1 & R2 & R3); [lia|]. eapply simplify_step_done; eauto.
  Qed.

  Lemma visit_simplify_fuel m n : m <= n -> forall e, size e < m -> ok e -> visit k a (simplify_node k a n) e = visit k a (simplify_node k a m) e.
  Proof.
    intros Hn. induction e as [z|y|kd s fs IH|ci ss IH|] using expr_ind'; intros Hw He; cbn [visit]; auto.
    - apply ok_prod in He. rewrite size_prod in Hw. rewrite Forall_forall in IH, He. f_equal. apply map_ext_in. intros x Hx.
      pose proof (tot_in x fs Hx). rewrite IH by (auto; lia). apply while_mono; auto. apply ok_not_err. apply (rapid_simplify_good m x); auto. lia.
    - apply ok_sum in He as [_ He]. rewrite size_sum in Hw. rewrite Forall_forall in IH, He. f_equal. apply map_ext_in. intros x Hx.
      pose proof (tot_in x ss Hx). rewrite IH by (auto; lia). apply while_mono; auto. apply ok_not_err. apply (rapid_simplify_good m x); auto. lia.
  Qed.
  Lemma rapid_simplify_fuel m n e : size e < m -> m <= n -> ok e -> rapid_simplify k a n e = rapid_simplify k a m e.
  Proof.
    intros Hm Hn He. unfold rapid_simplify. rewrite (visit_simplify_fuel m n) by (auto; lia). apply while_mono; auto. apply ok_not_err. now apply (rapid_simplify_good m e).
  Qed.
End P.
