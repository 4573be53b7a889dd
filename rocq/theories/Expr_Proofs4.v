(** expand. *)
From Coq Require Import List Bool Arith Lia Permutation.
From Verif Require Import Wick_Spec Wick_Ring Expr_Model Expr_Spec Expr_Proofs1 Expr_Proofs2 Expr_Proofs3.
Import ListNotations.

Section P.
  Variable k : kops.
  Variable a : aops k.
  Notation E := (expr (K k) (A a)).
  Notation depth := (depth k a).
  Notation clone := (clone k a).
  Notation append := (append k a).
  Notation sum_append := (sum_append k a).
  Notation is_prod := (is_prod k a).
  Notation is_sum := (is_sum k a).
  Notation is_const := (is_const k a).
  Notation is_zero := (is_zero k a).

  Lemma first_sum_some fs : forall pre p ss post, first_sum k a pre fs = Some (p, ss, post) ->
    exists ci mid, fs = mid ++ ESum ci ss :: post /\ p = pre ++ mid /\ Forall (fun x => is_sum x = false) mid.
  Proof.
    induction fs as [|x fs IH]; intros pre p ss post H; cbn in H; [discriminate|].
    destruct x as [z|y|kd s l|ci l|]; try (apply IH in H as (ci' & mid & -> & -> & Hm); eexists ci', (_ :: mid); rewrite <- app_assoc; repeat split; auto; constructor; auto; fail).
    inversion H; subst. exists ci, []. rewrite app_nil_r. auto.
  Qed.
  Lemma first_sum_none fs : forall pre, first_sum k a pre fs = None -> Forall (fun x => is_sum x = false) fs.
  Proof.
    induction fs as [|x fs IH]; intros pre H; cbn in H; constructor.
    - destruct x; auto. discriminate. - destruct x; try discriminate; eapply IH; eauto.
  Qed.

  (** *** values *)
  Section Val.
    Variable i : interpretation k a.
    Notation value := (value i).
    Local Open Scope op_scope.

    Lemma expand_product_ok kd s fs y : Forall ok fs -> expand_product k a s fs = Some y -> ok y /\ value y = value (EProd kd s fs).
    Proof.
      unfold expand_product. intros Hok. destruct (first_sum k a [] fs) as [[[pre ss] post]|] eqn:Hf; [|discriminate].
      intros [= <-]. apply first_sum_some in Hf as (ci & mid & -> & -> & _). cbn [app]. rename mid into pre.
      apply Forall_app in Hok as [Hpre Hok]. inversion Hok as [|? ? Hs Hpost]; subst. apply ok_sum in Hs as [_ Hs]. rewrite Forall_forall in Hpre, Hpost, Hs.
      assert (Hterm : forall x, In x ss -> ok (mk_prod k a PPlain s FRec (map clone pre ++ x :: map clone post)) /\
        value (mk_prod k a PPlain s FRec (map clone pre ++ x :: map clone post)) = emb i s * (rprod (map value pre) * value x * rprod (map value post))).
      { intros x Hx. destruct (mk_prod_ok k a i PPlain s FRec (map clone pre ++ x :: map clone post)) as [H1 H2].
        - apply Forall_app; split; [|constructor; auto]; apply Forall_map, Forall_forall; intros; apply (clone_ok k a i); auto.
        - split; auto. rewrite H2. f_equal. rewrite map_app, rprod_app. cbn [map]. rewrite rprod_cons, !map_map.
          rewrite (map_ext_in (fun x => value (clone x)) value pre), (map_ext_in (fun x => value (clone x)) value post); [ncr| |]; intros; apply (clone_ok k a i); auto. }
      destruct (mk_sum_ok k a i (map (fun x => mk_prod k a PPlain s FRec (map clone pre ++ x :: map clone post)) ss)) as [H1 H2].
      { apply Forall_map, Forall_forall. intros x Hx. now apply Hterm. }
      split; auto. rewrite H2, map_map. rewrite (map_ext_in _ (fun x => emb i s * (rprod (map value pre) * value x * rprod (map value post)))) by (intros; now apply Hterm).
      cbn [Expr_Spec.value]. rewrite map_app, rprod_app. cbn [map]. rewrite rprod_cons. cbn [Expr_Spec.value].
      clear. induction ss as [|x ss IH]; cbn [map]; rewrite ?rsum_cons.
      - cbn. ncr.
      - rewrite IH. ncr.
    Qed.

    Lemma expand_summands_ok l : forall done result, Forall ok done -> Forall ok l ->
      match result with Some r => oks k a r /\ sv k a i r = rsum (map value done) | None => True end ->
      match expand_summands k a done result l with
      | Some st => oks k a st /\ sv k a i st = rsum (map value (done ++ l))
      | None => True end.
    Proof.
      induction l as [|x l IH]; intros done result Hd Hl Hr; cbn [expand_summands].
      - rewrite app_nil_r. exact Hr.
      - inversion Hl as [|? ? Hx Hl']; subst.
        set (so_far := match result with Some r => r | None => append_all k a done (None, []) end).
        assert (Hso : oks k a so_far /\ sv k a i so_far = rsum (map value done)).
        { unfold so_far. destruct result as [r|]; auto. destruct (append_all_ok k a i done (None, []) Hd) as [H1 H2]; [split; cbn; auto|].
          split; auto. rewrite H2. unfold sv. cbn [snd map]. change (rsum (@nil (car (ir i)))) with (r0 (ir i)). ncr. }
        assert (Hadd : forall y, ok y -> value y = value x -> oks k a (sum_append clone y so_far) /\ sv k a i (sum_append clone y so_far) = rsum (map value (done ++ [y]))).
        { intros y Hy _. destruct Hso as [H1 H2]. destruct (sum_append_clone k a i y so_far Hy H1) as [H3 H4]. split; auto.
          rewrite H4, H2, map_app, rsum_app. cbn [map]. now rewrite rsum_1. }
        assert (Hcont : forall y res, ok y -> value y = value x ->
          match res with Some r => oks k a r /\ sv k a i r = rsum (map value (done ++ [y])) | None => True end ->
          match expand_summands k a (done ++ [y]) res l with
          | Some st => oks k a st /\ sv k a i st = rsum (map value (done ++ x :: l)) | None => True end).
        { intros y res Hy Hv Hres. specialize (IH (done ++ [y]) res). destruct (expand_summands k a (done ++ [y]) res l) as [st|]; auto.
          destruct IH as [H1 H2]; auto. { apply Forall_app; split; auto. } split; auto. rewrite H2, <- app_assoc. cbn [app]. rewrite !map_app. cbn [map]. now rewrite Hv. }
        assert (Hkeep : match option_map (sum_append clone x) result with Some r => oks k a r /\ sv k a i r = rsum (map value (done ++ [x])) | None => True end).
        { destruct result as [r|]; cbn; auto. }
        destruct x as [z|y|kd s fs|ci ss|]; try (apply Hcont; auto; fail).
        + destruct (expand_product k a s fs) as [y|] eqn:Hy; [|apply Hcont; auto].
          destruct (expand_product_ok kd s fs y) as [H1 H2]; auto. { now apply ok_prod in Hx. }
          apply Hcont; auto.
    Qed.

    Lemma raise_ok st (b : bool) : oks k a st ->
      let r := match snd st with [x] => (x, true) | [] => (EConst (k0 k), true) | l => (ESum (fst st) l, b) end in
      ok (fst r) /\ value (fst r) = sv k a i st.
    Proof.
      intros Hs. destruct st as [ci l]. cbn [fst snd]. destruct l as [|x [|y l]]; cbn zeta.
      - split; [exact Logic.I|]. cbn. apply emb_0.
      - destruct Hs as [_ Hs]. inversion Hs; subst. split; auto. unfold sv; cbn [snd map]. now rewrite rsum_1.
      - split; [|reflexivity]. apply ok_sum. exact Hs.
    Qed.

    Lemma expand_step_ok e : ok e -> ok (fst (expand_step k a e)) /\ value (fst (expand_step k a e)) = value e.
    Proof.
      intros Hok. destruct e as [z|y|kd s fs|ci ss|]; cbn [expand_step]; auto.
      - destruct (expand_product k a s fs) as [y|] eqn:Hy; auto. cbn [fst]. apply expand_product_ok; auto. now apply ok_prod in Hok.
      - unfold expand_sum. apply ok_sum in Hok. destruct Hok as [H1 H2].
        pose proof (expand_summands_ok ss [] None (Forall_nil _) H2 Logic.I) as He.
        destruct (expand_summands k a [] None ss) as [st|].
        + destruct He as [H3 H4]. cbn [app] in H4. rewrite (value_sum k a i). unfold sv at 1. cbn [snd]. rewrite <- H4. exact (raise_ok st true H3).
        + exact (raise_ok (ci, ss) false (conj H1 H2)).
    Qed.

    (** the loop: an error, or an expression with the same value *)
    Lemma while_ok step n : (forall e, ok e -> ok (fst (step e)) /\ value (fst (step e)) = value e) ->
      forall e, ok e -> while_changes k a step n e = EErr \/ (ok (while_changes k a step n e) /\ value (while_changes k a step n e) = value e).
    Proof.
      intros Hs. induction n as [|n IH]; intros e He; cbn [while_changes]; auto.
      destruct (Hs e He) as [H1 H2]. destruct (step e) as [e' b]; cbn [fst] in *. destruct b; auto. destruct (IH e' H1) as [H|[H3 H4]]; auto.
      right. split; auto. congruence.
    Qed.
  End Val.

  (** *** the form of the result, and termination *)
  Lemma sum_free_prod kd s fs : sum_free (k:=k) (a:=a) (EProd kd s fs) <-> Forall sum_free fs.
  Proof. apply fr_and. Qed.

  Definition nf (x : E) : Prop := sum_free x \/ exists ci ss, x = ESum ci ss /\ Forall sum_free ss.
  Definition rank (fs : list E) : nat := length (filter is_sum fs).
  Definition el (M : nat) (x : E) : Prop :=
    match x with EProd _ _ fs => Forall nf fs /\ rank fs <= M | ESum _ _ => False | _ => True end.

  Lemma rank_app l m : rank (l ++ m) = rank l + rank m.
  Proof. unfold rank. now rewrite filter_app, app_length. Qed.
  Lemma rank_le_length l : rank l <= length l.
  Proof. induction l as [|x l IH]; auto. unfold rank in *; cbn. destruct (is_sum x); cbn; lia. Qed.
  Lemma rank_0 l : Forall (fun x => is_sum x = false) l -> rank l = 0.
  Proof. induction 1; auto. unfold rank in *; cbn. now rewrite H. Qed.
  Lemma nf_no_sum x : nf x -> is_sum x = false -> sum_free x.
  Proof. intros [H|(ci & ss & -> & _)]; auto. discriminate. Qed.
  Lemma sum_free_no_sum x : sum_free x -> is_sum x = false.
  Proof. destruct x; cbn; auto. intros []. Qed.
  Lemma rank_sum_free l : Forall sum_free l -> rank l = 0.
  Proof. intros H. apply rank_0. eapply Forall_impl; [|exact H]. exact sum_free_no_sum. Qed.

  (** append of normal factors *)
  Definition b2n (b : bool) : nat := if b then 1 else 0.
  Definition pin (p : prod k a) (r : nat) : Prop := Forall nf (snd p) /\ rank (snd p) <= r.

  Lemma pin_push p r x : pin p r -> nf x -> pin (push k a p x) (r + b2n (is_sum x)).
  Proof.
    intros [H1 H2] Hx. split; cbn [push snd]. - apply Forall_app; auto. - rewrite rank_app. unfold rank at 2. cbn. destruct (is_sum x); cbn; lia.
  Qed.

  (** [cl] keeps sum-free and normal expressions so *)
  Lemma append_nf cl : (forall x, is_sum (cl x) = is_sum x) -> forall e t p r,
    (forall y, depth y <= depth e -> sum_free y -> sum_free (cl y)) -> (is_sum e = true -> nf (cl e)) ->
    nf e -> pin p r -> pin (append cl t e p) (r + b2n (is_sum e)).
  Proof.
    intros Hk. induction e as [z|y|kd s fs IH|ci ss IH|] using expr_ind'; intros t p r Hf Hn He Hp; cbn [Expr_Model.append].
    - cbn [Expr_Model.is_sum b2n]. rewrite Nat.add_0_r. exact Hp.
    - rewrite <- Hk. apply pin_push; auto. left. apply Hf; auto. exact Logic.I.
    - apply nf_no_sum in He; [|reflexivity]. apply sum_free_prod in He.
      assert (Hno : pin (push k a p (cl (EProd kd s fs))) (r + b2n (is_sum (EProd kd s fs)))).
      { rewrite <- Hk. apply pin_push; auto. left. apply Hf; auto. now apply sum_free_prod. }
      assert (Hfl : forall t', pin (fold_left (fun p x => append cl t' x p) fs (scale k a s p)) (r + b2n (is_sum (EProd kd s fs)))).
      { intros t'. cbn [Expr_Model.is_sum b2n]. rewrite Nat.add_0_r. apply (fold_left_inv (fun p => pin p r)); [|exact Hp]. intros q x Hx Hq.
        rewrite Forall_forall in IH, He. pose proof (He x Hx) as Hxf. rewrite <- (Nat.add_0_r r). replace 0 with (b2n (is_sum x)) by (now rewrite sum_free_no_sum).
        apply IH; auto.
        - intros y Hy. apply Hf. pose proof (in_prod_depth _ _ _ kd s _ Hx). lia.
        - rewrite sum_free_no_sum by auto. discriminate.
        - now left. }
      destruct t; auto.
    - rewrite <- Hk. apply pin_push; auto.
    - rewrite <- Hk. apply pin_push; auto. left. apply Hf; auto. exact Logic.I.
  Qed.

  Lemma sum_append_free cl e : (forall y, depth y <= depth e -> sum_free y -> sum_free (cl y)) -> nf e ->
    forall st, Forall sum_free (snd st) -> Forall sum_free (snd (sum_append cl e st)).
  Proof.
    intros Hcl He st Hst.
    assert (Hbase : forall x st, depth x <= depth e -> sum_free x -> Forall sum_free (snd st) -> Forall sum_free (snd (sum_append cl x st))).
    { intros x st0 Hd Hx Hs. destruct x as [z|y|kd s fs|ci ss|]; cbn [Expr_Model.sum_append]; try destruct (is_zero _); auto.
      - destruct (fst st0); cbn [snd]. + apply Forall_add_at; cbn; auto. + apply Forall_app; split; auto.
      - cbn [snd]. apply Forall_app; split; auto.
      - cbn [snd]. apply Forall_app; split; auto.
      - destruct Hx.
      - cbn [snd]. apply Forall_app; split; auto. }
    destruct He as [He|(ci & ss & -> & Hss)]; [now apply Hbase|]. cbn [Expr_Model.sum_append].
    apply (fold_left_inv (fun st => Forall sum_free (snd st))); auto. intros st0 x Hx H0. rewrite Forall_forall in Hss. apply Hbase; auto.
    pose proof (in_sum_depth _ _ _ ci _ Hx). lia.
  Qed.

  Lemma clone_sum_free_nf e : (sum_free e -> sum_free (clone e)) /\ (nf e -> nf (clone e)).
  Proof.
    induction e as [e IH] using (depth_ind k a).
    assert (H1 : sum_free e -> sum_free (clone e)).
    { intros Hf. destruct e as [z|y|kd s fs|ci ss|]; auto. rewrite clone_prod. cbn zeta. apply sum_free_prod.
      apply sum_free_prod in Hf. rewrite Forall_forall in Hf.
      assert (Hp : pin (fold_left (fun p x => append clone FNo (clone x) p) fs (s, [])) 0).
      { apply (fold_left_inv (fun p => pin p 0)); [|split; cbn; auto]. intros p x Hx Hp. pose proof (in_prod_depth _ _ _ kd s _ Hx) as Hd.
        assert (Hcf : sum_free (clone x)) by (apply IH; auto). pose proof (clone_depth k a x).
        replace 0 with (0 + b2n (is_sum (clone x))) by (now rewrite sum_free_no_sum).
        apply append_nf; auto.
        - intros. apply clone_kind. - intros y Hy. apply IH. lia. - rewrite sum_free_no_sum by auto. discriminate. - now left. }
      destruct Hp as [G1 G2]. rewrite Forall_forall in *. intros x Hx. apply nf_no_sum; auto. destruct (is_sum x) eqn:Hsx; auto. exfalso.
      assert (Hin : In x (filter is_sum (snd (fold_left (fun p x => append clone FNo (clone x) p) fs (s, []))))) by (apply filter_In; auto).
      unfold rank in G2. destruct (filter _ _); [destruct Hin|cbn in G2; lia]. }
    split; auto. intros [Hf|(ci & ss & -> & Hss)]; [left; auto|]. right. rewrite clone_sum. cbn zeta.
    eexists _, _. split; [reflexivity|]. apply (fold_left_inv (fun st => Forall sum_free (snd st))); [|constructor].
    intros st x Hx Hst. pose proof (in_sum_depth _ _ _ ci _ Hx) as Hd. rewrite Forall_forall in Hss. pose proof (clone_depth k a x). apply sum_append_free; auto.
    - intros y Hy. apply IH. lia. - left. apply IH; auto.
  Qed.
  Lemma clone_sum_free e : sum_free e -> sum_free (clone e). Proof. apply clone_sum_free_nf. Qed.
  Lemma clone_nf e : nf e -> nf (clone e). Proof. apply clone_sum_free_nf. Qed.

  Lemma append_clone_nf t e p r : nf e -> pin p r -> pin (append clone t e p) (r + b2n (is_sum e)).
  Proof.
    intros He Hp. apply append_nf; auto. - intros; apply clone_kind. - intros; now apply clone_sum_free. - intros; now apply clone_nf.
  Qed.
  Lemma append_fold_nf (f : E -> E) t fs : forall p r, Forall (fun x => nf (f x)) fs -> pin p r ->
    pin (fold_left (fun p x => append clone t (f x) p) fs p) (r + rank (map f fs)).
  Proof.
    induction fs as [|x fs IH]; intros p r Hf Hp; cbn [fold_left map]. - unfold rank; cbn. now rewrite Nat.add_0_r.
    - inversion Hf; subst. replace (r + rank (f x :: map f fs)) with ((r + b2n (is_sum (f x))) + rank (map f fs)).
      + apply IH; auto. now apply append_clone_nf.
      + unfold rank; cbn. destruct (is_sum (f x)); cbn; lia.
  Qed.
  Lemma mk_prod_el kd s fs : Forall nf fs -> el (rank fs) (mk_prod k a kd s FRec fs).
  Proof.
    intros H. unfold mk_prod. cbn zeta. cbn [el]. pose proof (append_fold_nf (fun x => x) FRec fs (s, []) 0 H) as Hp. rewrite map_id in Hp.
    apply Hp. split; cbn; auto.
  Qed.
  Lemma rank_clone fs : rank (map clone fs) = rank fs.
  Proof. induction fs as [|x fs IH]; auto. unfold rank in *; cbn [map filter]. destruct (clone_kind k a x) as (_ & -> & _). destruct (is_sum x); cbn; auto. Qed.
  Lemma clone_el M e : el M e -> el M (clone e).
  Proof.
    destruct e as [z|y|kd s fs|ci ss|]; cbn [el]; auto. intros [H1 H2]. rewrite clone_prod. cbn zeta. cbn [el].
    pose proof (append_fold_nf clone FNo fs (s, []) 0) as Hp. rewrite rank_clone in Hp. destruct Hp as [G1 G2].
    - rewrite Forall_forall in *. intros x Hx. now apply clone_nf; auto. - split; cbn; auto. - split; auto. cbn in G2. lia.
  Qed.

  Lemma el_le M N x : M <= N -> el M x -> el N x.
  Proof. destruct x; cbn; auto. intros H [H1 H2]. split; auto. lia. Qed.
  Lemma sum_free_el x : sum_free x -> el 0 x.
  Proof.
    destruct x as [z|y|kd s fs|ci ss|]; cbn [el]; auto. intros H. apply sum_free_prod in H. split.
    - eapply Forall_impl; [|exact H]. now left. - rewrite rank_sum_free; auto.
  Qed.
  Lemma sum_append_el M e : (el M e \/ exists ci ss, e = ESum ci ss /\ Forall (el M) ss) ->
    forall st, Forall (el M) (snd st) -> Forall (el M) (snd (sum_append clone e st)).
  Proof.
    assert (Hbase : forall x st, el M x -> Forall (el M) (snd st) -> Forall (el M) (snd (sum_append clone x st))).
    { intros x st0 Hx Hs. assert (Hc := clone_el M x Hx). destruct x as [z|y|kd s fs|ci ss|]; cbn [Expr_Model.sum_append]; try destruct (is_zero _); auto.
      - destruct (fst st0); cbn [snd]. + apply Forall_add_at; cbn; auto. + apply Forall_app; split; auto.
      - cbn [snd]. apply Forall_app; split; auto.
      - cbn [snd]. apply Forall_app; split; auto.
      - destruct Hx.
      - cbn [snd]. apply Forall_app; split; auto. }
    intros [He|(ci & ss & -> & Hss)] st Hst; [now apply Hbase|]. cbn [Expr_Model.sum_append].
    apply (fold_left_inv (fun st => Forall (el M) (snd st))); auto. intros st0 x Hx H0. rewrite Forall_forall in Hss. apply Hbase; auto.
  Qed.
  Lemma append_all_el M l : Forall (el M) l -> forall st, Forall (el M) (snd st) -> Forall (el M) (snd (append_all k a l st)).
  Proof.
    intros H st Hst. unfold append_all. apply (fold_left_inv (fun st => Forall (el M) (snd st))); auto. intros st0 x Hx H0. apply sum_append_el; auto.
    left. rewrite Forall_forall in H. auto.
  Qed.
  Lemma mk_sum_el M l : Forall (el M) l -> exists ci ss, mk_sum k a l = ESum ci ss /\ Forall (el M) ss.
  Proof. intros H. unfold mk_sum. cbn zeta. eexists _, _. split; [reflexivity|]. apply (append_all_el M l H (None, [])). constructor. Qed.

  Lemma expand_product_el s fs y M : Forall nf fs -> rank fs <= S M -> expand_product k a s fs = Some y -> exists ci ss, y = ESum ci ss /\ Forall (el M) ss.
  Proof.
    unfold expand_product. intros Hn Hr. destruct (first_sum k a [] fs) as [[[pre ss] post]|] eqn:Hf; [|discriminate].
    intros [= <-]. apply first_sum_some in Hf as (ci & mid & -> & -> & _). cbn [app]. rename mid into pre.
    apply mk_sum_el. apply Forall_map, Forall_forall. intros x Hx.
    apply Forall_app in Hn as [Hpre Hn]. inversion Hn as [|? ? Hs Hpost]; subst. destruct Hs as [[]|(ci' & ss' & [= <- <-] & Hss)].
    rewrite Forall_forall in Hss. rewrite rank_app in Hr. unfold rank in Hr at 2. cbn [filter Expr_Model.is_sum length] in Hr. fold (rank post) in Hr.
    eapply el_le; [|apply mk_prod_el].
    - rewrite rank_app, rank_clone. unfold rank at 2. cbn [filter]. rewrite sum_free_no_sum by auto. fold (rank (map clone post)). rewrite rank_clone. lia.
    - apply Forall_app; split; [|constructor].
      + apply Forall_map. eapply Forall_impl; [|exact Hpre]. exact clone_nf.
      + left; auto.
      + apply Forall_map. eapply Forall_impl; [|exact Hpost]. exact clone_nf.
  Qed.
  Lemma expand_product_none s fs : Forall nf fs -> expand_product k a s fs = None -> Forall sum_free fs /\ rank fs = 0.
  Proof.
    unfold expand_product. intros Hn. destruct (first_sum k a [] fs) as [[[pre ss] post]|] eqn:Hf; [discriminate|]. intros _. apply first_sum_none in Hf.
    split; [|now apply rank_0]. rewrite Forall_forall in *. intros x Hx. apply nf_no_sum; auto.
  Qed.

  (** summands: normal sums and products of normal factors *)
  Definition sm (M : nat) (x : E) : Prop := el M x \/ 1 <= M /\ exists ci ss, x = ESum ci ss /\ Forall sum_free ss.

  Lemma expand_summands_el M l : forall done result, Forall (sm (S M)) l ->
    match result with Some r => Forall (el M) (snd r) | None => Forall sum_free done end ->
    match expand_summands k a done result l with
    | Some st => Forall (el M) (snd st)
    | None => result = None /\ Forall sum_free l
    end.
  Proof.
    induction l as [|x l IH]; intros done result Hl Hr; cbn [expand_summands].
    - destruct result; auto.
    - inversion Hl as [|? ? Hx Hl']; subst.
      set (so_far := match result with Some r => r | None => append_all k a done (None, []) end).
      assert (Hso : Forall (el M) (snd so_far)).
      { unfold so_far. destruct result as [r|]; auto. apply append_all_el; [|constructor]. eapply Forall_impl; [|exact Hr]. intros y Hy. eapply el_le; [|now apply sum_free_el]. lia. }
      assert (Hsf : sum_free x -> match expand_summands k a (done ++ [x]) (option_map (sum_append clone x) result) l with
        | Some st => Forall (el M) (snd st) | None => result = None /\ Forall sum_free (x :: l) end).
      { intros Hf. specialize (IH (done ++ [x]) (option_map (sum_append clone x) result) Hl'). destruct (expand_summands k a (done ++ [x]) _ l) as [st|].
        - apply IH. destruct result; cbn. + apply sum_append_el; auto. left. eapply el_le; [|now apply sum_free_el]. lia. + apply Forall_app; split; auto.
        - destruct result; cbn in IH. + destruct IH as [[=] _]. apply sum_append_el; auto. left. eapply el_le; [|now apply sum_free_el]. lia.
          + destruct IH as [_ H]; auto. apply Forall_app; split; auto. }
      assert (Hex : forall y d, (exists ci ss, y = ESum ci ss /\ Forall (el M) ss) ->
        match expand_summands k a d (Some (sum_append clone y so_far)) l with
        | Some st => Forall (el M) (snd st) | None => result = None /\ Forall sum_free (x :: l) end).
      { intros y d Hy. specialize (IH d (Some (sum_append clone y so_far)) Hl'). destruct (expand_summands k a d _ l) as [st|].
        - apply IH. apply sum_append_el; auto. - destruct IH as [[=] _]. apply sum_append_el; auto. }
      destruct x as [z|y|kd s fs|ci ss|]; try (apply Hsf; exact Logic.I).
      + destruct Hx as [[H1 H2]|(_ & ci' & ss' & [=] & _)]. destruct (expand_product k a s fs) as [y|] eqn:Hy.
        * apply Hex. eapply expand_product_el; eauto.
        * apply Hsf. apply expand_product_none in Hy as [Hy _]; auto. now apply sum_free_prod.
      + destruct Hx as [[]|(_ & ci' & ss' & [= <- <-] & Hss)]. apply Hex. exists ci, ss. split; auto. eapply Forall_impl; [|exact Hss].
        intros y Hy. eapply el_le; [|now apply sum_free_el]. lia.
  Qed.
  (** nothing to expand at all *)
  Lemma expand_summands_0 l : forall done, Forall (el 0) l -> expand_summands k a done None l = None.
  Proof.
    induction l as [|x l IH]; intros done Hl; cbn [expand_summands]; auto. inversion Hl as [|? ? Hx Hl']; subst.
    destruct x as [z|y|kd s fs|ci ss|]; cbn [option_map]; auto; [|destruct Hx]. destruct Hx as [H1 H2].
    destruct (expand_product k a s fs) as [y|] eqn:Hy; auto. exfalso. unfold expand_product in Hy.
    destruct (first_sum k a [] fs) as [[[pre ss] post]|] eqn:Hf; [|discriminate]. apply first_sum_some in Hf as (ci & mid & -> & _ & _).
    rewrite rank_app in H2. unfold rank in H2 at 2. cbn in H2. lia.
  Qed.
  Lemma expand_summands_result l : forall done r, expand_summands k a done (Some r) l <> None.
  Proof.
    induction l as [|x l IH]; intros done r; cbn [expand_summands]; [discriminate|].
    destruct x as [z|y|kd s fs|ci ss|]; cbn [option_map]; auto. destruct (expand_product k a s fs); auto.
  Qed.

  (** The measure. *)
  Definition stage (n : nat) (e : E) : Prop :=
    match e with
    | EProd _ _ fs => Forall nf fs /\ (rank fs = 0 \/ rank fs + 2 <= n)
    | ESum _ ss => exists M, Forall (sm M) ss /\ M + 2 <= n
    | _ => True
    end.

  Lemma el_stage M n x : el M x -> M + 2 <= n -> stage n x.
  Proof. destruct x; cbn; auto; [|intros []]. intros [H1 H2] Hn. split; auto. right. lia. Qed.
  Lemma el_0_stage n x : el 0 x -> stage n x.
  Proof. destruct x; cbn; auto; [|intros []]. intros [H1 H2]. split; auto. left. lia. Qed.

  Lemma expand_step_stage n e : stage (S n) e ->
    let '(e', b) := expand_step k a e in if b then stage n e' else expanded e'.
  Proof.
    destruct e as [z|y|kd s fs|ci ss|]; cbn [expand_step]; intros Hs; try (left; exact Logic.I).
    - destruct Hs as [H1 H2]. destruct (expand_product k a s fs) as [y|] eqn:Hy.
      + assert (Hr : rank fs <> 0).
        { unfold expand_product in Hy. destruct (first_sum k a [] fs) as [[[pre ss] post]|] eqn:Hf; [|discriminate]. apply first_sum_some in Hf as (ci & mid & -> & _ & _).
          rewrite rank_app. unfold rank at 2. cbn. lia. }
        destruct (expand_product_el s fs y (rank fs - 1) H1) as (ci & ss & -> & Hss); auto; [lia|]. cbn [stage]. exists (rank fs - 1). split; [|lia].
        eapply Forall_impl; [|exact Hss]. now left.
      + apply expand_product_none in Hy as [Hy _]; auto. left. now apply sum_free_prod.
    - destruct Hs as (M & H1 & H2). unfold expand_sum.
      assert (Hraise : forall N st b, Forall (el N) (snd st) -> N + 2 <= n \/ N = 0 -> (b = false -> Forall sum_free (snd st)) -> (b = true -> N + 2 <= n) ->
        let '(e', c) := match snd st with [x] => (x, true) | [] => (EConst (k0 k), true) | l => (ESum (fst st) l, b) end in if c then stage n e' else expanded e').
      { intros N st b Hel HN Hb Hb'. destruct st as [ci' l]. cbn [fst snd] in *. destruct l as [|x [|y l]].
        - exact Logic.I.
        - inversion Hel; subst. destruct HN as [HN|HN]. + eapply el_stage; eauto. + subst N. now apply el_0_stage.
        - destruct b. + cbn [stage]. exists N. split; [|auto]. eapply Forall_impl; [|exact Hel]. now left.
          + right. exists ci', (x :: y :: l). split; auto. split; [cbn; lia|]. apply Forall_forall. auto. }
      destruct M as [|M].
      + assert (H0 : Forall (el 0) ss). { eapply Forall_impl; [|exact H1]. intros x [Hx|[Hx _]]; [exact Hx|lia]. }
        assert (H0' : Forall (sm 1) ss). { eapply Forall_impl; [|exact H0]. intros x Hx. left. eapply el_le; [|exact Hx]. lia. }
        pose proof (expand_summands_0 ss [] H0) as Hn. pose proof (expand_summands_el 0 ss [] None H0' (Forall_nil _)) as He. unfold sumst in *.
        rewrite Hn in He |- *. 
        apply (Hraise 0 (ci, ss) false); auto; try discriminate. intros _. apply He; auto.
      + pose proof (expand_summands_el M ss [] None H1 (Forall_nil _)) as He. unfold sumst in *.
        remember (expand_summands k a [] None ss) as R eqn:HR. unfold sumst in HR. rewrite <- HR in He |- *. destruct R as [st|].
        * apply (Hraise M st true); auto; try discriminate; try lia.
        * destruct He as [_ He]. apply (Hraise 0 (ci, ss) false); auto; try discriminate. cbn [snd]. eapply Forall_impl; [|exact He]. apply sum_free_el.
  Qed.

  Lemma stage_le m n e : m <= n -> stage m e -> stage n e.
  Proof. intros Hm. destruct e; cbn; auto. - intros [H1 H2]. split; auto. lia. - intros (M & H1 & H2). exists M. split; auto. lia. Qed.

  Lemma expand_node_good i n : forall e, ok e -> stage n e ->
    ok (expand_node k a (S n) e) /\ value i (expand_node k a (S n) e) = value i e /\ expanded (expand_node k a (S n) e).
  Proof.
    unfold expand_node. induction n as [|n IH]; intros e He Hs; cbn [while_changes]; destruct (expand_step_ok i e He) as [H1 H2].
    - pose proof (expand_step_stage 0 e (stage_le 0 1 e (Nat.le_succ_diag_r 0) Hs)) as H3.
      assert (Hb : snd (expand_step k a e) = false).
      { destruct e as [z|y|kd s fs|ci ss|]; cbn [expand_step]; auto.
        - destruct (expand_product k a s fs) as [y|] eqn:Hy; auto. exfalso. cbn [stage] in Hs. destruct Hs as [_ [Hs|Hs]]; [|lia].
          unfold expand_product in Hy. destruct (first_sum k a [] fs) as [[[pre ss] post]|] eqn:Hf; [|discriminate]. apply first_sum_some in Hf as (ci & mid & -> & _ & _).
          rewrite rank_app in Hs. unfold rank in Hs at 2. cbn in Hs. lia.
        - cbn in Hs. destruct Hs as (M & _ & Hs). lia. }
      destruct (expand_step k a e) as [e' b]; cbn [fst snd] in *. subst b. auto.
    - pose proof (expand_step_stage n e) as H3. destruct (expand_step k a e) as [e' b]; cbn [fst] in *.
      destruct b; [|apply H3 in Hs; auto]. destruct (IH e' H1 (H3 Hs)) as (G1 & G2 & G3). repeat split; auto. exact (eq_trans G2 H2).
  Qed.

  (** the largest number of operands of a node *)
  Fixpoint width (e : E) : nat :=
    match e with
    | EProd _ _ fs => Nat.max (length fs) (fold_right (fun x m => Nat.max (width x) m) 0 fs)
    | ESum _ ss => Nat.max (length ss) (fold_right (fun x m => Nat.max (width x) m) 0 ss)
    | _ => 0
    end.
  Lemma width_in (l : list E) x : In x l -> width x <= fold_right (fun x m => Nat.max (width x) m) 0 l.
  Proof. induction l as [|y l IH]; cbn; [tauto|]. intros [->|H]; [lia|]. apply IH in H. lia. Qed.

  Lemma expanded_nf x : expanded x -> nf x.
  Proof. intros [H|(ci & ss & -> & _ & H)]; [now left|]. right. exists ci, ss. split; auto. now apply Forall_forall. Qed.
  Lemma expanded_sm x : expanded x -> sm 1 x.
  Proof.
    intros [H|(ci & ss & -> & _ & H)].
    - left. eapply el_le; [|now apply sum_free_el]. lia.
    - right. split; auto. exists ci, ss. split; auto. now apply Forall_forall.
  Qed.
  Lemma ci_ok_map (f : E -> E) ci ss : (forall z, f (EConst z) = EConst z) -> ci_ok k a ci ss -> ci_ok k a ci (map f ss).
  Proof.
    intros Hf. destruct ci as [j|]; cbn; auto. intros [z Hz]. exists z. rewrite nth_error_map, Hz. cbn. now rewrite Hf.
  Qed.

  Lemma visit_expand i n : 4 <= n -> forall e, width e + 4 <= n -> ok e ->
    ok (visit k a (expand_node k a n) e) /\ value i (visit k a (expand_node k a n) e) = value i e /\ stage (n - 1) (visit k a (expand_node k a n) e).
  Proof.
    intros Hn. destruct n as [|n]; [lia|]. replace (S n - 1) with n by lia.
    set (f := fun x => expand_node k a (S n) (visit k a (expand_node k a (S n)) x)).
    assert (Hc : forall z, f (EConst z) = EConst z) by reflexivity.
    induction e as [z|y|kd s fs IH|ci ss IH|] using expr_ind'; intros Hw He; cbn [visit]; fold f; try (repeat split; auto; fail).
    - apply ok_prod in He. cbn [width] in Hw. rewrite Forall_forall in IH, He.
      assert (Hx : forall x, In x fs -> ok (f x) /\ value i (f x) = value i x /\ expanded (f x)).
      { intros x Hx. destruct (IH x Hx) as (H1 & H2 & H3); auto. { pose proof (width_in fs x Hx). lia. }
        destruct (expand_node_good i n _ H1 H3) as (G1 & G2 & G3). unfold f. repeat split; auto. congruence. }
      repeat split.
      + apply ok_prod. apply Forall_map, Forall_forall. intros x Hi. now apply Hx.
      + cbn [value]. rewrite map_map. f_equal. f_equal. apply map_ext_in. intros x Hi. now apply Hx.
      + apply Forall_map, Forall_forall. intros x Hi. apply expanded_nf. now apply Hx.
      + right. pose proof (rank_le_length (map f fs)) as Hr. rewrite map_length in Hr. lia.
    - apply ok_sum in He as [Hci He]. cbn [width] in Hw. rewrite Forall_forall in IH, He.
      assert (Hx : forall x, In x ss -> ok (f x) /\ value i (f x) = value i x /\ expanded (f x)).
      { intros x Hx. destruct (IH x Hx) as (H1 & H2 & H3); auto. { pose proof (width_in ss x Hx). lia. }
        destruct (expand_node_good i n _ H1 H3) as (G1 & G2 & G3). unfold f. repeat split; auto. congruence. }
      repeat split.
      + now apply ci_ok_map.
      + apply fr_and. apply Forall_map, Forall_forall. intros x Hi. now apply Hx.
      + cbn [value]. rewrite map_map. f_equal. apply map_ext_in. intros x Hi. now apply Hx.
      + exists 1. split; [|lia]. apply Forall_map, Forall_forall. intros x Hi. apply expanded_sm. now apply Hx.
  Qed.

  Lemma expand_good i n e : width e + 4 <= n -> ok e ->
    ok (expand k a n e) /\ value i (expand k a n e) = value i e /\ expanded (expand k a n e).
  Proof.
    intros Hn He. destruct (visit_expand i n ltac:(lia) e Hn He) as (H1 & H2 & H3). unfold expand.
    destruct n as [|n]; [lia|]. replace (S n - 1) with n in H3 by lia. destruct (expand_node_good i n _ H1 H3) as (G1 & G2 & G3). repeat split; auto. congruence.
  Qed.

  (** *** the fuel does not matter *)
  Lemma while_mono step n : forall m e, n <= m -> while_changes k a step n e <> EErr -> while_changes k a step m e = while_changes k a step n e.
  Proof.
    induction n as [|n IH]; intros m e Hm; cbn; [congruence|]. destruct m as [|m]; [lia|]. cbn. destruct (step e) as [e' b]. destruct b; auto. intros H. apply IH; auto. lia.
  Qed.
  Lemma ok_not_err (e : E) : ok e -> e <> EErr.
  Proof. intros H ->. destruct H. Qed.

  Lemma visit_fuel (i : interpretation k a) m n : 4 <= m -> m <= n -> forall e, width e + 4 <= m -> ok e -> visit k a (expand_node k a n) e = visit k a (expand_node k a m) e.
  Proof.
    intros Hm Hn. induction e as [z|y|kd s fs IH|ci ss IH|] using expr_ind'; intros Hw He; cbn [visit]; auto.
    - apply ok_prod in He. cbn [width] in Hw. rewrite Forall_forall in IH, He. f_equal. apply map_ext_in. intros x Hx.
      pose proof (width_in fs x Hx). rewrite IH by (auto; lia). apply while_mono; auto. apply ok_not_err. apply (expand_good i m x); auto. lia.
    - apply ok_sum in He as [_ He]. cbn [width] in Hw. rewrite Forall_forall in IH, He. f_equal. apply map_ext_in. intros x Hx.
      pose proof (width_in ss x Hx). rewrite IH by (auto; lia). apply while_mono; auto. apply ok_not_err. apply (expand_good i m x); auto. lia.
  Qed.
  Lemma expand_fuel (i : interpretation k a) m n e : width e + 4 <= m -> m <= n -> ok e -> expand k a n e = expand k a m e.
  Proof.
    intros Hm Hn He. unfold expand. rewrite (visit_fuel i m n) by (auto; lia). apply while_mono; auto. apply ok_not_err. now apply (expand_good i m e).
  Qed.
End P.
