(** Building expressions: values and well-formedness. *)
From Coq Require Import List Bool Arith Lia Permutation.
From Verif Require Import Wick_Spec Wick_Ring Expr_Model Expr_Spec Expr_Proofs1.
Import ListNotations.

Section P.
  Variable k : kops.
  Variable a : aops k.
  Variable i : interpretation k a.
  Notation E := (expr (K k) (A a)).
  Notation depth := (depth k a).
  Notation clone := (clone k a).
  Notation append := (append k a).
  Notation sum_append := (sum_append k a).
  Notation value := (value i).
  Notation emb := (emb i).
  Notation "0" := (r0 (ir i)) : op_scope.
  Notation "1" := (r1 (ir i)) : op_scope.
  Local Open Scope op_scope.

  Lemma rmul_0_r (x : car (ir i)) : x * 0 = 0. Proof. ncr. Qed.
  Lemma rmul_0_l (x : car (ir i)) : 0 * x = 0. Proof. ncr. Qed.
  Lemma radd_0_r (x : car (ir i)) : x + 0 = x. Proof. ncr. Qed.
  Lemma rprod_app (l m : list (car (ir i))) : rprod (l ++ m) = rprod l * rprod m.
  Proof. induction l as [|x l IH]; cbn; [ncr|]. unfold rprod in *. rewrite IH. ncr. Qed.
  Lemma rsum_app (l m : list (car (ir i))) : rsum (l ++ m) = rsum l + rsum m.
  Proof. induction l as [|x l IH]; cbn; [ncr|]. unfold rsum in *. rewrite IH. ncr. Qed.
  Lemma rprod_cons (x : car (ir i)) l : rprod (x :: l) = x * rprod l. Proof. reflexivity. Qed.
  Lemma rsum_cons (x : car (ir i)) l : rsum (x :: l) = x + rsum l. Proof. reflexivity. Qed.
  Lemma rprod_1 (x : car (ir i)) : rprod [x] = x. Proof. cbn. ncr. Qed.
  Lemma rsum_1 (x : car (ir i)) : rsum [x] = x. Proof. cbn. ncr. Qed.
  Lemma rsum_perm (l m : list (car (ir i))) : Permutation l m -> rsum l = rsum m.
  Proof. induction 1; cbn; unfold rsum in *; try congruence. rewrite !radd_assoc. f_equal. apply radd_comm. Qed.
  Lemma central_emb z (x : car (ir i)) : emb z * x = x * emb z.
  Proof. apply (emb_central _ _ i). Qed.

  (** Products. *)
  Definition pv (p : prod k a) : car (ir i) := emb (fst p) * rprod (map value (snd p)).
  Definition okp (p : prod k a) : Prop := Forall ok (snd p).
  (** Sums. *)
  Definition ci_ok (ci : option nat) (l : list E) : Prop :=
    match ci with None => True | Some j => exists z, nth_error l j = Some (EConst z) end.
  Definition sv (st : sumst k a) : car (ir i) := rsum (map value (snd st)).
  Definition oks (st : sumst k a) : Prop := ci_ok (fst st) (snd st) /\ Forall ok (snd st).

  Lemma ok_prod kd s fs : ok (k:=k) (a:=a) (EProd kd s fs) <-> Forall ok fs.
  Proof. apply fr_and. Qed.
  Lemma ok_sum ci ss : ok (k:=k) (a:=a) (ESum ci ss) <-> ci_ok ci ss /\ Forall ok ss.
  Proof. cbn [ok]. rewrite fr_and. reflexivity. Qed.
  Lemma value_prod kd s fs : value (EProd kd s fs) = pv (s, fs). Proof. reflexivity. Qed.
  Lemma value_sum ci ss : value (ESum ci ss) = sv (ci, ss). Proof. reflexivity. Qed.

  Lemma pv_scale z p : pv (scale k a z p) = pv p * emb z.
  Proof. unfold pv, scale; cbn [fst snd]. rewrite emb_mul. rewrite <- !rmul_assoc. f_equal. apply central_emb. Qed.
  Lemma pv_push p e : pv (push k a p e) = pv p * value e.
  Proof. unfold pv, push; cbn [fst snd]. rewrite map_app, rprod_app. cbn [map]. rewrite rprod_1. ncr. Qed.
  Lemma okp_scale z p : okp p -> okp (scale k a z p). Proof. auto. Qed.
  Lemma okp_push p e : okp p -> ok e -> okp (push k a p e).
  Proof. intros; apply Forall_app; split; auto. Qed.

  Definition faithful (cl : E -> E) (n : nat) : Prop :=
    forall y, depth y <= n -> ok y -> ok (cl y) /\ value (cl y) = value y.

  Definition append_good cl (e : E) : Prop := forall t p, okp p -> okp (append cl t e p) /\ pv (append cl t e p) = pv p * value e.

  Lemma append_fold (f : E -> prod k a -> prod k a) fs :
    (forall x p, In x fs -> okp p -> okp (f x p) /\ pv (f x p) = pv p * value x) ->
    forall p, okp p -> okp (fold_left (fun p x => f x p) fs p) /\ pv (fold_left (fun p x => f x p) fs p) = pv p * rprod (map value fs).
  Proof.
    induction fs as [|x fs IH]; intros H p Hp; cbn [fold_left map].
    - split; auto. cbn. ncr.
    - destruct (H x p (or_introl eq_refl) Hp) as [H1 H2].
      destruct (IH (fun y q Hy => H y q (or_intror Hy)) _ H1) as [H3 H4]. split; auto. rewrite H4, H2, rprod_cons. ncr.
  Qed.

  Lemma append_ok cl e : ok e -> faithful cl (depth e) -> append_good cl e.
  Proof.
    induction e as [z|y|kd s fs IH|ci ss IH|] using expr_ind'; intros Hok Hcl t p Hp; cbn [Expr_Model.append].
    - split; [apply okp_scale; auto|]. apply pv_scale.
    - destruct (Hcl (EAtom y)) as [H1 H2]; auto. split; [now apply okp_push|]. now rewrite pv_push, H2.
    - assert (Hno : okp (push k a p (cl (EProd kd s fs))) /\ pv (push k a p (cl (EProd kd s fs))) = pv p * value (EProd kd s fs)).
      { destruct (Hcl (EProd kd s fs)) as [H1 H2]; auto. split; [now apply okp_push|]. now rewrite pv_push, H2. }
      assert (Hfl : forall t', okp (fold_left (fun p x => append cl t' x p) fs (scale k a s p)) /\
        pv (fold_left (fun p x => append cl t' x p) fs (scale k a s p)) = pv p * value (EProd kd s fs)).
      { intros t'. apply ok_prod in Hok. rewrite Forall_forall in IH, Hok.
        destruct (append_fold (fun x p => append cl t' x p) fs) with (p := scale k a s p) as [H1 H2]; auto.
        - intros x q Hx Hq. apply IH; auto. intros y Hy. apply Hcl. pose proof (in_prod_depth _ _ _ kd s _ Hx). lia.
        - split; auto. rewrite H2, pv_scale, value_prod. unfold pv; cbn [fst snd]. ncr. }
      destruct t; auto.
    - destruct (Hcl (ESum ci ss)) as [H1 H2]; auto. split; [now apply okp_push|]. now rewrite pv_push, H2.
    - destruct Hok.
  Qed.

  (** Sums. *)
  Lemma is_zero_value e : is_zero k a e = true -> value e = 0.
  Proof.
    destruct e as [z|y|kd s fs|ci ss|]; cbn; intros H; try discriminate.
    - apply (keqb_iff _ _ i) in H as ->. apply emb_0.
    - now apply azero_val.
    - apply (keqb_iff _ _ i) in H as ->. rewrite emb_0. apply rmul_0_l.
  Qed.

  Lemma nth_error_add_at j z l w : nth_error l j = Some (EConst w) ->
    add_at k a j z l = firstn j l ++ EConst (kadd k w z) :: skipn (S j) l.
  Proof.
    revert l; induction j; destruct l as [|x l]; cbn; intros H; try discriminate.
    - inversion H; subst. reflexivity. - now rewrite IHj.
  Qed.
  Lemma nth_split_at {X} j (l : list X) x : nth_error l j = Some x -> l = firstn j l ++ x :: skipn (S j) l.
  Proof. revert l; induction j; destruct l; cbn; intros H; try discriminate; [now inversion H|]. f_equal. exact (IHj _ H). Qed.
  Lemma add_at_ok j z l : ci_ok (Some j) l -> Forall ok l ->
    ci_ok (Some j) (add_at k a j z l) /\ Forall ok (add_at k a j z l) /\ rsum (map value (add_at k a j z l)) = rsum (map value l) + emb z.
  Proof.
    intros [w Hw] Hl. rewrite (nth_error_add_at _ _ _ w Hw). pose proof (nth_split_at _ _ _ Hw) as Hs.
    assert (Hlen : length (firstn j l) = j) by (apply firstn_length_le; apply Nat.lt_le_incl, nth_error_Some; congruence).
    split; [|split].
    - exists (kadd k w z). rewrite nth_error_app2 by lia. rewrite Hlen, Nat.sub_diag. reflexivity.
    - rewrite Hs in Hl. apply Forall_app in Hl as [H1 H2]. inversion H2; subst. apply Forall_app; split; auto.
    - rewrite Hs at 3. rewrite !map_app, !rsum_app. cbn [map Expr_Spec.value]. rewrite !rsum_cons, emb_add. ncr.
  Qed.

  Lemma ci_ok_app ci l m : ci_ok ci l -> ci_ok ci (l ++ m).
  Proof. destruct ci as [j|]; cbn; auto. intros [z Hz]. exists z. rewrite nth_error_app1; auto. apply nth_error_Some; congruence. Qed.

  Definition sum_append_good cl (e : E) : Prop := forall st, oks st -> oks (sum_append cl e st) /\ sv (sum_append cl e st) = sv st + value e.

  Lemma sum_append_fold (f : E -> sumst k a -> sumst k a) fs :
    (forall x p, In x fs -> oks p -> oks (f x p) /\ sv (f x p) = sv p + value x) ->
    forall p, oks p -> oks (fold_left (fun p x => f x p) fs p) /\ sv (fold_left (fun p x => f x p) fs p) = sv p + rsum (map value fs).
  Proof.
    induction fs as [|x fs IH]; intros H p Hp; cbn [fold_left map].
    - split; auto. cbn. ncr.
    - destruct (H x p (or_introl eq_refl) Hp) as [H1 H2].
      destruct (IH (fun y q Hy => H y q (or_intror Hy)) _ H1) as [H3 H4]. split; auto. rewrite H4, H2, rsum_cons. ncr.
  Qed.

  Lemma oks_push st e : oks st -> ok e -> oks (fst st, snd st ++ [e]).
  Proof. intros [H1 H2] He. split; cbn [fst snd]. - now apply ci_ok_app. - apply Forall_app; auto. Qed.
  Lemma sv_push st e : sv (fst st, snd st ++ [e]) = sv st + value e.
  Proof. unfold sv; cbn [snd]. rewrite map_app, rsum_app. cbn [map]. now rewrite rsum_1. Qed.

  Lemma sum_append_ok cl e : ok e -> faithful cl (depth e) -> sum_append_good cl e.
  Proof.
    induction e as [z|y|kd s fs IH|ci ss IH|] using expr_ind'; intros Hok Hcl st Hst; cbn [Expr_Model.sum_append].
    - destruct (is_zero k a (EConst z)) eqn:Hz. { split; auto. rewrite is_zero_value by auto. now rewrite radd_0_r. }
      destruct st as [ci l]; cbn [fst snd]. destruct ci as [j|]; cbn [fst snd].
      + destruct Hst as [H1 H2]; cbn [fst snd] in *. destruct (add_at_ok j z l H1 H2) as (H3 & H4 & H5). split; [split; auto|]. exact H5.
      + split. * destruct Hst as [H1 H2]; cbn [fst snd] in *. split; cbn [fst snd].
          -- exists z. rewrite nth_error_app2, Nat.sub_diag; auto. -- apply Forall_app; split; auto.
        * exact (sv_push (None, l) (EConst z)).
    - destruct (is_zero k a (EAtom y)) eqn:Hz. { split; auto. rewrite is_zero_value by auto. now rewrite radd_0_r. }
      destruct (Hcl (EAtom y)) as [H1 H2]; auto. split; [now apply oks_push|]. now rewrite sv_push, H2.
    - destruct (is_zero k a (EProd kd s fs)) eqn:Hz. { split; auto. rewrite is_zero_value by auto. now rewrite radd_0_r. }
      destruct (Hcl (EProd kd s fs)) as [H1 H2]; auto. split; [now apply oks_push|]. now rewrite sv_push, H2.
    - apply ok_sum in Hok as [_ Hok]. rewrite Forall_forall in IH, Hok. rewrite value_sum.
      apply (sum_append_fold (fun x st => sum_append cl x st)); auto. intros x q Hx Hq. apply IH; auto.
      intros y Hy. apply Hcl. pose proof (in_sum_depth _ _ _ ci _ Hx). lia.
    - destruct Hok.
  Qed.

  (** clone keeps the value. *)
  Lemma clone_ok e : ok e -> ok (clone e) /\ value (clone e) = value e.
  Proof.
    induction e as [e IH] using (depth_ind k a). intros Hok. destruct e as [z|y|kd s fs|ci ss|]; auto.
    - rewrite clone_prod. cbn zeta. apply ok_prod in Hok. rewrite Forall_forall in Hok.
      destruct (append_fold (fun x p => append clone FNo (clone x) p) fs) with (p := (s, @nil E)) as [H1 H2].
      + intros x p Hx Hp. pose proof (in_prod_depth _ _ _ kd s _ Hx) as Hd.
        destruct (IH x Hd (Hok x Hx)) as [H3 H4]. rewrite <- H4. apply append_ok; auto.
        intros y Hy. apply IH. pose proof (clone_depth k a x). lia.
      + constructor.
      + split. * apply ok_prod. exact H1. * rewrite !value_prod. unfold pv at 1 in H2. unfold pv at 1. cbn [fst snd] in *. rewrite H2.
          unfold pv; cbn [fst snd map]. cbn. ncr.
    - rewrite clone_sum. cbn zeta. apply ok_sum in Hok as [_ Hok]. rewrite Forall_forall in Hok.
      destruct (sum_append_fold (fun x p => sum_append clone (clone x) p) ss) with (p := (@None nat, @nil E)) as [H1 H2].
      + intros x p Hx Hp. pose proof (in_sum_depth _ _ _ ci _ Hx) as Hd.
        destruct (IH x Hd (Hok x Hx)) as [H3 H4]. rewrite <- H4. apply sum_append_ok; auto.
        intros y Hy. apply IH. pose proof (clone_depth k a x). lia.
      + split; cbn; auto.
      + split. * apply ok_sum. exact H1. * etransitivity; [exact H2|]. cbn. ncr.
  Qed.
  Lemma faithful_clone n : faithful clone n.
  Proof. intros y _ Hy. now apply clone_ok. Qed.

  Lemma append_clone t e p : ok e -> okp p -> okp (append clone t e p) /\ pv (append clone t e p) = pv p * value e.
  Proof. intros He Hp. apply append_ok; auto. apply faithful_clone. Qed.
  Lemma sum_append_clone e st : ok e -> oks st -> oks (sum_append clone e st) /\ sv (sum_append clone e st) = sv st + value e.
  Proof. intros He Hp. apply sum_append_ok; auto. apply faithful_clone. Qed.

  Lemma append_all_prod t fs p : Forall ok fs -> okp p ->
    let q := fold_left (fun p x => append clone t x p) fs p in okp q /\ pv q = pv p * rprod (map value fs).
  Proof.
    intros Hfs Hp. rewrite Forall_forall in Hfs. apply (append_fold (fun x p => append clone t x p)); auto.
    intros x q Hx Hq. apply append_clone; auto.
  Qed.
  Lemma append_all_ok fs st : Forall ok fs -> oks st -> oks (append_all k a fs st) /\ sv (append_all k a fs st) = sv st + rsum (map value fs).
  Proof.
    intros Hfs Hp. rewrite Forall_forall in Hfs. apply (sum_append_fold (fun x p => sum_append clone x p)); auto.
    intros x q Hx Hq. apply sum_append_clone; auto.
  Qed.
  Lemma mk_prod_ok kd s t fs : Forall ok fs -> ok (mk_prod k a kd s t fs) /\ value (mk_prod k a kd s t fs) = emb s * rprod (map value fs).
  Proof.
    intros H. destruct (append_all_prod t fs (s, []) H) as [H1 H2]; [constructor|]. split. - apply ok_prod. exact H1.
    - unfold mk_prod. cbn zeta. rewrite value_prod. unfold pv in *; cbn [fst snd] in *. rewrite H2. cbn. ncr.
  Qed.
  Lemma mk_sum_ok ss : Forall ok ss -> ok (mk_sum k a ss) /\ value (mk_sum k a ss) = rsum (map value ss).
  Proof.
    intros H. destruct (append_all_ok ss (None, []) H) as [H1 H2]; [split; cbn; auto|]. split. - apply ok_sum. exact H1.
    - unfold mk_sum. cbn zeta. rewrite value_sum. unfold append_all, sv in *; cbn [fst snd] in *. rewrite H2. cbn. ncr.
  Qed.

  Lemma prod_of_expr_ok t e : ok e -> ok (prod_of_expr k a t e) /\ value (prod_of_expr k a t e) = value e.
  Proof.
    intros He. destruct e as [z|y|kd s fs|ci ss|] eqn:Hx; cbn [prod_of_expr]; try rewrite <- Hx in *.
    3:{ rewrite Hx in He. apply ok_prod in He. destruct (append_all_prod t fs (k1 k, []) He) as [H1 H2]; [constructor|].
        split; [apply ok_prod; exact H1|]. rewrite Hx, !value_prod. unfold pv in *. cbn [fst snd] in *. rewrite emb_mul.
        rewrite (central_emb _ (emb s)), <- rmul_assoc, H2, emb_1. cbn. ncr. }
    all: destruct (append_clone FRec e (k1 k, []) He) as [H1 H2]; [constructor|]; (split; [apply ok_prod; exact H1|]); rewrite value_prod; unfold pv in *; cbn [fst snd] in *; rewrite H2, emb_1; cbn [map rprod fold_right]; ncr.
  Qed.

  Lemma product_append_ok z f t kd s fs : ok f -> ok (k:=k) (a:=a) (EProd kd s fs) ->
    ok (product_append k a z f t (EProd kd s fs)) /\ value (product_append k a z f t (EProd kd s fs)) = value (EProd kd s fs) * (emb z * value f).
  Proof.
    intros Hf He. apply ok_prod in He. cbn [product_append]. destruct (append_clone t f (scale k a z (s, fs)) Hf) as [H1 H2]. { exact He. }
    cbn zeta. split; [apply ok_prod; exact H1|]. rewrite value_prod. unfold pv at 1. cbn [fst snd]. unfold pv at 1 in H2. rewrite H2, pv_scale, value_prod. ncr.
  Qed.
  Lemma sum_append_to_ok x ci ss : ok x -> ok (k:=k) (a:=a) (ESum ci ss) ->
    ok (sum_append_to k a x (ESum ci ss)) /\ value (sum_append_to k a x (ESum ci ss)) = value (ESum ci ss) + value x.
  Proof.
    intros Hx He. apply ok_sum in He. destruct (sum_append_clone x (ci, ss) Hx He) as [H1 H2]. cbn [sum_append_to]. cbn zeta.
    split; [apply ok_sum; exact H1|]. exact H2.
  Qed.

  (** prepend of anything that is not a product *)
  Lemma prepend_simple t f p : is_prod k a f = false -> ok f -> okp p -> okp (prepend k a t f p) /\ pv (prepend k a t f p) = value f * pv p.
  Proof.
    intros Hn Hf Hp. assert (Hpush : okp (push_front k a p (clone f)) /\ pv (push_front k a p (clone f)) = value f * pv p).
    { destruct (clone_ok f Hf) as [H1 H2]. split; [constructor; auto|]. unfold pv, push_front; cbn [fst snd map]. rewrite rprod_cons, H2.
      rewrite rmul_assoc, central_emb. ncr. }
    destruct f; cbn [prepend] in *; try discriminate; auto.
    split; [exact Hp|]. rewrite pv_scale. cbn [Expr_Spec.value]. now rewrite central_emb.
  Qed.
  Lemma product_prepend_ok z f t kd s fs : is_prod k a f = false -> ok f -> ok (k:=k) (a:=a) (EProd kd s fs) ->
    ok (product_prepend k a z f t (EProd kd s fs)) /\ value (product_prepend k a z f t (EProd kd s fs)) = (emb z * value f) * value (EProd kd s fs).
  Proof.
    intros Hn Hf He. apply ok_prod in He. cbn [product_prepend]. destruct (prepend_simple t f (scale k a z (s, fs)) Hn Hf) as [H1 H2]. { exact He. }
    cbn zeta. split; [apply ok_prod; exact H1|]. rewrite value_prod. unfold pv at 1. cbn [fst snd]. unfold pv at 1 in H2. rewrite H2, pv_scale, value_prod.
    rewrite !rmul_assoc. rewrite <- central_emb. now rewrite rmul_assoc.
  Qed.

  (** the order of operands that prepend produces when it flattens: last factor first *)
  Lemma sum_prepend_good e : ok e -> forall st, oks st -> oks (sum_prepend k a e st) /\ sv (sum_prepend k a e st) = value e + sv st.
  Proof.
    assert (Hpush : forall e st, ok e -> oks st -> oks (option_map S (fst st), clone e :: snd st) /\ sv (option_map S (fst st), clone e :: snd st) = value e + sv st).
    { intros e0 st He [H1 H2]. destruct (clone_ok e0 He) as [H3 H4]. split.
      - split; cbn [fst snd]; [|constructor; auto]. destruct (fst st); cbn in *; auto.
      - unfold sv; cbn [snd map]. now rewrite rsum_cons, H4. }
    induction e as [z|y|kd s fs IH|ci ss IH|] using expr_ind'; intros Hok st Hst; cbn [sum_prepend].
    - destruct (is_zero k a (EConst z)) eqn:Hz. { split; auto. rewrite is_zero_value by auto. now rewrite radd_0. }
      destruct st as [ci l]; cbn [fst snd]. destruct ci as [j|]; cbn [fst snd].
      + destruct Hst as [H1 H2]; cbn [fst snd] in *. destruct (add_at_ok j z l H1 H2) as (H3 & H4 & H5). split; [split; auto|]. unfold sv in *; cbn [fst snd] in *. rewrite H5. cbn [Expr_Spec.value]. apply radd_comm.
      + destruct Hst as [H1 H2]; cbn [fst snd] in *. split; [split; cbn [fst snd]|].
        * exists z. reflexivity. * constructor; cbn; auto. * unfold sv; cbn [snd map]. now rewrite rsum_cons.
    - destruct (is_zero k a (EAtom y)) eqn:Hz. { split; auto. rewrite is_zero_value by auto. now rewrite radd_0. } now apply Hpush.
    - destruct (is_zero k a (EProd kd s fs)) eqn:Hz. { split; auto. rewrite is_zero_value by auto. now rewrite radd_0. } now apply Hpush.
    - apply ok_sum in Hok as [_ Hok]. rewrite Forall_forall in IH, Hok. rewrite value_sum.
      destruct (sum_append_fold (fun x st => sum_prepend k a x st) ss) with (p := st) as [H1 H2]; auto.
      + intros x q Hx Hq. rewrite radd_comm. apply IH; auto.
      + split; auto. rewrite H2. unfold sv at 3. cbn [snd]. apply radd_comm.
    - destruct Hok.
  Qed.
  Lemma sum_prepend_to_ok x ci ss : ok x -> ok (k:=k) (a:=a) (ESum ci ss) ->
    ok (sum_prepend_to k a x (ESum ci ss)) /\ value (sum_prepend_to k a x (ESum ci ss)) = value x + value (ESum ci ss).
  Proof.
    intros Hx He. apply ok_sum in He. destruct (sum_prepend_good x Hx (ci, ss) He) as [H1 H2]. cbn [sum_prepend_to]. cbn zeta.
    split; [apply ok_sum; exact H1|]. exact H2.
  Qed.

  (** The operators. *)
  Lemma clone_prod_shape kd s fs : exists s' fs', clone (EProd kd s fs) = EProd PPlain s' fs'.
  Proof. rewrite clone_prod. cbn zeta. eauto. Qed.
  Lemma clone_sum_shape ci ss : exists ci' ss', clone (ESum ci ss) = ESum ci' ss'.
  Proof. rewrite clone_sum. cbn zeta. eauto. Qed.

  Lemma two (P : E -> Prop) x y : P x -> P y -> Forall P [x; y]. Proof. auto. Qed.

  Lemma mk_pair kd l r : ok l -> ok r -> ok (mk_prod k a kd (k1 k) FRec [l; r]) /\ value (mk_prod k a kd (k1 k) FRec [l; r]) = value l * value r.
  Proof.
    intros Hl Hr. destruct (mk_prod_ok kd (k1 k) FRec [l; r]) as [H1 H2]; auto. split; auto. rewrite H2, emb_1. cbn. ncr.
  Qed.

  Lemma nctimes_ok l r : ok l -> ok r -> ok (nctimes k a l r) /\ value (nctimes k a l r) = value l * value r.
  Proof.
    intros Hl Hr. unfold nctimes. destruct (is_prod k a l) eqn:Pl.
    - cbn [negb andb]. destruct l as [| |kd s fs| |]; try discriminate.
      destruct (clone_ok _ Hl) as [H1 H2]. destruct (clone_prod_shape kd s fs) as (s' & fs' & Hc). rewrite Hc in *. cbn [as_nc].
      destruct (product_append_ok (k1 k) r FRec PNonComm s' fs') as [H3 H4]; auto. split; auto. rewrite H4. change (value (EProd PNonComm s' fs')) with (value (EProd PPlain s' fs')). rewrite H2, emb_1. ncr.
    - cbn [negb andb]. destruct (is_prod k a r) eqn:Pr; cbn [negb].
      + destruct r as [| |kd s fs| |]; try discriminate.
        destruct (clone_ok _ Hr) as [H1 H2]. destruct (clone_prod_shape kd s fs) as (s' & fs' & Hc). rewrite Hc in *. cbn [as_nc].
        destruct (product_prepend_ok (k1 k) l FRec PNonComm s' fs') as [H3 H4]; auto. split; auto. rewrite H4. change (value (EProd PNonComm s' fs')) with (value (EProd PPlain s' fs')). rewrite H2, emb_1. ncr.
      + now apply mk_pair.
  Qed.
  Lemma times_ok l r : ok l -> ok r -> ok (times k a l r) /\ value (times k a l r) = value l * value r.
  Proof.
    intros Hl Hr.
    assert (H : ok (if negb (is_prod k a l) && negb (is_prod k a r) then mk_prod k a PPlain (k1 k) FRec [l; r]
        else if is_prod k a l then product_append k a (k1 k) r FRec (clone l) else product_prepend k a (k1 k) l FRec (clone r)) /\
      value (if negb (is_prod k a l) && negb (is_prod k a r) then mk_prod k a PPlain (k1 k) FRec [l; r]
        else if is_prod k a l then product_append k a (k1 k) r FRec (clone l) else product_prepend k a (k1 k) l FRec (clone r)) = value l * value r).
    { destruct (is_prod k a l) eqn:Pl.
      - cbn [negb andb]. destruct l as [| |kd s fs| |]; try discriminate.
        destruct (clone_ok _ Hl) as [H1 H2]. destruct (clone_prod_shape kd s fs) as (s' & fs' & Hc). rewrite Hc in *.
        destruct (product_append_ok (k1 k) r FRec PPlain s' fs') as [H3 H4]; auto. split; auto. rewrite H4, H2, emb_1. ncr.
      - cbn [negb andb]. destruct (is_prod k a r) eqn:Pr; cbn [negb].
        + destruct r as [| |kd s fs| |]; try discriminate.
          destruct (clone_ok _ Hr) as [H1 H2]. destruct (clone_prod_shape kd s fs) as (s' & fs' & Hc). rewrite Hc in *.
          destruct (product_prepend_ok (k1 k) l FRec PPlain s' fs') as [H3 H4]; auto. split; auto. rewrite H4, H2, emb_1. ncr.
        + now apply mk_pair. }
    unfold times. destruct l; try exact H. destruct r; try exact H. split; [exact Logic.I|]. cbn. apply emb_mul.
  Qed.

  Lemma mk_sum_pair l r : ok l -> ok r -> ok (mk_sum k a [l; r]) /\ value (mk_sum k a [l; r]) = value l + value r.
  Proof. intros Hl Hr. destruct (mk_sum_ok [l; r]) as [H1 H2]; auto. split; auto. rewrite H2. cbn. ncr. Qed.
  Lemma plus_ok l r : ok l -> ok r -> ok (plus k a l r) /\ value (plus k a l r) = value l + value r.
  Proof.
    intros Hl Hr. unfold plus. destruct (is_sum k a l) eqn:Pl.
    - cbn [negb andb]. destruct l as [| | |ci ss|]; try discriminate.
      destruct (clone_ok _ Hl) as [H1 H2]. destruct (clone_sum_shape ci ss) as (s' & fs' & Hc). rewrite Hc in *.
      destruct (sum_append_to_ok r s' fs') as [H3 H4]; auto. split; auto. now rewrite H4, H2.
    - cbn [negb andb]. destruct (is_sum k a r) eqn:Pr; cbn [negb].
      + destruct r as [| | |ci ss|]; try discriminate.
        destruct (clone_ok _ Hr) as [H1 H2]. destruct (clone_sum_shape ci ss) as (s' & fs' & Hc). rewrite Hc in *.
        destruct (sum_prepend_to_ok l s' fs') as [H3 H4]; auto. split; auto. now rewrite H4, H2.
      + now apply mk_sum_pair.
  Qed.
  Lemma negated_prod r : ok r -> ok (mk_prod k a PPlain (kopp k (k1 k)) FRec [r]) /\ value (mk_prod k a PPlain (kopp k (k1 k)) FRec [r]) = ropp _ (value r).
  Proof. intros Hr. destruct (mk_prod_ok PPlain (kopp k (k1 k)) FRec [r]) as [H1 H2]; auto. split; auto. rewrite H2, emb_opp, emb_1. cbn. ncr. Qed.
  Lemma negated_ok r : ok r -> ok (negated k a r) /\ value (negated k a r) = ropp _ (value r).
  Proof.
    intros Hr. destruct r as [z| | | |]; cbn [negated]; try (now apply negated_prod). split; [exact Logic.I|]. cbn. apply emb_opp.
  Qed.
  Lemma minus_ok l r : ok l -> ok r -> ok (minus k a l r) /\ value (minus k a l r) = value l + ropp _ (value r).
  Proof.
    intros Hl Hr. destruct (negated_ok r Hr) as [H5 H6]. unfold minus. rewrite <- H6. destruct (is_sum k a l) eqn:Pl; cbn [negb].
    - destruct l as [| | |ci ss|]; try discriminate.
      destruct (clone_ok _ Hl) as [H1 H2]. destruct (clone_sum_shape ci ss) as (s' & fs' & Hc). rewrite Hc in *.
      destruct (sum_append_to_ok (negated k a r) s' fs') as [H3 H4]; auto. split; auto. now rewrite H4, H2.
    - now apply mk_sum_pair.
  Qed.

  (** The in-place operators; a null left operand counts as 0 (for += and -=) or 1 (for *=). *)
  Definition oval (d : car (ir i)) (e : option E) : car (ir i) := match e with Some e => value e | None => d end.
  Definition ook (e : option E) : Prop := match e with Some e => ok e | None => True end.
  Lemma plus_assign_ok l r : ook l -> ook r -> ook (plus_assign k a l r) /\ oval 0 (plus_assign k a l r) = oval 0 l + oval 0 r.
  Proof.
    intros Hl Hr. destruct r as [r|], l as [l|]; cbn [plus_assign oval ook] in *.
    - destruct l as [z|y|kd s fs|ci ss|]; try (now apply mk_sum_pair).
      + destruct r as [w| | | |]; try (now apply mk_sum_pair). split; [exact Logic.I|]. cbn. apply emb_add.
      + now apply sum_append_to_ok.
    - destruct (clone_ok r Hr) as [H1 H2]. split; auto. rewrite H2. now rewrite radd_0.
    - split; auto. now rewrite radd_0_r.
    - split; auto. now rewrite radd_0_r.
  Qed.
  Lemma minus_assign_ok l r : ook l -> ook r -> ook (minus_assign k a l r) /\ oval 0 (minus_assign k a l r) = oval 0 l + ropp _ (oval 0 r).
  Proof.
    intros Hl Hr. destruct r as [r|], l as [l|]; cbn [minus_assign oval ook] in *.
    - assert (Hpair : ok (mk_sum k a [l; mk_prod k a PPlain (kopp k (k1 k)) FRec [r]]) /\
        value (mk_sum k a [l; mk_prod k a PPlain (kopp k (k1 k)) FRec [r]]) = value l + ropp _ (value r)).
      { destruct (negated_prod r Hr) as [H1 H2]. rewrite <- H2. now apply mk_sum_pair. }
      destruct l as [z|y|kd s fs|ci ss|]; try exact Hpair.
      + destruct r as [w| | | |]; try exact Hpair. split; [exact Logic.I|]. cbn. now rewrite emb_add, emb_opp.
      + destruct (negated_ok r Hr) as [H1 H2]. rewrite <- H2. now apply sum_append_to_ok.
    - destruct (clone_ok r Hr) as [H1 H2]. destruct (times_ok (EConst (kopp k (k1 k))) (clone r)) as [H3 H4]; auto. split; auto.
      etransitivity; [exact H4|]. rewrite H2. cbn. rewrite emb_opp, emb_1. ncr.
    - split; auto. ncr.
    - split; auto. ncr.
  Qed.
  Lemma times_assign_ok l r : ook l -> ook r -> ook (times_assign k a l r) /\ oval 1 (times_assign k a l r) = oval 1 l * oval 1 r.
  Proof.
    intros Hl Hr. destruct r as [r|], l as [l|]; cbn [times_assign oval ook] in *.
    - destruct l as [z|y|kd s fs|ci ss|]; try (now apply mk_pair).
      + destruct r as [w| | | |]; try (now apply mk_pair). split; [exact Logic.I|]. cbn. apply emb_mul.
      + assert (H : ok (product_append k a (k1 k) r FRec (EProd kd s fs)) /\ value (product_append k a (k1 k) r FRec (EProd kd s fs)) = value (EProd kd s fs) * value r).
        { destruct (product_append_ok (k1 k) r FRec kd s fs) as [H1 H2]; auto. split; auto. rewrite H2, emb_1. ncr. }
        destruct r as [w| | | |]; try exact H. split; [exact Hl|]. exact (pv_scale w (s, fs)).
    - destruct (clone_ok r Hr) as [H1 H2]. split; auto. rewrite H2. ncr.
    - split; auto. ncr.
    - split; auto. ncr.
  Qed.
End P.
