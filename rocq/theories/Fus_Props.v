(** Fusion of two products (C67). *)
From Coq Require Import List Bool ZArith QArith Qcanon Lia Arith.
From Verif Require Import Wick_Spec Wick_Ring Expr_Model Expr_Spec Expr_Proofs1 Expr_Proofs2 Expr_Proofs6 Expr_Props Fus_Model.
Import ListNotations.

(** * Scalars *)
Definition of_Z (z : Z) : Qc := Q2Qc (inject_Z z).
(** [h] goes into [q] a whole number of times *)
Definition divides (h q : Qc) : Prop := exists z, q = (of_Z z * h)%Qc.

Ltac canon := apply Qc_is_canon; unfold of_Z, Qcdiv, Qcplus, Qcmult, Qcopp, Qcinv; cbn [this Q2Qc]; rewrite ?Qred_correct.
Lemma of_Z_add x y : of_Z (x + y) = (of_Z x + of_Z y)%Qc.
Proof. canon. rewrite inject_Z_plus. reflexivity. Qed.
Lemma of_Z_mul x y : of_Z (x * y) = (of_Z x * of_Z y)%Qc.
Proof. canon. rewrite inject_Z_mult. reflexivity. Qed.
Lemma of_Z_opp x : of_Z (- x) = (- of_Z x)%Qc.
Proof. canon. rewrite inject_Z_opp. reflexivity. Qed.
Lemma of_Z_inj x y : of_Z x = of_Z y -> x = y.
Proof.
  intros H. apply (f_equal this) in H. unfold of_Z in H. cbn [this Q2Qc] in H.
  assert (H' : inject_Z x == inject_Z y) by (rewrite <- (Qred_correct (inject_Z x)), <- (Qred_correct (inject_Z y)), H; reflexivity).
  unfold Qeq in H'. cbn in H'. lia.
Qed.
Lemma as_fraction (q : Qc) : q = (of_Z (Qnum (this q)) / of_Z (Zpos (Qden (this q))))%Qc.
Proof.
  canon. destruct q as [[n d] H]. cbn [this Qnum Qden]. rewrite Qmake_Qdiv. reflexivity.
Qed.
Lemma of_Z_nonzero x : x <> 0%Z -> of_Z x <> 0%Qc.
Proof. intros H E. apply H. apply of_Z_inj. rewrite E. reflexivity. Qed.
Lemma of_Z_pos x : (0 < x)%Z -> (0 < of_Z x)%Qc.
Proof.
  intros H. unfold Qclt, of_Z. cbn [this Q2Qc]. rewrite !Qred_correct. unfold Qlt. cbn. lia.
Qed.

Section Gcd.
  Variables l r : Qc.
  Let n1 := Qnum (this l).
  Let d1 := Zpos (Qden (this l)).
  Let n2 := Qnum (this r).
  Let d2 := Zpos (Qden (this r)).
  Let g := Z.gcd (n1 * d2) (n2 * d1).
  Lemma d_nonzero : of_Z d1 <> 0%Qc /\ of_Z d2 <> 0%Qc.
  Proof. unfold d1, d2. split; apply of_Z_nonzero; discriminate. Qed.
  Lemma gcd_is : gcd_rational l r = (of_Z g / of_Z (d1 * d2))%Qc.
  Proof.
    unfold gcd_rational. canon. fold n1 n2 d1 d2. fold g. rewrite Qmake_Qdiv. reflexivity.
  Qed.
  Lemma l_is : l = (of_Z (n1 * d2) / of_Z (d1 * d2))%Qc.
  Proof. destruct d_nonzero. rewrite (as_fraction l) at 1. fold n1 d1. rewrite !of_Z_mul. field. auto. Qed.
  Lemma r_is : r = (of_Z (n2 * d1) / of_Z (d1 * d2))%Qc.
  Proof. destruct d_nonzero. rewrite (as_fraction r) at 1. fold n2 d2. rewrite !of_Z_mul. field. auto. Qed.
  Lemma dd_nonzero : of_Z (d1 * d2) <> 0%Qc.
  Proof. apply of_Z_nonzero. unfold d1, d2. lia. Qed.
  Lemma gcd_zero : gcd_rational l r = 0%Qc <-> l = 0%Qc /\ r = 0%Qc.
  Proof.
    pose proof dd_nonzero as Hd. split.
    - intros H. rewrite gcd_is in H.
      assert (Hg : g = 0%Z).
      { apply of_Z_inj. change (of_Z 0) with 0%Qc. rewrite <- (Qcmult_div_r (of_Z g) (of_Z (d1 * d2))) by exact Hd. rewrite H. ring. }
      unfold g in Hg. apply Z.gcd_eq_0 in Hg. destruct Hg as [H1 H2].
      rewrite l_is, r_is, H1, H2. change (of_Z 0) with 0%Qc. split; field; exact Hd.
    - intros [-> ->]. apply Qc_is_canon. reflexivity.
  Qed.
  Lemma gcd_parts : gcd_rational l r <> 0%Qc -> exists x y, (l / gcd_rational l r)%Qc = of_Z x /\ (r / gcd_rational l r)%Qc = of_Z y /\ Z.gcd x y = 1%Z.
  Proof.
    intros Hnz. pose proof dd_nonzero as Hd.
    assert (Hg : g <> 0%Z). { intros Hg. apply Hnz. rewrite gcd_is, Hg. change (of_Z 0) with 0%Qc. field. exact Hd. }
    destruct (Z.gcd_divide_l (n1 * d2) (n2 * d1)) as [x Hx]. destruct (Z.gcd_divide_r (n1 * d2) (n2 * d1)) as [y Hy].
    fold g in Hx, Hy. exists x, y. pose proof (of_Z_nonzero g Hg) as Hgn. rewrite gcd_is. split; [|split].
    - rewrite l_is at 1. rewrite Hx, (of_Z_mul x g). field. auto.
    - rewrite r_is at 1. rewrite Hy, (of_Z_mul y g). field. auto.
    - pose proof (Z.gcd_nonneg (n1 * d2) (n2 * d1)) as Hpos. fold g in Hpos.
      assert (Hm : Z.gcd (x * g) (y * g) = g) by (rewrite <- Hx, <- Hy; reflexivity).
      rewrite Z.gcd_mul_mono_r_nonneg in Hm by exact Hpos.
      apply (Z.mul_reg_r _ _ g Hg). lia.
  Qed.
  Lemma gcd_pos : gcd_rational l r <> 0%Qc -> (0 < gcd_rational l r)%Qc.
  Proof.
    intros Hnz. destruct (Qclt_le_dec 0 (gcd_rational l r)) as [H|H]; [exact H|]. exfalso. apply Hnz. apply Qcle_antisym; [exact H|].
    unfold gcd_rational, Qcle. cbn [this Q2Qc]. rewrite !Qred_correct. unfold Qle. cbn [Qnum Qden].
    pose proof (Z.gcd_nonneg (Qnum (this l) * Zpos (Qden (this r))) (Qnum (this r) * Zpos (Qden (this l)))). lia.
  Qed.
  Lemma gcd_bezout : exists u v, gcd_rational l r = (of_Z u * l + of_Z v * r)%Qc.
  Proof.
    destruct (Z.gcd_bezout (n1 * d2) (n2 * d1) g eq_refl) as (u & v & H). exists u, v.
    pose proof dd_nonzero as Hd. rewrite gcd_is. rewrite l_is at 1. rewrite r_is at 1. rewrite <- H, of_Z_add, (of_Z_mul u), (of_Z_mul v).
    field. exact Hd.
  Qed.
End Gcd.

(** gcd_rational returns the greatest common divisor of two rational numbers *)
Theorem C67_gcd : forall l r, divides (gcd_rational l r) l /\ divides (gcd_rational l r) r /\
  (forall h, divides h l -> divides h r -> divides h (gcd_rational l r)) /\ (0 <= gcd_rational l r)%Qc.
Proof.
  intros l r. destruct (Qc_eq_dec (gcd_rational l r) 0) as [Hz|Hnz].
  - pose proof Hz as Hlr. apply gcd_zero in Hlr. destruct Hlr as [Hl Hr]. rewrite Hz, Hl, Hr.
    assert (Hd : forall h, divides h 0%Qc) by (intros h; exists 0%Z; change (of_Z 0) with 0%Qc; ring).
    repeat split; auto. apply Qcle_refl.
  - destruct (gcd_parts l r Hnz) as (x & y & Hx & Hy & Hc). split; [|split; [|split]].
    + exists x. rewrite <- Hx. field. exact Hnz.
    + exists y. rewrite <- Hy. field. exact Hnz.
    + intros h [p Hp] [q Hq]. destruct (gcd_bezout l r) as (u & v & ->). exists (u * p + v * q)%Z.
      rewrite of_Z_add, !of_Z_mul. rewrite Hp at 1. rewrite Hq at 1. ring.
    + apply Qclt_le_weak. apply gcd_pos. exact Hnz.
Qed.

(** fuse_scalar splits two scalars into a common factor and two integers without a common factor. The
    common factor is negative if both are. Two zeros cannot be split. *)
Theorem C67_scalars : forall l r,
  (fuse_scalar l r = None <-> l = 0%Qc /\ r = 0%Qc) /\
  (forall g x y, fuse_scalar l r = Some (g, x, y) ->
     l = (g * x)%Qc /\ r = (g * y)%Qc /\
     (exists p q, x = of_Z p /\ y = of_Z q /\ Z.gcd p q = 1%Z) /\
     ((g < 0)%Qc <-> (l < 0)%Qc /\ (r < 0)%Qc)).
Proof.
  intros l r. unfold fuse_scalar. destruct (Qc_eq_bool (gcd_rational l r) 0) eqn:E.
  - apply Qc_eq_bool_correct in E. split; [|discriminate]. rewrite <- gcd_zero. tauto.
  - assert (Hnz : gcd_rational l r <> 0%Qc).
    { intros H. unfold Qc_eq_bool in E. destruct (Qc_eq_dec (gcd_rational l r) 0); congruence. }
    destruct (gcd_parts l r Hnz) as (x0 & y0 & Hx & Hy & Hc). pose proof (gcd_pos l r Hnz) as Hpos.
    split.
    + split; [destruct (_ && _); discriminate|]. intros H. apply gcd_zero in H. contradiction.
    + intros g x y H. unfold negative in H. destruct (Qclt_le_dec l 0) as [Hl|Hl], (Qclt_le_dec r 0) as [Hr|Hr]; cbn in H;
        injection H as <- <- <-.
      * split; [field; exact Hnz|]. split; [field; exact Hnz|]. split.
        { exists (- x0)%Z, (- y0)%Z. rewrite !of_Z_opp, <- Hx, <- Hy, Z.gcd_opp_l, Z.gcd_opp_r. split; [ring|split; [ring|exact Hc]]. }
        split; [auto|]. intros _. rewrite Qcmult_comm. apply Qclt_minus_iff. 
        replace (0 + - (- (1) * gcd_rational l r))%Qc with (gcd_rational l r) by ring. exact Hpos.
      * split; [field; exact Hnz|]. split; [field; exact Hnz|]. split; [exists x0, y0; auto|]. split; [|intros [_ H]; exfalso; exact (Qcle_not_lt _ _ Hr H)].
        intros H. exfalso. exact (Qclt_not_le _ _ H (Qclt_le_weak _ _ Hpos)).
      * split; [field; exact Hnz|]. split; [field; exact Hnz|]. split; [exists x0, y0; auto|]. split; [|intros [H _]; exfalso; exact (Qcle_not_lt _ _ Hl H)].
        intros H. exfalso. exact (Qclt_not_le _ _ H (Qclt_le_weak _ _ Hpos)).
      * split; [field; exact Hnz|]. split; [field; exact Hnz|]. split; [exists x0, y0; auto|]. split; [|intros [H _]; exfalso; exact (Qcle_not_lt _ _ Hl H)].
        intros H. exfalso. exact (Qclt_not_le _ _ H (Qclt_le_weak _ _ Hpos)).
Qed.

(** * Products *)
Section Products.
  Variable k : kops.
  Variable a : aops k.
  Variable i : interpretation k a.
  Variable real : K k -> option Qc.
  Variable of_rat : Qc -> K k.
  Notation E := (expr (K k) (A a)).
  Notation value := (value i).
  Notation gives := (gives k a i).
  Local Open Scope op_scope.
  (** leaves that compare equal have the same value; scalars of the form [of_rat q] are multiplied like
      rational numbers and [real] recognises them *)
  Hypothesis aeqb_val : forall x y, aeqb a x y = true -> val i x = val i y.
  Hypothesis real_of : forall z q, real z = Some q -> z = of_rat q.
  Hypothesis of_rat_mul : forall p q, of_rat (p * q)%Qc = kmul k (of_rat p) (of_rat q).

  Definition heads_differ (l m : list E) : Prop :=
    match l, m with x :: _, y :: _ => eqb k a x y = false | _, _ => True end.
  Lemma common_spec l : forall m, exists l' q m', l = common k a l m ++ l' /\ m = q ++ m' /\ length q = length (common k a l m) /\
    eqb_list k a (common k a l m) q = true /\ heads_differ l' m'.
  Proof.
    induction l as [|x l IH]; intros m; [exists [], [], m; cbn; auto 6|].
    destruct m as [|y m]; [exists (x :: l), [], []; cbn; auto 6|]. cbn [common]. destruct (eqb k a x y) eqn:E0.
    - destruct (IH m) as (l' & q & m' & H1 & H2 & H3 & H4 & H5). exists l', (y :: q), m'. cbn [app length eqb_list].
      rewrite E0, H4. rewrite <- H1, <- H2, H3. auto.
    - exists (x :: l), [], (y :: m). cbn. auto 6.
  Qed.
  Lemma product_of_ok l : Forall ok l -> okp k a (product_of k a l) /\ pv k a i (product_of k a l) = rprod (map value l).
  Proof.
    intros H. destruct (append_all_prod k a i FRec l (k1 k, []) H) as [H1 H2]; [constructor|]. split; [exact H1|].
    unfold product_of. rewrite H2. unfold pv. cbn. rewrite emb_1, !rmul_1_l. reflexivity.
  Qed.
  Lemma lift_ok p : okp k a p -> gives (lift_tensor k a p) (pv k a i p).
  Proof.
    intros H. assert (Hm : gives (mk_prod k a PPlain (fst p) FNo (snd p)) (pv k a i p)) by (apply mk_prod_ok; exact H).
    unfold lift_tensor. destruct p as [s [|x [|y l]]]; cbn [fst snd] in *; auto.
    destruct (keqb k s (k1 k)) eqn:E0; [|exact Hm]. apply (keqb_iff _ _ i) in E0. subst s. inversion H; subst. split; [assumption|].
    unfold pv. cbn. rewrite emb_1, rmul_1_l, rmul_1_r. reflexivity.
  Qed.
  Lemma scaled_ok q l : Forall ok l -> gives (lift_tensor k a (scale k a (of_rat q) (product_of k a l))) (emb i (of_rat q) * rprod (map value l)).
  Proof.
    intros H. destruct (product_of_ok l H) as [H1 H2]. destruct (lift_ok (scale k a (of_rat q) (product_of k a l))) as [H3 H4].
    - apply okp_scale. exact H1.
    - split; [exact H3|]. rewrite H4, pv_scale, H2. symmetry. apply central_emb.
  Qed.
  Lemma rprod_values l m : rprod (map value (l ++ m)) = rprod (map value l) * rprod (map value m).
  Proof. rewrite map_app. apply rprod_app. Qed.

  (** What a fusion from the left is: [p] are the common factors, [l'] and [m'] the factors that remain, and the
      result is f (u + v) with these values. *)
  Definition fused_left (lhs rhs : prod k a) (e : E) : Prop :=
    exists p l' q m' x y g s t f u v,
      snd lhs = p ++ l' /\ snd rhs = q ++ m' /\ p <> [] /\ eqb_list k a p q = true /\ heads_differ l' m' /\
      real (fst lhs) = Some x /\ real (fst rhs) = Some y /\ fuse_scalar x y = Some (g, s, t) /\
      gives f (emb i (of_rat g) * rprod (map value p)) /\
      gives u (emb i (of_rat s) * rprod (map value l')) /\ gives v (emb i (of_rat t) * rprod (map value m')) /\
      e = mk_prod k a PPlain (k1 k) FRec [f; mk_sum k a [u; v]].
  Definition fused_right (lhs rhs : prod k a) (e : E) : Prop :=
    exists p l' q m' x y g s t f u v,
      snd lhs = l' ++ p /\ snd rhs = m' ++ q /\ p <> [] /\ eqb_list k a p q = true /\ heads_differ (rev l') (rev m') /\
      real (fst lhs) = Some x /\ real (fst rhs) = Some y /\ fuse_scalar x y = Some (g, s, t) /\
      gives f (emb i (of_rat g) * rprod (map value p)) /\
      gives u (emb i (of_rat s) * rprod (map value l')) /\ gives v (emb i (of_rat t) * rprod (map value m')) /\
      e = mk_prod k a PPlain (k1 k) FRec [mk_sum k a [u; v]; f].

  Lemma skipn_app_exact {X} (p l : list X) : skipn (length p) (p ++ l) = l.
  Proof. rewrite skipn_app, Nat.sub_diag, skipn_all. reflexivity. Qed.
  Lemma eqb_list_app p q p' q' : eqb_list k a p q = true -> eqb_list k a p' q' = true -> eqb_list k a (p ++ p') (q ++ q') = true.
  Proof.
    revert q. induction p as [|x p IH]; intros [|y q] H H'; try discriminate; cbn [app eqb_list] in *; auto.
    apply andb_prop in H as [H1 H2]. rewrite H1. cbn. apply IH; auto.
  Qed.
  Lemma eqb_list_rev p : forall q, eqb_list k a p q = true -> eqb_list k a (rev p) (rev q) = true.
  Proof.
    induction p as [|x p IH]; intros [|y q] H; try discriminate; auto. cbn [eqb_list] in H. apply andb_prop in H as [H1 H2].
    cbn [rev]. apply eqb_list_app; auto. cbn. rewrite H1. reflexivity.
  Qed.

  Lemma left_shape lhs rhs e : Forall ok (snd lhs) -> Forall ok (snd rhs) ->
    fuse_left k a real of_rat lhs rhs = Fused e -> fused_left lhs rhs e.
  Proof.
    intros Hl Hr. unfold fuse_left. destruct (common_spec (snd lhs) (snd rhs)) as (l' & q & m' & E1 & E2 & E3 & E4 & E5).
    destruct (common k a (snd lhs) (snd rhs)) as [|c0 cs] eqn:Ec; [discriminate|]. remember (c0 :: cs) as p eqn:Ep. clear Ec.
    assert (Sl : skipn (length p) (snd lhs) = l') by (rewrite E1; apply skipn_app_exact).
    assert (Sr : skipn (length p) (snd rhs) = m') by (rewrite E2, <- E3; apply skipn_app_exact).
    rewrite Sl, Sr. destruct (real (fst lhs)) as [x|] eqn:Rl; [|discriminate]. destruct (real (fst rhs)) as [y|] eqn:Rr; [|discriminate].
    destruct (fuse_scalar x y) as [[[g s] t]|] eqn:Ef; [|discriminate]. intros H. injection H as <-.
    rewrite E1 in Hl. rewrite E2 in Hr. apply Forall_app in Hl as [Hp Hl']. apply Forall_app in Hr as [Hq Hm'].
    exists p, l', q, m', x, y, g, s, t. eexists. eexists. eexists. do 2 (split; [assumption|]). split; [subst p; discriminate|].
    do 5 (split; [assumption|]). split; [apply scaled_ok; exact Hp|]. split; [apply scaled_ok; exact Hl'|]. split; [apply scaled_ok; exact Hm'|].
    reflexivity.
  Qed.
  Lemma right_shape lhs rhs e : Forall ok (snd lhs) -> Forall ok (snd rhs) ->
    fuse_right k a real of_rat lhs rhs = Fused e -> fused_right lhs rhs e.
  Proof.
    intros Hl Hr. unfold fuse_right. destruct (common_spec (rev (snd lhs)) (rev (snd rhs))) as (l' & q & m' & E1 & E2 & E3 & E4 & E5).
    destruct (common k a (rev (snd lhs)) (rev (snd rhs))) as [|c0 cs] eqn:Ec; [discriminate|]. remember (c0 :: cs) as p eqn:Ep. clear Ec.
    assert (Sl : skipn (length p) (rev (snd lhs)) = l') by (rewrite E1; apply skipn_app_exact).
    assert (Sr : skipn (length p) (rev (snd rhs)) = m') by (rewrite E2, <- E3; apply skipn_app_exact).
    rewrite Sl, Sr. destruct (real (fst lhs)) as [x|] eqn:Rl; [|discriminate]. destruct (real (fst rhs)) as [y|] eqn:Rr; [|discriminate].
    destruct (fuse_scalar x y) as [[[g s] t]|] eqn:Ef; [|discriminate]. intros H. injection H as <-.
    assert (F1 : snd lhs = rev l' ++ rev p) by (rewrite <- rev_app_distr, <- E1, rev_involutive; reflexivity).
    assert (F2 : snd rhs = rev m' ++ rev q) by (rewrite <- rev_app_distr, <- E2, rev_involutive; reflexivity).
    rewrite F1 in Hl. rewrite F2 in Hr. apply Forall_app in Hl as [Hl' Hp]. apply Forall_app in Hr as [Hm' Hq].
    exists (rev p), (rev l'), (rev q), (rev m'), x, y, g, s, t. eexists. eexists. eexists. do 2 (split; [assumption|]).
    split; [subst p; cbn; destruct (rev cs); discriminate|]. split; [apply eqb_list_rev; exact E4|]. split; [rewrite !rev_involutive; exact E5|].
    do 3 (split; [assumption|]). split; [apply scaled_ok; exact Hp|]. split; [apply scaled_ok; exact Hl'|]. split; [apply scaled_ok; exact Hm'|].
    reflexivity.
  Qed.
  Lemma rsum_2 (x y : car (ir i)) : rsum [x; y] = x + y.
  Proof. cbn. rewrite (radd_comm _ y), radd_0. reflexivity. Qed.
  Lemma rprod_2 (x y : car (ir i)) : rprod [x; y] = x * y.
  Proof. cbn. rewrite rmul_1_r. reflexivity. Qed.
  Lemma scalar_split x y g s t : fuse_scalar x y = Some (g, s, t) ->
    emb i (of_rat x) = emb i (of_rat g) * emb i (of_rat s) /\ emb i (of_rat y) = emb i (of_rat g) * emb i (of_rat t).
  Proof.
    intros H. destruct (proj2 (C67_scalars x y) g s t H) as (H1 & H2 & _).
    rewrite H1 at 1. rewrite H2 at 1. rewrite !of_rat_mul, !emb_mul. auto.
  Qed.
  Lemma move_left (g s : K k) (x p : car (ir i)) : (emb i g * p) * (emb i s * x) = (emb i g * emb i s) * (p * x).
  Proof.
    rewrite <- !rmul_assoc. f_equal. rewrite !rmul_assoc. f_equal. symmetry. apply central_emb.
  Qed.
  Lemma move_right (g s : K k) (x p : car (ir i)) : (emb i s * x) * (emb i g * p) = (emb i g * emb i s) * (x * p).
  Proof. rewrite move_left. f_equal. apply central_emb. Qed.

  (** The result of a fusion has the value of the sum of the two products. *)
  Theorem C67_fuse_left kd s l kd' t m e : ok (k:=k) (a:=a) (EProd kd s l) -> ok (k:=k) (a:=a) (EProd kd' t m) ->
    fuse_left k a real of_rat (s, l) (t, m) = Fused e ->
    gives e (value (EProd kd s l) + value (EProd kd' t m)) /\ fused_left (s, l) (t, m) e.
  Proof.
    intros Hl Hr H. apply ok_prod in Hl. apply ok_prod in Hr. pose proof (left_shape (s, l) (t, m) e Hl Hr H) as Hs. split; [|exact Hs].
    destruct Hs as (p & l' & q & m' & x & y & g & c & d & f & u & v & E1 & E2 & _ & Ee & _ & Rx & Ry & Ef & [Of Vf] & [Ou Vu] & [Ov Vv] & ->).
    cbn [fst snd] in *. apply real_of in Rx. apply real_of in Ry. subst s t. destruct (scalar_split _ _ _ _ _ Ef) as [Sx Sy].
    destruct (mk_sum_ok k a i [u; v]) as [O1 V1]; [auto|].
    destruct (mk_prod_ok k a i PPlain (k1 k) FRec [f; mk_sum k a [u; v]]) as [O2 V2]; [auto|]. split; [exact O2|].
    rewrite V2. cbn [map]. rewrite V1. cbn [map]. rewrite rprod_2, rsum_2, emb_1, rmul_1_l, Vf, Vu, Vv.
    cbn [Expr_Spec.value]. rewrite E1, E2, !rprod_values, Sx, Sy.
    rewrite <- (eqb_list_value k a i aeqb_val p q Ee). rewrite rdistr_r, !move_left. reflexivity.
  Qed.
  Theorem C67_fuse_right kd s l kd' t m e : ok (k:=k) (a:=a) (EProd kd s l) -> ok (k:=k) (a:=a) (EProd kd' t m) ->
    fuse_right k a real of_rat (s, l) (t, m) = Fused e ->
    gives e (value (EProd kd s l) + value (EProd kd' t m)) /\ fused_right (s, l) (t, m) e.
  Proof.
    intros Hl Hr H. apply ok_prod in Hl. apply ok_prod in Hr. pose proof (right_shape (s, l) (t, m) e Hl Hr H) as Hs. split; [|exact Hs].
    destruct Hs as (p & l' & q & m' & x & y & g & c & d & f & u & v & E1 & E2 & _ & Ee & _ & Rx & Ry & Ef & [Of Vf] & [Ou Vu] & [Ov Vv] & ->).
    cbn [fst snd] in *. apply real_of in Rx. apply real_of in Ry. subst s t. destruct (scalar_split _ _ _ _ _ Ef) as [Sx Sy].
    destruct (mk_sum_ok k a i [u; v]) as [O1 V1]; [auto|].
    destruct (mk_prod_ok k a i PPlain (k1 k) FRec [mk_sum k a [u; v]; f]) as [O2 V2]; [auto|]. split; [exact O2|].
    rewrite V2. cbn [map]. rewrite V1. cbn [map]. rewrite rprod_2, rsum_2, emb_1, rmul_1_l, Vf, Vu, Vv.
    cbn [Expr_Spec.value]. rewrite E1, E2, !rprod_values, Sx, Sy.
    rewrite <- (eqb_list_value k a i aeqb_val p q Ee). rewrite rdistr_l, !move_right. reflexivity.
  Qed.
  (** When there is a result: the first (last) factors are equal, the scalars are real and not both zero. *)
  Definition no_zero (lhs rhs : prod k a) : Prop :=
    exists x y, real (fst lhs) = Some x /\ real (fst rhs) = Some y /\ ~ (x = 0%Qc /\ y = 0%Qc).
  Theorem C67_defined lhs rhs :
    (fuse_left k a real of_rat lhs rhs = NoFusion <-> heads_differ (snd lhs) (snd rhs)) /\
    (fuse_right k a real of_rat lhs rhs = NoFusion <-> heads_differ (rev (snd lhs)) (rev (snd rhs))) /\
    (no_zero lhs rhs -> fuse_left k a real of_rat lhs rhs <> Failed /\ fuse_right k a real of_rat lhs rhs <> Failed).
  Proof.
    assert (Hc : forall l m, common k a l m = [] <-> heads_differ l m).
    { intros [|x l] [|y m]; cbn; try tauto. destruct (eqb k a x y); split; congruence. }
    assert (Hd : forall x y, ~ (x = 0%Qc /\ y = 0%Qc) -> exists g s t, fuse_scalar x y = Some (g, s, t)).
    { intros x y H. destruct (fuse_scalar x y) as [[[g s] t]|] eqn:E0; [eauto|]. apply C67_scalars in E0. contradiction. }
    split; [|split].
    - rewrite <- Hc. unfold fuse_left. destruct (common k a (snd lhs) (snd rhs)); [tauto|].
      destruct (real (fst lhs)), (real (fst rhs)); try (split; discriminate). destruct (fuse_scalar q q0) as [[[? ?] ?]|]; split; discriminate.
    - rewrite <- Hc. unfold fuse_right. destruct (common k a (rev (snd lhs)) (rev (snd rhs))); [tauto|].
      destruct (real (fst lhs)), (real (fst rhs)); try (split; discriminate). destruct (fuse_scalar q q0) as [[[? ?] ?]|]; split; discriminate.
    - intros (x & y & Rx & Ry & Hn). destruct (Hd x y Hn) as (g & s & t & Ef). unfold fuse_left, fuse_right. rewrite Rx, Ry, Ef.
      split; [destruct (common k a (snd lhs) (snd rhs))|destruct (common k a (rev (snd lhs)) (rev (snd rhs)))]; discriminate.
  Qed.
End Products.

Module FusExample.
  (** rational scalars and non-commuting letters with values in 2x2 matrices of rational numbers *)
  Definition kq : kops := mkkops Qc 0%Qc 1%Qc Qcplus Qcmult Qcopp (fun z => z) Qc_eq_bool.
  Definition aq : aops kq := mkaops kq nat (fun _ => false) (fun _ => None) (fun x => x) Nat.eqb (fun _ => false) (fun _ => false) Nat.eqb.
  Notation EX := (expr Qc nat).
  Definition L (n : nat) : EX := EAtom n.
  Definition q (n : Z) (d : positive) : Qc := Q2Qc (Qmake n d).
  Notation real := (fun z : Qc => Some z).
  Notation rat := (fun z : Qc => z).
  (** 1/2 a b c d - 3/4 a b e f = 1/4 a b (2 c d - 3 e f) *)
  Example ex_left : fuse_left kq aq real rat (q 1 2, [L 0; L 1; L 2; L 3]) (q (-3) 4, [L 0; L 1; L 4; L 5]) =
    Fused (k := kq) (a := aq) (EProd PPlain (q 1 4) [L 0; L 1; ESum None [EProd PPlain (q 2 1) [L 2; L 3]; EProd PPlain (q (-3) 1) [L 4; L 5]]]).
  Proof. vm_compute. reflexivity. Qed.
  (** - a c d - 2 b d = - (a c + 2 b) d *)
  Example ex_right : fuse_right kq aq real rat (q (-1) 1, [L 0; L 2; L 3]) (q (-2) 1, [L 1; L 3]) =
    Fused (k := kq) (a := aq) (EProd PPlain (q (-1) 1) [ESum None [EProd PPlain (q 1 1) [L 0; L 2]; EProd PPlain (q 2 1) [L 1]]; L 3]).
  Proof. vm_compute. reflexivity. Qed.
  (** a b and 3 a b: nothing but numbers remains *)
  Example ex_same : fuse_left kq aq real rat (q 1 1, [L 0; L 1]) (q 3 1, [L 0; L 1]) =
    Fused (k := kq) (a := aq) (EProd PPlain (q 1 1) [L 0; L 1; ESum None [EProd PPlain (q 1 1) []; EProd PPlain (q 3 1) []]]).
  Proof. vm_compute. reflexivity. Qed.
  (** the letters as 2x2 matrices *)
  Definition mat := (Qc * Qc * Qc * Qc)%type.
  Local Open Scope Qc_scope.
  Definition madd (x y : mat) : mat := let '(a, b, c, d) := x in let '(a', b', c', d') := y in (a + a', b + b', c + c', d + d').
  Definition mmul (x y : mat) : mat :=
    let '(a, b, c, d) := x in let '(a', b', c', d') := y in (a * a' + b * c', a * b' + b * d', c * a' + d * c', c * b' + d * d').
  Definition mopp (x : mat) : mat := let '(a, b, c, d) := x in (- a, - b, - c, - d).
  Ltac mring := intros; repeat match goal with x : mat |- _ => destruct x as [[[? ?] ?] ?] end; cbn [madd mmul mopp]; repeat (f_equal; try ring).
  Definition R : ring.
  Proof. refine (mkring mat (0, 0, 0, 0) (1, 0, 0, 1) madd mmul mopp _ _ _ _ _ _ _ _ _). all: mring. Defined.
  Definition qemb (z : Qc) : mat := (z, 0, 0, z).
  Definition lval (x : nat) : mat := match x with O => (0, 1, 0, 0) | S O => (0, 0, 1, 0) | S (S O) => (1, 1, 0, 1) | _ => (1, 0, 0, 0) end.
  Lemma Qc_eqb_iff : forall x y, Qc_eq_bool x y = true <-> x = y.
  Proof. intros x y. split; [apply Qc_eq_bool_correct|]. intros ->. unfold Qc_eq_bool. destruct (Qc_eq_dec y y); congruence. Qed.
  Definition int : interpretation kq aq.
  Proof.
    refine (mkinterp kq aq R qemb lval Qc_eqb_iff eq_refl eq_refl _ _ _ _ _ _).
    - intros x y. unfold qemb. cbn. repeat (f_equal; try ring).
    - intros x y. unfold qemb. cbn. repeat (f_equal; try ring).
    - intros x. unfold qemb. cbn. repeat (f_equal; try ring).
    - intros x y. destruct y as [[[? ?] ?] ?]. unfold qemb. cbn. repeat (f_equal; try ring).
    - discriminate.
    - exact (fun _ => Logic.I).
  Defined.
  Example ex_left_value :
    value int (EProd PPlain (q 1 4) [L 0; L 1; ESum None [EProd PPlain (q 2 1) [L 2; L 3]; EProd PPlain (q (-3) 1) [L 4; L 5]]]) =
    radd R (value int (EProd PPlain (q 1 2) [L 0; L 1; L 2; L 3])) (value int (EProd PPlain (q (-3) 4) [L 0; L 1; L 4; L 5])).
  Proof.
    apply (C67_fuse_left kq aq int real rat) with (kd := PPlain) (kd' := PPlain) (e := EProd PPlain _ _).
    - intros x y H. apply Nat.eqb_eq in H. subst. reflexivity.
    - intros z p H. injection H as H. exact H.
    - reflexivity.
    - cbn. tauto.
    - cbn. tauto.
    - exact ex_left.
  Qed.
  Local Close Scope Qc_scope.
  (** two products with the scalar zero: an exception *)
  Theorem C67_zero_refuted : fuse_left kq aq real rat (q 0 1, [L 0; L 1]) (q 0 1, [L 0; L 2]) = Failed.
  Proof. vm_compute. reflexivity. Qed.
End FusExample.

Print Assumptions C67_gcd.
Print Assumptions C67_scalars.
Print Assumptions C67_fuse_left.
Print Assumptions C67_fuse_right.
Print Assumptions C67_defined.
