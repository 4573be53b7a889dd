(** Density fitting and tensor hypercontraction keep the value. *)
From Coq Require Import List Bool Arith Lia Ring Ring_theory Permutation.
From Verif Require Import Wick_Spec Idx_Model Bin_Spec Bin_Sums Expr_Model Expr_Spec Expr_Proofs1 Df_Model Df_Spec Df_Poly Df_Proofs.
Import ListNotations.

Section Fitting.
  Variable k : kops.
  Variable ksub : K k -> K k -> K k.
  Hypothesis RT : ring_theory (k0 k) (k1 k) (kadd k) (kmul k) ksub (kopp k) eq.
  Hypothesis EQ : forall x y, keqb k x y = true <-> x = y.
  Declare Scope kscope.
  Notation "0" := (k0 k) : kscope.
  Notation "1" := (k1 k) : kscope.
  Notation "x + y" := (kadd k x y) : kscope.
  Notation "x * y" := (kmul k x y) : kscope.
  Notation "- x" := (kopp k x) : kscope.
  Local Open Scope kscope.
  Add Ring Kring32 : RT.
  Variable protos : idx -> list idx.
  Variable dom : idx -> list nat.
  Variable tv : nat -> symm -> list (list nat) -> list (list nat) -> list (list nat) -> K k.
  Variable ov : nat -> list (list nat) -> K k.
  Notation a := (leaf_ops k).
  Notation At := (A (leaf_ops k)).
  Notation E := (expr (K k) (A (leaf_ops k))).
  Notation ksum := (ksum (K k) (k0 k) (kadd k)).
  Notation sum_over := (sum_over (K k) (k0 k) (kadd k) dom).
  Notation leaf_value := (leaf_value k protos tv ov).
  Notation indices := (indices protos).
  Notation TV := (term_value k protos dom tv ov).
  Notation poly := (poly k a).
  Notation polys := (polys k a).
  Notation lin := (lin k a).
  Notation leaves := (leaves k At).
  Notation ok := (@Expr_Spec.ok k a).
  Notation pr := (pr k protos tv ov).
  Notation ixs := (ixs k protos).
  Notation eixs := (eixs k protos).
  Notation ceq := (ceq k protos dom tv ov).
  Notation good_step := (good_step k protos dom tv ov).
  Notation meaning := (meaning k protos dom tv ov).

  (** A product that the loop builds. *)
  Lemma product_ceq {S} (step : S -> E -> E * ftag * S) (fresh : S -> idx -> Prop) st kd s fs :
    (forall st f, In f fs -> (forall x, fresh st x -> ~ In x (eixs f)) -> good_step step fresh st f) ->
    (forall x, fresh st x -> ~ In x (eixs (EProd kd s fs))) ->
    let q := built k (build k step st fs (scale k a s (1, []))) in
    ok (fst q) /\ ceq (fresh st) (EProd kd s fs) (fst q) /\ (forall x, fresh (snd q) x -> fresh st x) /\
    (forall x, In x (eixs (fst q)) -> In x (eixs (EProd kd s fs)) \/ (fresh st x /\ ~ fresh (snd q) x)).
  Proof.
    intros Hs Hf. assert (Hfs : forall x, fresh st x -> forall f, In f fs -> ~ In x (eixs f)).
    { intros x Hx f Hin Q. apply (Hf x Hx). apply in_flat_map in Q as (y & Hy & Q). apply in_flat_map. exists y. split; auto. cbn. apply in_flat_map. eauto. }
    destruct (build_ok k ksub RT EQ protos dom tv ov step fresh fs Hs st (scale k a s (1, []))) as (B1 & B2 & B3 & B4); auto.
    { constructor. }
    cbn zeta in *. unfold built. destruct (build k step st fs (scale k a s (1, []))) as [p st'] eqn:Ep. cbn [fst snd] in *. split; [|split; [|split]]; auto.
    - apply ok_prod. exact B1.
    - intros ext u w r H. rewrite !(poly_prod k ksub RT). specialize (B4 ext u w r H). unfold pv at 1 in B4. rewrite B4. unfold pv, scale. cbn [fst snd].
      rewrite (polys_nil k ksub RT). cbn [app]. ring.
    - intros x Hx. destruct (B3 x Hx) as [[]|[Q|Q]]; auto.
  Qed.

  Lemma sum_ceq (Y : idx -> Prop) ci (ss ss' : list E) : Forall ok ss' -> Forall2 (ceq Y) ss ss' -> ok (mk_sum k a ss') /\ ceq Y (ESum ci ss) (mk_sum k a ss').
  Proof.
    intros Hok H. destruct (mk_sum_ok k ksub RT EQ a (fun _ => eq_refl) ss' Hok) as (H1 & H2 & _). split; auto.
    intros ext u w r Hf. rewrite H2, (poly_sum k ksub RT). f_equal. clear H1 H2 Hok. induction H; cbn; auto. f_equal; auto.
  Qed.
  Lemma meaning_poly ext e r : meaning ext e r = poly e (fun t => TV ext t r). Proof. reflexivity. Qed.
  Lemma ceq_meaning (Y : idx -> Prop) e e' ext r : ceq Y e e' -> (forall x, Y x -> ~ In x ext) -> meaning ext e' r = meaning ext e r.
  Proof.
    intros H Hx. rewrite !meaning_poly. specialize (H ext [] [] r). cbn [app] in H.
    rewrite (poly_ext k a e' _ (fun t => TV ext (t ++ []) r)) by (intros; now rewrite app_nil_r).
    rewrite H by (intros x Hy; specialize (Hx x Hy); intuition). apply poly_ext. intros; now rewrite app_nil_r.
  Qed.
  Lemma uses_eixs x (e : E) : uses k protos x e <-> In x (eixs e).
  Proof. unfold uses. symmetry. apply in_flat_map. Qed.

  Lemma times_atoms (x y : At) : ok (times k a (EAtom x) (EAtom y)) /\ (forall F, poly (times k a (EAtom x) (EAtom y)) F = F [x; y]) /\
    incl (leaves (times k a (EAtom x) (EAtom y))) [x; y].
  Proof.
    destruct (times_ok k ksub RT EQ a (fun _ => eq_refl) (EAtom x) (EAtom y)) as (H1 & H2 & H3); try exact I; auto. split; auto. split; auto.
    intros F. rewrite H2. rewrite !(poly_atom k ksub RT). reflexivity.
  Qed.
  Lemma times_atom (e : E) (l : list At) (y : At) : ok e -> (forall F, poly e F = F l) -> incl (leaves e) l ->
    ok (times k a e (EAtom y)) /\ (forall F, poly (times k a e (EAtom y)) F = F (l ++ [y])) /\ incl (leaves (times k a e (EAtom y))) (l ++ [y]).
  Proof.
    intros H1 H2 H3. destruct (times_ok k ksub RT EQ a (fun _ => eq_refl) e (EAtom y)) as (Q1 & Q2 & Q3); try exact I; auto. split; auto. split.
    - intros F. rewrite Q2, H2. apply (poly_atom k ksub RT).
    - intros z Hz. apply Q3 in Hz. cbn in Hz. apply in_app_iff in Hz. apply in_app_iff. destruct Hz; auto.
  Qed.
  Lemma times_sum x (y : At) : is_sum k a (times k a x (EAtom y)) = false.
  Proof.
    unfold times. destruct x as [| |kd s fs| |]; reflexivity.
  Qed.
  Lemma times_const x (y : At) : is_const k a (times k a x (EAtom y)) = false.
  Proof.
    unfold times. destruct x as [| |kd s fs| |]; reflexivity.
  Qed.

  Variable aux : nat -> idx.
  Variable D : list nat.
  Hypothesis inj : forall m n, aux m = aux n -> m = n.
  Hypothesis Hdom : forall n, dom (aux n) = D.
  Hypothesis Hpr : forall n, protos (aux n) = [].
  Definition later (n : nat) (x : idx) : Prop := exists m, n < m /\ x = aux m.

  Lemma slot_aux r n : slot_value protos r (aux n) = [r (aux n)].
  Proof. unfold slot_value. now rewrite Hpr. Qed.
  Lemma slot_set r n v i : ~ In (aux n) (i :: protos i) -> slot_value protos (set r (aux n) v) i = slot_value protos r i.
  Proof. intros H. apply slot_local. intros y Hy. unfold set. destruct (Nat.eqb_spec y (aux n)) as [->|]; auto. tauto. Qed.
  Lemma slot_set_same r n v : slot_value protos (set r (aux n) v) (aux n) = [v].
  Proof. rewrite slot_aux. unfold set. now rewrite Nat.eqb_refl. Qed.
  Lemma set_other r n m v : m <> n -> set r (aux n) v (aux m) = r (aux m).
  Proof. intros H. unfold set. destruct (Nat.eqb_spec (aux m) (aux n)); auto. apply inj in e. congruence. Qed.
  Lemma slot_set_other r n m v : m <> n -> slot_value protos (set r (aux n) v) (aux m) = slot_value protos r (aux m).
  Proof. intros H. rewrite !slot_aux. now rewrite set_other. Qed.

  Lemma two {X} (l : list X) : length l = 2 -> exists p q, l = [p; q].
  Proof. destruct l as [|p [|q [|]]]; cbn; intros H; try discriminate. eauto. Qed.

  Ltac solve_ix := intros ?z ?Hz; rewrite ?Hpr in *; cbn in *; repeat rewrite in_app_iff in *; cbn in *; tauto.

  Variables g b z : nat.
  Section DF.
  Hypothesis fit : fitted k tv g b D.

  Lemma df_tensor_ok s p1 p2 q1 q2 n :
    (~ In (aux n) (indices (Ten g s [p1; p2] [q1; q2] []))) ->
    let e := df_tensor k b s [p1; p2] [q1; q2] [] (aux n) in
    ok e /\ ceq (fun x => x = aux n) (EAtom (Ten g s [p1; p2] [q1; q2] [])) e /\
    (forall x, In x (eixs e) -> In x (indices (Ten g s [p1; p2] [q1; q2] [])) \/ x = aux n) /\
    (forall y, In y (leaves e) -> exists p q, y = Ten b Nonsymm [p] [q] [aux n]).
  Proof.
    intros Hn. cbn zeta.
    set (t1 := Ten b Nonsymm [p1] [q1] [aux n] : At). set (t2 := Ten b Nonsymm [p2] [q2] [aux n] : At).
    set (t3 := Ten b Nonsymm [p2] [q1] [aux n] : At). set (t4 := Ten b Nonsymm [p1] [q2] [aux n] : At).
    set (x0 := Ten g s [p1; p2] [q1; q2] []) in *.
    assert (N : forall i, In i [p1; p2; q1; q2] -> ~ In (aux n) (i :: protos i)).
    { intros i Hi Q. apply Hn. apply in_flat_map. exists i. split; auto. }
    assert (V : forall r x y z v, In x [p1; p2; q1; q2] -> In y [p1; p2; q1; q2] -> leaf_value (Ten z Nonsymm [x] [y] [aux n]) (set r (aux n) v) =
      tv z Nonsymm [slot_value protos r x] [slot_value protos r y] [[v]]).
    { intros r x y z0 v Hx Hy. cbn [Df_Spec.leaf_value map]. rewrite slot_set_same, !slot_set by auto. reflexivity. }
    assert (L : forall r, leaf_value x0 r = total k D (fun v =>
      let f x y := leaf_value (Ten b Nonsymm [x] [y] [aux n]) (set r (aux n) v) in
      match s with Antisymm => f p1 q1 * f p2 q2 + - (f p2 q1 * f p1 q2) | _ => f p1 q1 * f p2 q2 end)).
    { intros r. transitivity (tv g s [slot_value protos r p1; slot_value protos r p2] [slot_value protos r q1; slot_value protos r q2] []); [reflexivity|]. rewrite fit. unfold total. apply ksum_ext. intros v _. cbn zeta.
      rewrite !V by (cbn; tauto). reflexivity. }
    destruct (times_atoms t1 t2) as (A1 & A2 & A3). destruct (times_atoms t3 t4) as (B1 & B2 & B3).
    assert (IX : forall t, t = [t1; t2] \/ t = [t3; t4] -> forall y, In y (ixs t) <-> In y (indices x0) \/ In y [aux n]).
    { intros t Ht y. unfold Df_Proofs.ixs, x0. destruct Ht as [->| ->]; unfold t1, t2, t3, t4, Df_Spec.indices; cbn [slots app flat_map]; rewrite Hpr; rewrite !app_nil_r; cbn; rewrite !in_app_iff; cbn; rewrite !in_app_iff; cbn; rewrite ?in_app_iff; cbn; tauto. }
    assert (LV : forall e : E, incl (leaves e) [t1; t2; t3; t4] -> (forall x, In x (eixs e) -> In x (indices x0) \/ x = aux n) /\
      (forall y, In y (leaves e) -> exists p q, y = Ten b Nonsymm [p] [q] [aux n])).
    { intros e He. split.
      - intros x Hx. apply (ixs_incl k protos _ _ He) in Hx. change [t1; t2; t3; t4] with ([t1; t2] ++ [t3; t4]) in Hx. rewrite ixs_app in Hx. apply in_app_iff in Hx.
        destruct Hx as [Hx|Hx]; apply IX in Hx; auto; destruct Hx as [|[|[]]]; auto.
      - intros y Hy. apply He in Hy. destruct Hy as [<-|[<-|[<-|[<-|[]]]]]; unfold t1, t2, t3, t4; eauto. }
    assert (P : s <> Antisymm -> ok (times k a (EAtom t1) (EAtom t2)) /\ ceq (fun x => x = aux n) (EAtom x0) (times k a (EAtom t1) (EAtom t2)) /\
      (forall x, In x (eixs (times k a (EAtom t1) (EAtom t2))) -> In x (indices x0) \/ x = aux n) /\
      (forall y, In y (leaves (times k a (EAtom t1) (EAtom t2))) -> exists p q, y = Ten b Nonsymm [p] [q] [aux n])).
    { intros Hs. split; auto. split; [|apply LV; intros y Hy; apply A3 in Hy; cbn in *; tauto].
      apply (leaf_ceq k ksub RT protos dom tv ov _ [aux n] x0 _ [(1, [t1; t2])]).
      - repeat constructor; auto.
      - intros y [<-|[]]; auto.
      - intros y [<-|[]]; auto.
      - intros F. rewrite A2. unfold Df_Poly.lin. cbn. ring.
      - intros t [<-|[]]. apply IX; auto.
      - intros r. rewrite L. unfold Df_Poly.lin. cbn [map fst snd Bin_Spec.ksum Bin_Spec.sum_over]. rewrite Hdom.
        transitivity (ksum (map (fun v => pr [t1; t2] (set r (aux n) v)) D)); [|ring]. unfold total. apply ksum_ext. intros v _.
        unfold Df_Proofs.pr. cbn [map kprod]. unfold t1, t2. destruct s; try congruence; cbn zeta; ring. }
    unfold df_tensor. fold t1 t2 t3 t4. destruct s; [apply P; discriminate| |apply P; discriminate].
    destruct (minus_ok k ksub RT EQ a (fun _ => eq_refl) (times k a (EAtom t1) (EAtom t2)) (times k a (EAtom t3) (EAtom t4)) A1 B1) as (M1 & M2 & M3);
      [apply times_sum|apply times_const|].
    split; auto. split; [|apply LV; intros y Hy; apply M3 in Hy; apply in_app_iff in Hy; destruct Hy as [Hy|Hy]; [apply A3 in Hy|apply B3 in Hy]; cbn in *; tauto].
    apply (leaf_ceq k ksub RT protos dom tv ov _ [aux n] x0 _ [(1, [t1; t2]); (- (1), [t3; t4])]).
    - repeat constructor; auto.
    - intros y [<-|[]]; auto.
    - intros y [<-|[]]; auto.
    - intros F. rewrite M2, A2, B2. unfold Df_Poly.lin. cbn. ring.
    - intros t [<-|[<-|[]]]; apply IX; auto.
    - intros r. rewrite L. unfold Df_Poly.lin. cbn [map fst snd Bin_Spec.ksum Bin_Spec.sum_over]. rewrite Hdom.
      transitivity (ksum (map (fun v => pr [t1; t2] (set r (aux n) v)) D) + ksum (map (fun v => pr [t3; t4] (set r (aux n) v) * - (1)) D)).
      + rewrite <- (ksum_add _ _ _ _ _ (SR k ksub RT)). unfold total. apply ksum_ext. intros v _. cbn zeta. unfold Df_Proofs.pr, t1, t2, t3, t4. cbn [map kprod]. ring.
      + rewrite (ksum_mul_r _ _ _ _ _ (SR k ksub RT)). ring.
  Qed.

  Lemma df_process_some t n e : df_process k aux g b t n = Some e ->
    exists s p1 p2 q1 q2, t = Ten g s [p1; p2] [q1; q2] [] /\ e = df_tensor k b s [p1; p2] [q1; q2] [] (aux n).
  Proof.
    destruct t as [l s bra ket ax|]; cbn; try discriminate. destruct (Nat.eqb_spec l g) as [->|]; cbn; try discriminate.
    destruct (Nat.eqb_spec (length bra) 2) as [H1|]; cbn; try discriminate. destruct (Nat.eqb_spec (length ket) 2) as [H2|]; cbn; try discriminate.
    destruct (Nat.eqb_spec (length ax) 0) as [H3|]; cbn; try discriminate. intros H. apply two in H1 as (p1 & p2 & ->). apply two in H2 as (q1 & q2 & ->).
    destruct ax; try discriminate. inversion H. exists s, p1, p2, q1, q2. auto.
  Qed.

  Lemma ceq_sub (Y Z : idx -> Prop) e e' : (forall x, Y x -> Z x) -> ceq Y e e' -> ceq Z e e'.
  Proof. intros H C ext u w r Hf. apply C. intros x Hx. apply Hf. auto. Qed.
  Lemma later_S n x : later (S n) x -> later n x.
  Proof. intros (m & H & ->). exists m. split; auto. lia. Qed.
  Lemma good_same (step : nat -> E -> E * ftag * nat) n m f tag : step n f = (f, tag, m) -> n <= m -> ok f -> good_step step later n f.
  Proof.
    intros E1 H Hok. unfold Df_Proofs.good_step. rewrite E1. split; auto. split; [apply ceq_refl|]. split; auto. intros x (m' & H' & ->). exists m'. split; auto. lia.
  Qed.
  Lemma atom_eixs (x : At) : eixs (EAtom x) = indices x.
  Proof. unfold Df_Proofs.eixs, Df_Proofs.ixs. cbn. apply app_nil_r. Qed.

  Lemma df_good n f : ok f -> (forall x, later n x -> ~ In x (eixs f)) -> good_step (df_step k aux g b) later n f.
  Proof.
    intros Hok Hf. destruct f as [y|[l s bra ket ax|m ix]|kd s fs|ci ss|]; try (apply (good_same _ n n _ FNo); auto; fail).
    destruct (df_process k aux g b (Ten l s bra ket ax) (S n)) as [e|] eqn:Ep.
    - unfold Df_Proofs.good_step, df_step. rewrite Ep. apply df_process_some in Ep as (s' & p1 & p2 & q1 & q2 & Et & ->). rewrite Et in *.
      destruct (df_tensor_ok s' p1 p2 q1 q2 (S n)) as (H1 & H2 & H3 & _).
      { rewrite <- atom_eixs. apply Hf. exists (S n). split; auto. }
      split; auto. split; [|split].
      + apply (ceq_sub (fun x => x = aux (S n))); auto. intros x ->. exists (S n). auto.
      + apply later_S.
      + intros x Hx. rewrite atom_eixs. destruct (H3 x Hx) as [Q| ->]; auto. right. split; [exists (S n); auto|].
        intros (m & H & Q). apply inj in Q. lia.
    - apply (good_same _ n (S n) _ FNo); auto. unfold df_step. rewrite Ep. reflexivity.
  Qed.

  Lemma density_fit_ok e : ok e -> (forall n, ~ In (aux n) (eixs e)) -> ok (density_fit k aux g b e) /\ ceq (later O) e (density_fit k aux g b e).
  Proof.
    induction e as [y|x|kd s fs IH|ci ss IH|] using expr_ind'; intros Hok Hf.
    - split; auto. apply ceq_refl.
    - cbn [density_fit]. destruct (df_process k aux g b x 1) as [e|] eqn:Ep; [|split; auto; apply ceq_refl].
      apply df_process_some in Ep as (s' & p1 & p2 & q1 & q2 & -> & ->).
      destruct (df_tensor_ok s' p1 p2 q1 q2 1) as (H1 & H2 & H3 & _).
      { rewrite <- atom_eixs. apply Hf. }
      split; auto. apply (ceq_sub (fun x => x = aux 1)); auto. intros x ->. exists (S O). auto.
    - apply ok_prod in Hok. rewrite Forall_forall in Hok.
      destruct (product_ceq (df_step k aux g b) later O kd s fs) as (H1 & H2 & _).
      + intros st f Hin Hx. apply df_good; auto.
      + intros x (m & _ & ->). apply Hf.
      + split; auto.
    - cbn [density_fit]. apply ok_sum in Hok as [_ Hok]. rewrite Forall_forall in IH, Hok.
      assert (Hf' : forall x, In x ss -> forall n, ~ In (aux n) (eixs x)).
      { intros x Hx n Q. apply (Hf n). apply in_flat_map in Q as (y & Hy & Q). apply in_flat_map. exists y. split; auto. cbn. apply in_flat_map. eauto. }
      apply sum_ceq.
      + apply Forall_forall. intros y Hy. apply in_map_iff in Hy as (x & <- & Hx). apply IH; auto.
      + clear Hf. induction ss as [|x ss IHs]; cbn; constructor.
        * apply IH; [left| |apply Hf']; auto. apply Hok; left; auto. left; auto.
        * apply IHs; intros y Hy; [apply IH|apply Hok|apply Hf']; right; auto.
    - destruct Hok.
  Qed.
  End DF.

  Section THC.
  Hypothesis hc : hypercontracted k tv g b z D.

  Lemma thc_tensor_ok s p1 p2 q1 q2 n m : n <> m ->
    (~ In (aux n) (indices (Ten g s [p1; p2] [q1; q2] []))) -> (~ In (aux m) (indices (Ten g s [p1; p2] [q1; q2] []))) ->
    let e := thc_tensor k b z s [p1; p2] [q1; q2] [] (aux n) (aux m) in
    ok e /\ ceq (fun x => x = aux n \/ x = aux m) (EAtom (Ten g s [p1; p2] [q1; q2] [])) e /\
    (forall x, In x (eixs e) -> In x (indices (Ten g s [p1; p2] [q1; q2] [])) \/ x = aux n \/ x = aux m) /\
    (forall y, In y (leaves e) -> exists l p q x, y = Ten l Nonsymm p q x /\ (l = b \/ l = z)).
  Proof.
    intros Hnm Hn Hm. cbn zeta.
    set (t1 := Ten b Nonsymm [p1] [] [aux n] : At). set (t2 := Ten b Nonsymm [] [q1] [aux n] : At).
    set (t3 := Ten b Nonsymm [p2] [] [aux m] : At). set (t4 := Ten b Nonsymm [] [q2] [aux m] : At).
    set (co := Ten z Nonsymm [] [] [aux n; aux m] : At).
    set (u1 := Ten b Nonsymm [p2] [] [aux n] : At). set (u3 := Ten b Nonsymm [p1] [] [aux m] : At).
    set (x0 := Ten g s [p1; p2] [q1; q2] []) in *.
    assert (N : forall i, In i [p1; p2; q1; q2] -> ~ In (aux n) (i :: protos i) /\ ~ In (aux m) (i :: protos i)).
    { intros i Hi. split; intros Q; [apply Hn|apply Hm]; apply in_flat_map; exists i; split; auto. }
    assert (F5 : forall x y : At, ok (times k a (times k a (times k a (times k a (EAtom x) (EAtom t2)) (EAtom co)) (EAtom y)) (EAtom t4)) /\
      (forall F, poly (times k a (times k a (times k a (times k a (EAtom x) (EAtom t2)) (EAtom co)) (EAtom y)) (EAtom t4)) F = F [x; t2; co; y; t4]) /\
      incl (leaves (times k a (times k a (times k a (times k a (EAtom x) (EAtom t2)) (EAtom co)) (EAtom y)) (EAtom t4))) [x; t2; co; y; t4]).
    { intros x y. destruct (times_atoms x t2) as (C1 & C2 & C3). destruct (times_atom _ _ co C1 C2 C3) as (C4 & C5 & C6).
      destruct (times_atom _ _ y C4 C5 C6) as (C7 & C8 & C9). apply (times_atom _ _ t4 C7 C8 C9). }
    assert (L : forall r, leaf_value x0 r = total k D (fun v => total k D (fun w =>
      let r' := set (set r (aux n) v) (aux m) w in
      match s with Antisymm => pr [t1; t2; co; t3; t4] r' + - pr [u1; t2; co; u3; t4] r' | _ => pr [t1; t2; co; t3; t4] r' end))).
    { intros r. transitivity (tv g s [slot_value protos r p1; slot_value protos r p2] [slot_value protos r q1; slot_value protos r q2] []); [reflexivity|]. rewrite hc. unfold total. apply ksum_ext. intros v _. apply ksum_ext. intros w _. cbn zeta.
      unfold Df_Proofs.pr, t1, t2, t3, t4, co, u1, u3. cbn [map Df_Spec.leaf_value kprod].
      rewrite !slot_set_same, !(slot_set_other _ m n) by auto. rewrite !slot_set_same.
      rewrite !(slot_set _ m) by (apply N; cbn; tauto). rewrite !(slot_set _ n) by (apply N; cbn; tauto). destruct s; ring. }
    destruct (F5 t1 t3) as (A1 & A2 & A3). destruct (F5 u1 u3) as (B1 & B2 & B3).
    assert (IX : forall t, t = [t1; t2; co; t3; t4] \/ t = [u1; t2; co; u3; t4] -> forall y, In y (ixs t) <-> In y (indices x0) \/ In y [aux n; aux m]).
    { intros t Ht y. unfold Df_Proofs.ixs, x0. destruct Ht as [->| ->]; unfold t1, t2, t3, t4, co, u1, u3, Df_Spec.indices; cbn [slots app flat_map]; rewrite !Hpr; rewrite !app_nil_r; cbn [app]; repeat (rewrite ?in_app_iff; cbn [In app]); tauto. }
    assert (LV : forall e : E, incl (leaves e) ([t1; t2; co; t3; t4] ++ [u1; t2; co; u3; t4]) -> (forall x, In x (eixs e) -> In x (indices x0) \/ x = aux n \/ x = aux m) /\
      (forall y, In y (leaves e) -> exists l p q x, y = Ten l Nonsymm p q x /\ (l = b \/ l = z))).
    { intros e He. split.
      - intros x Hx. apply (ixs_incl k protos _ _ He) in Hx. rewrite ixs_app in Hx. apply in_app_iff in Hx.
        destruct Hx as [Hx|Hx]; apply IX in Hx; auto; destruct Hx as [|[|[|[]]]]; auto.
      - intros y Hy. apply He in Hy. apply in_app_iff in Hy. unfold t1, t2, co, t3, t4, u1, u3 in Hy. cbn in Hy.
        destruct Hy as [Hy|Hy]; repeat (destruct Hy as [<-|Hy]; [eauto 8|]); destruct Hy. }
    assert (P : s <> Antisymm -> ceq (fun x => x = aux n \/ x = aux m) (EAtom x0) (times k a (times k a (times k a (times k a (EAtom t1) (EAtom t2)) (EAtom co)) (EAtom t3)) (EAtom t4))).
    { intros Hs.
      apply (leaf_ceq k ksub RT protos dom tv ov _ [aux n; aux m] x0 _ [(1, [t1; t2; co; t3; t4])]).
      - constructor; [|repeat constructor; auto]. intros [Q|[]]. apply inj in Q. congruence.
      - intros y [<-|[<-|[]]]; auto.
      - intros y [<-|[<-|[]]]; auto.
      - intros F. rewrite A2. unfold Df_Poly.lin. cbn. ring.
      - intros t [<-|[]]. apply IX; auto.
      - intros r. rewrite L. unfold Df_Poly.lin. cbn [map fst snd Bin_Spec.ksum Bin_Spec.sum_over]. rewrite !Hdom.
        match goal with |- _ = _ * ?X + _ => transitivity X; [|ring] end. unfold total. apply ksum_ext. intros v _. apply ksum_ext. intros w _. destruct s; try congruence; reflexivity. }
    unfold thc_tensor. fold t1 t2 t3 t4 co u1 u3.
    assert (Q : s <> Antisymm -> let e := times k a (times k a (times k a (times k a (EAtom t1) (EAtom t2)) (EAtom co)) (EAtom t3)) (EAtom t4) in
      ok e /\ ceq (fun x => x = aux n \/ x = aux m) (EAtom x0) e /\
    (forall x, In x (eixs e) -> In x (indices x0) \/ x = aux n \/ x = aux m) /\
    (forall y, In y (leaves e) -> exists l p q x, y = Ten l Nonsymm p q x /\ (l = b \/ l = z))).
    { intros Hs. cbn zeta. split; auto. split; auto. apply LV. intros y Hy. apply A3 in Hy. apply in_app_iff. auto. }
    destruct s; [apply Q; discriminate| |apply Q; discriminate]. clear P Q.
    destruct (minus_ok k ksub RT EQ a (fun _ => eq_refl) _ _ A1 B1) as (M1 & M2 & M3);
      [apply times_sum|apply times_const|].
    split; auto. split; [|apply LV; intros y Hy; apply M3 in Hy; apply in_app_iff in Hy; apply in_app_iff; destruct Hy as [Hy|Hy]; [apply A3 in Hy|apply B3 in Hy]; auto].
    apply (leaf_ceq k ksub RT protos dom tv ov _ [aux n; aux m] x0 _ [(1, [t1; t2; co; t3; t4]); (- (1), [u1; t2; co; u3; t4])]).
    - constructor; [|repeat constructor; auto]. intros [Q|[]]. apply inj in Q. congruence.
    - intros y [<-|[<-|[]]]; auto.
    - intros y [<-|[<-|[]]]; auto.
    - intros F. rewrite M2, A2, B2. unfold Df_Poly.lin. cbn. ring.
    - intros t [<-|[<-|[]]]; apply IX; auto.
    - intros r. rewrite L. unfold Df_Poly.lin. cbn [map fst snd Bin_Spec.ksum Bin_Spec.sum_over]. rewrite !Hdom.
      match goal with |- _ = _ * ksum (map ?X _) + (_ * ksum (map ?Y _) + _) => transitivity (ksum (map (fun v => X v + Y v * - (1)) D)) end.
      + unfold total. apply ksum_ext. intros v _. rewrite <- (ksum_mul_r _ _ _ _ _ (SR k ksub RT)), <- (ksum_add _ _ _ _ _ (SR k ksub RT)).
        apply ksum_ext. intros w _. cbn zeta. ring.
      + rewrite (ksum_add _ _ _ _ _ (SR k ksub RT)), (ksum_mul_r _ _ _ _ _ (SR k ksub RT)). ring.
  Qed.

  Lemma thc_good n f : ok f -> (forall y, f = EAtom y -> rank_four g y) -> (forall x, later n x -> ~ In x (eixs f)) -> good_step (thc_step k aux g b z) later n f.
  Proof.
    intros Hok Hr Hf. destruct f as [y|[l s bra ket ax|m ix]|kd s fs|ci ss|]; try (apply (good_same _ n n _ FNo); auto; fail).
    destruct (Nat.eqb_spec l g) as [->|Hl].
    - destruct (Hr _ eq_refl eq_refl) as (_ & H1 & H2 & ->). apply two in H1 as (p1 & p2 & ->). apply two in H2 as (q1 & q2 & ->).
      unfold Df_Proofs.good_step, thc_step. rewrite Nat.eqb_refl.
      destruct (thc_tensor_ok s p1 p2 q1 q2 (S n) (S (S n))) as (H1 & H2 & H3 & _); [lia| | |].
      { rewrite <- atom_eixs. apply Hf. exists (S n). split; auto. }
      { rewrite <- atom_eixs. apply Hf. exists (S (S n)). split; auto. }
      split; auto. split; [|split].
      + apply (ceq_sub (fun x => x = aux (S n) \/ x = aux (S (S n)))); auto. intros x [->| ->]; [exists (S n)|exists (S (S n))]; auto.
      + intros x Hx. apply later_S, later_S. exact Hx.
      + intros x Hx. rewrite atom_eixs. destruct (H3 x Hx) as [Q|[->| ->]]; auto; right; (split; [eexists; split; [|reflexivity]; lia|]);
        intros (m & H & Q); apply inj in Q; lia.
    - apply (good_same _ n n _ FNo); auto. unfold thc_step. destruct (Nat.eqb_spec l g); [congruence|reflexivity].
  Qed.

  Lemma hypercontract_ok e : ok e -> thc_ranks g e -> (forall n, ~ In (aux n) (eixs e)) -> ok (tensor_hypercontract k aux g b z e) /\ ceq (later O) e (tensor_hypercontract k aux g b z e).
  Proof.
    induction e as [y|x|kd s fs IH|ci ss IH|] using expr_ind'; intros Hok Hr Hf.
    - split; auto. apply ceq_refl.
    - cbn [tensor_hypercontract]. destruct x as [l s bra ket ax|m ix]; [|split; auto; apply ceq_refl].
      destruct (Nat.eqb_spec l g) as [->|]; cbn [andb]; [|split; auto; apply ceq_refl].
      destruct (Nat.eqb_spec (length bra) 2) as [H1|]; cbn [andb]; [|split; auto; apply ceq_refl].
      destruct (Nat.eqb_spec (length ket) 2) as [H2|]; cbn [andb]; [|split; auto; apply ceq_refl].
      pose proof (Hr eq_refl H1 H2) as ->. apply two in H1 as (p1 & p2 & ->). apply two in H2 as (q1 & q2 & ->).
      destruct (thc_tensor_ok s p1 p2 q1 q2 (S O) 2) as (H1 & H2 & H3 & _); [lia|rewrite <- atom_eixs; apply Hf|rewrite <- atom_eixs; apply Hf|].
      split; auto. apply (ceq_sub (fun x => x = aux (S O) \/ x = aux 2)); auto. intros x [->| ->]; [exists (S O)|exists 2]; auto.
    - apply ok_prod in Hok. rewrite Forall_forall in Hok.
      destruct (product_ceq (thc_step k aux g b z) later O kd s fs) as (H1 & H2 & _).
      + intros st f Hin Hx. apply thc_good; auto. intros y ->. apply Hr. exact Hin.
      + intros x (m & _ & ->). apply Hf.
      + split; auto.
    - cbn [tensor_hypercontract]. apply ok_sum in Hok as [_ Hok]. cbn [thc_ranks] in Hr. apply fr_and in Hr. rewrite Forall_forall in IH, Hok, Hr.
      assert (Hf' : forall x, In x ss -> forall n, ~ In (aux n) (eixs x)).
      { intros x Hx n Q. apply (Hf n). apply in_flat_map in Q as (y & Hy & Q). apply in_flat_map. exists y. split; auto. cbn. apply in_flat_map. eauto. }
      apply sum_ceq.
      + apply Forall_forall. intros y Hy. apply in_map_iff in Hy as (x & <- & Hx). apply IH; auto.
      + clear Hf. induction ss as [|x ss IHs]; cbn; constructor.
        * apply IH; [left; auto|apply Hok; left; auto|apply Hr; left; auto|apply Hf'; left; auto].
        * apply IHs; intros y Hy; [apply IH|apply Hok|apply Hr|apply Hf']; right; auto.
    - destruct Hok.
  Qed.
  End THC.

  (** *** Leaves of the result *)
  Lemma build_leaves {S} (step : S -> E -> E * ftag * S) fs : (forall st f, In f fs -> ok (fst (fst (step st f)))) ->
    forall st p, okp k a p -> forall y, In y (lin_leaves k a (snd (fst (build k step st fs p)))) ->
    In y (lin_leaves k a (snd p)) \/ exists st' f, In f fs /\ In y (leaves (fst (fst (step st' f)))).
  Proof.
    induction fs as [|f fs IH]; intros Hs st p Hp y Hy; cbn [build] in Hy; auto.
    pose proof (Hs st f (or_introl eq_refl)) as Hg. destruct (step st f) as [[e tag] st'] eqn:Es. cbn [fst] in Hg.
    destruct (append_clone k ksub RT EQ a (fun _ => eq_refl) tag e (scale k a 1 p) Hg Hp) as (A1 & _ & A3).
    fold (build k step) in Hy. destruct (IH (fun st f Hf => Hs st f (or_intror Hf)) st' _ A1 y Hy) as [Q|(s2 & f2 & Q1 & Q2)].
    - destruct (A3 y Q) as [Q'|Q']; [left; exact Q'|]. right. exists st, f. split; [left; auto|]. rewrite Es. exact Q'.
    - right. exists s2, f2. split; [right; auto|auto].
  Qed.
End Fitting.
