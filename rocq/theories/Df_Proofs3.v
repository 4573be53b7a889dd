(** Expanding slots with protoindices keeps the value. *)
From Coq Require Import List Bool Arith Lia Ring Ring_theory Permutation.
From Verif Require Import Wick_Spec Idx_Model Bin_Spec Bin_Sums Expr_Model Expr_Spec Expr_Proofs1 Df_Model Df_Spec Df_Poly Df_Proofs Df_Proofs2.
Import ListNotations.

Section Csv.
  Variable k : kops.
  Variable ksub : K k -> K k -> K k.
  Hypothesis RT : ring_theory (k0 k) (k1 k) (kadd k) (kmul k) ksub (kopp k) eq.
  Hypothesis EQ : forall x y, keqb k x y = true <-> x = y.
  Declare Scope kscope.
  Notation "1" := (k1 k) : kscope.
  Notation "x + y" := (kadd k x y) : kscope.
  Notation "x * y" := (kmul k x y) : kscope.
  Delimit Scope kscope with k.
  Add Ring Kring33 : RT.
  Variable protos : idx -> list idx.
  Variable dom : idx -> list nat.
  Variable tv : nat -> symm -> list (list nat) -> list (list nat) -> list (list nat) -> K k.
  Variable ov : nat -> list (list nat) -> K k.
  Notation a := (leaf_ops k).
  Notation At := (A (leaf_ops k)).
  Notation E := (expr (K k) (A (leaf_ops k))).
  Notation ksum := (ksum (K k) (k0 k) (kadd k)).
  Notation sum_over := (sum_over (K k) (k0 k) (kadd k) dom).
  Notation leaf_value := (leaf_value k protos tv ov).
  Notation indices := (indices protos).
  Notation poly := (poly k a).
  Notation polys := (polys k a).
  Notation lin := (lin k a).
  Notation leaves := (leaves k At).
  Notation ok := (@Expr_Spec.ok k a).
  Notation pr := (pr k protos tv ov).
  Notation ixs := (ixs k protos).
  Notation eixs := (eixs k protos).
  Notation ceq := (ceq k protos dom tv ov).
  Notation good_step := (good_step k protos dom tv ov).
  Notation slot := (slot_value protos).
  Notation has_protos := (has_protos protos).
  Definition with_protos (l : list idx) : list idx := flat_map (fun i => i :: protos i) l.

  (** Only environments that differ in the summation indices matter. *)
  Lemma sum_over_agree xs f h r : (forall r', (forall y, ~ In y xs -> r' y = r y) -> f r' = h r') -> sum_over xs f r = sum_over xs h r.
  Proof.
    revert r. induction xs as [|x xs IH]; intros r H; cbn [Bin_Spec.sum_over]; [apply H; auto|]. apply ksum_ext. intros v _. apply IH.
    intros r' Hr. apply H. intros y Hy. rewrite Hr by (intros Q; apply Hy; right; auto). unfold set. destruct (Nat.eqb_spec y x) as [->|]; auto. exfalso. apply Hy. left; auto.
  Qed.
  Lemma sum_over_const xs f c r : sum_over xs (fun r => (c * f r)%k) r = (c * sum_over xs f r)%k.
  Proof.
    revert r. induction xs as [|x xs IH]; intros r; cbn [Bin_Spec.sum_over]; auto.
    rewrite (ksum_ext _ (k0 k) (kadd k) _ (fun v => (sum_over xs f (set r x v) * c)%k)) by (intros; rewrite IH; ring).
    rewrite (ksum_mul_r _ _ _ _ _ (SR k ksub RT)). ring.
  Qed.

  Variable tmp : nat -> idx.
  Variable D : list nat.
  Hypothesis inj : forall m n, tmp m = tmp n -> m = n.
  Hypothesis Hdom : forall n, dom (tmp n) = D.
  Hypothesis Hpr : forall n, protos (tmp n) = [].
  Definition from (n : nat) (x : idx) : Prop := exists m, n <= m /\ x = tmp m.
  Definition tmps (n n' : nat) : list idx := map tmp (seq n (n' - n)).

  Lemma In_tmps n n' x : In x (tmps n n') <-> exists m, n <= m < n' /\ x = tmp m.
  Proof. unfold tmps. rewrite in_map_iff. split; [intros (m & <- & H); apply in_seq in H; exists m; split; auto; lia|]. intros (m & H & ->). exists m. split; auto. apply in_seq. lia. Qed.
  Lemma NoDup_tmps n n' : NoDup (tmps n n').
  Proof. unfold tmps. apply FinFun.Injective_map_NoDup; [intros x y; apply inj|apply seq_NoDup]. Qed.
  Lemma tmps_cons n n' : S n <= n' -> tmps n n' = tmp n :: tmps (S n) n'.
  Proof. intros H. unfold tmps. replace (n' - n) with (S (n' - S n)) by lia. reflexivity. Qed.
  Lemma tmps_app n m n' : n <= m <= n' -> tmps n n' = tmps n m ++ tmps m n'.
  Proof. intros H. unfold tmps. replace (n' - n) with ((m - n) + (n' - m)) by lia. rewrite seq_app, map_app. repeat f_equal. lia. Qed.

  Lemma slot_agree r r' i : (forall y, In y (i :: protos i) -> r y = r' y) -> slot r i = slot r' i.
  Proof. apply slot_local. Qed.
  Lemma slots_agree r r' l : (forall y, In y (with_protos l) -> r y = r' y) -> map (slot r) l = map (slot r') l.
  Proof. apply slots_local. Qed.
  Lemma has_protos_true i : has_protos i = true -> protos i <> [].
  Proof. unfold Df_Model.has_protos. destruct (protos i); cbn; congruence. Qed.
  Lemma has_protos_false i : has_protos i = false -> protos i = [].
  Proof. unfold Df_Model.has_protos. destruct (protos i); cbn; congruence. Qed.

  Section Slots.
    Variable coeff : idx -> idx -> At.
    Hypothesis coeff_ix : forall i x y, In y (indices (coeff i x)) <-> In y (i :: protos i) \/ In y (x :: protos x).
    Lemma csv_slots_ge l : forall n, n <= snd (csv_slots protos tmp coeff n l).
    Proof.
      induction l as [|i l IH]; intros n; cbn [csv_slots]; auto.
      destruct (has_protos i).
      - specialize (IH (S n)). destruct (csv_slots protos tmp coeff (S n) l) as [[r c] n']. cbn in *. lia.
      - specialize (IH n). destruct (csv_slots protos tmp coeff n l) as [[r c] n']. cbn in *. lia.
    Qed.
    Lemma csv_slots_ix l : forall n, let '(rl, c, n') := csv_slots protos tmp coeff n l in
      forall y, In y (ixs c) \/ In y (with_protos rl) <-> In y (with_protos l) \/ In y (tmps n n').
    Proof.
      induction l as [|i l IH]; intros n; cbn [csv_slots].
      - intros y. unfold tmps. rewrite Nat.sub_diag. cbn. tauto.
      - destruct (has_protos i) eqn:Hi.
        + specialize (IH (S n)). pose proof (csv_slots_ge l (S n)) as G. destruct (csv_slots protos tmp coeff (S n) l) as [[r c] n']. cbn [snd] in G.
          intros y. specialize (IH y). rewrite (tmps_cons n n' G). unfold Df_Proofs.ixs, with_protos in *. cbn [flat_map]. rewrite !in_app_iff, coeff_ix, !Hpr. cbn [In]. tauto.
        + specialize (IH n). destruct (csv_slots protos tmp coeff n l) as [[r c] n']. intros y. specialize (IH y). unfold with_protos in *. cbn [flat_map]. rewrite !in_app_iff. tauto.
    Qed.
    Lemma csv_slots_plain l : forall n, let '(rl, c, n') := csv_slots protos tmp coeff n l in forall i, In i rl -> protos i = [].
    Proof.
      induction l as [|i l IH]; intros n; cbn [csv_slots]; [intros ? []|]. destruct (has_protos i) eqn:Hi.
      - specialize (IH (S n)). destruct (csv_slots protos tmp coeff (S n) l) as [[r c] n']. intros j [<-|Hj]; auto.
      - specialize (IH n). destruct (csv_slots protos tmp coeff n l) as [[r c] n']. intros j [<-|Hj]; auto. now apply has_protos_false.
    Qed.
    Lemma csv_slots_coeff l : forall n, let '(rl, c, n') := csv_slots protos tmp coeff n l in forall x, In x c -> exists i m, x = coeff i (tmp m).
    Proof.
      induction l as [|i l IH]; intros n; cbn [csv_slots]; [intros ? []|]. destruct (has_protos i) eqn:Hi.
      - specialize (IH (S n)). destruct (csv_slots protos tmp coeff (S n) l) as [[r c] n']. intros j [<-|Hj]; eauto.
      - specialize (IH n). destruct (csv_slots protos tmp coeff n l) as [[r c] n']. auto.
    Qed.

    Variable cv : list nat -> list nat -> K k.
    Variable phi : list (list nat) -> K k.
    Hypothesis coeff_val : forall r i x, leaf_value (coeff i x) r = cv (slot r i) (slot r x).
    Hypothesis phi_exp : forall b1 v vs b2, vs <> [] -> phi (b1 ++ (v :: vs) :: b2) = total k D (fun y => (cv (v :: vs) [y] * phi (b1 ++ [y] :: b2))%k).

    Lemma csv_value l : forall n b0 r, (forall m, n <= m -> ~ In (tmp m) (with_protos l)) ->
      let '(rl, c, n') := csv_slots protos tmp coeff n l in
      phi (b0 ++ map (slot r) l) = sum_over (tmps n n') (fun r' => (pr c r' * phi (b0 ++ map (slot r') rl))%k) r.
    Proof.
      induction l as [|i l IH]; intros n b0 r Hn; cbn [csv_slots].
      - unfold tmps. rewrite Nat.sub_diag. cbn. unfold Df_Proofs.pr. cbn. ring.
      - assert (Hl : forall m, n <= m -> ~ In (tmp m) (with_protos l)) by (intros m Hm Q; apply (Hn m Hm); unfold with_protos; cbn [flat_map]; apply in_app_iff; auto).
        assert (Hi' : forall m, n <= m -> ~ In (tmp m) (i :: protos i)) by (intros m Hm Q; apply (Hn m Hm); unfold with_protos; cbn [flat_map]; apply in_app_iff; auto).
        destruct (has_protos i) eqn:Hi.
        + pose proof (csv_slots_ge l (S n)) as G. specialize (IH (S n)). destruct (csv_slots protos tmp coeff (S n) l) as [[rl c] n'] eqn:Ec. cbn [snd] in G.
          rewrite (tmps_cons n n' G). cbn [Bin_Spec.sum_over map]. rewrite Hdom.
          unfold slot_value at 1. rewrite phi_exp by (intros Q; apply map_eq_nil in Q; apply (has_protos_true i Hi Q)).
          unfold total. apply ksum_ext. intros v _. fold (slot r i).
          set (rv := set r (tmp n) v).
          assert (Sl : map (slot rv) l = map (slot r) l).
          { apply slots_agree. intros y Hy. unfold rv, set. destruct (Nat.eqb_spec y (tmp n)) as [->|]; auto. exfalso. apply (Hl n); auto. }
          assert (Si : slot rv i = slot r i).
          { apply slot_agree. intros y Hy. unfold rv, set. destruct (Nat.eqb_spec y (tmp n)) as [->|]; auto. exfalso. apply (Hi' n); auto. }
          pose proof (IH (b0 ++ [[v]]) rv (fun m Hm => Hl m ltac:(lia))) as H. rewrite Sl in H. rewrite <- app_assoc in H. cbn [app] in H. rewrite H. clear H IH.
          rewrite <- sum_over_const. apply sum_over_agree. intros r' Hr. unfold Df_Proofs.pr. cbn [map kprod]. rewrite coeff_val.
          assert (N : forall m, In (tmp m) (tmps (S n) n') -> S n <= m) by (intros m Q; apply In_tmps in Q as (m' & Q1 & Q2); apply inj in Q2; lia).
          replace (slot r' i) with (slot r i).
          2:{ rewrite <- Si. apply slot_agree. intros y Hy. symmetry. apply Hr. intros Q. pose proof Q as Q0. apply In_tmps in Q as (m & Qm & ->). apply (Hi' m); auto. lia. }
          assert (St : slot r' (tmp n) = [v]).
          { unfold slot_value. rewrite Hpr. cbn [map]. rewrite Hr by (intros Q; apply N in Q; lia). unfold rv, set. now rewrite Nat.eqb_refl. }
          rewrite St. rewrite <- app_assoc. cbn [app]. apply (Rmul_assoc RT).
        + specialize (IH n (b0 ++ [slot r i]) r Hl). destruct (csv_slots protos tmp coeff n l) as [[rl c] n'] eqn:Ec.
          cbn [map]. rewrite <- !app_assoc in IH. cbn [app] in IH. rewrite IH. apply sum_over_agree. intros r' Hr. rewrite <- !app_assoc. cbn [app map].
          replace (slot r' i) with (slot r i); [reflexivity|]. apply slot_agree. intros y Hy. symmetry. apply Hr. intros Q. apply In_tmps in Q as (m & Qm & ->). apply (Hi' m); auto. lia.
    Qed.
  End Slots.

  Variables (labels : list nat) (o c : nat).
  Variable drop : idx -> idx.
  Variable ordinal_less : idx -> idx -> bool.
  Variable orthonormal : bool.
  Hypothesis EX : expands k tv labels c D.
  Hypothesis OV : orthonormal = true -> overlaps k tv o c D.

  Lemma bra_ix i x y : In y (indices (csv_bra c i x)) <-> In y (i :: protos i) \/ In y (x :: protos x).
  Proof. unfold csv_bra, Df_Spec.indices. cbn [slots app]. cbn [flat_map]. rewrite app_nil_r. rewrite (in_app_iff (_ :: protos _)). tauto. Qed.
  Lemma ket_ix i x y : In y (indices (csv_ket c i x)) <-> In y (i :: protos i) \/ In y (x :: protos x).
  Proof. unfold csv_ket, Df_Spec.indices. cbn [slots app]. cbn [flat_map]. rewrite app_nil_r. rewrite (in_app_iff (_ :: protos _)). tauto. Qed.

  Lemma fold_append (l : list At) : forall p, okp k a p -> let q := fold_left (fun p x => append k a (Expr_Model.clone k a) FRec (EAtom x) (scale k a (k1 k) p)) l p in
    okp k a q /\ (forall F, pv k a q F = pv k a p (fun t => F (t ++ l))) /\ snd q = snd p ++ map (fun x => EAtom x) l.
  Proof.
    induction l as [|x l IH]; intros p Hp; cbn [fold_left].
    - cbn. split; auto. split; [|now rewrite app_nil_r]. intros F. apply pv_ext. intros t. now rewrite app_nil_r.
    - destruct (append_clone k ksub RT EQ a (fun _ => eq_refl) FRec (EAtom x) (scale k a (k1 k) p) I Hp) as (H1 & H2 & _).
      destruct (IH _ H1) as (H3 & H4 & H5). split; auto. split.
      + intros F. rewrite H4, H2, (pv_scale k ksub RT). match goal with |- (1 * ?X)%k = _ => transitivity X; [ring|] end. apply pv_ext. intros t. rewrite (poly_atom k ksub RT). now rewrite <- app_assoc.
      + rewrite H5. cbn. now rewrite <- app_assoc.
  Qed.

  Definition cprod (l : list At) : prod k a := fold_left (fun p x => append k a (Expr_Model.clone k a) FRec (EAtom x) (scale k a (k1 k) p)) l (k1 k, []).
  Lemma cprod_ok l : okp k a (cprod l) /\ (forall F, pv k a (cprod l) F = F l) /\ snd (cprod l) = map (fun x => EAtom x) l.
  Proof.
    destruct (fold_append l (k1 k, [])) as (F1 & F2 & F3); [constructor|]. cbn zeta in *. fold (cprod l) in *. split; auto. split; auto.
    intros F. rewrite F2. unfold pv. cbn [fst snd]. rewrite (polys_nil k ksub RT). cbn [app]. ring.
  Qed.

  Notation csv_tensor := (csv_tensor k protos drop ordinal_less tmp orthonormal o c).
  Notation csv_transform := (csv_transform k protos drop ordinal_less tmp orthonormal o c labels).

  Definition csv_good (n : nat) (e : E) (res : option E * nat) : Prop :=
    exists e', fst res = Some e' /\ ok e' /\ n <= snd res /\ ceq (from n) e e' /\
      (forall x, In x (eixs e') -> In x (eixs e) \/ (from n x /\ ~ from (snd res) x)).

  Lemma csv_good_same n e : ok e -> csv_good n e (Some e, n).
  Proof. intros H. exists e. cbn. split; auto. split; auto. split; auto. split; [apply ceq_refl|]. auto. Qed.
  Lemma flat_bra l s bra ket ax y : In y (indices (Ten l s bra ket ax)) <-> In y (with_protos bra) \/ In y (with_protos ket) \/ In y (with_protos ax).
  Proof. unfold Df_Spec.indices, with_protos. cbn [slots]. rewrite !flat_map_app, !in_app_iff. tauto. Qed.

  (** The general case. *)
  Lemma csv_general l s bra ket ax n : In l labels -> (forall m, n <= m -> ~ In (tmp m) (indices (Ten l s bra ket ax))) ->
    let '(rbra, cb, n1) := csv_slots protos tmp (csv_bra c) n bra in
    let '(rket, ck, n2) := csv_slots protos tmp (csv_ket c) n1 ket in
    let p := cprod (cb ++ ck) in
    let q := prepend k a FRec (EAtom (Ten l s rbra rket ax)) (scale k a (k1 k) p) in
    csv_good n (EAtom (Ten l s bra ket ax)) (Some (EProd PPlain (fst q) (snd q)), n2).
  Proof.
    intros Hl Hn. destruct (EX l s Hl) as [EB EK].
    pose proof (csv_slots_ge (csv_bra c) bra n) as G1. pose proof (csv_slots_ix (csv_bra c) bra_ix bra n) as I1.
    assert (V1 : let '(rl, cc, n') := csv_slots protos tmp (csv_bra c) n bra in forall r,
      tv l s (map (slot r) bra) (map (slot r) ket) (map (slot r) ax) =
      sum_over (tmps n n') (fun r' => (pr cc r' * tv l s (map (slot r') rl) (map (slot r) ket) (map (slot r) ax))%k) r).
    { pose proof (fun phi HQ r => csv_value (csv_bra c) (fun x y => tv c Nonsymm [x] [y] []) phi (fun r i x => eq_refl) HQ bra n [] r) as V.
      assert (Hb : forall m, n <= m -> ~ In (tmp m) (with_protos bra)) by (intros m Hm Q; apply (Hn m Hm); apply flat_bra; auto).
      destruct (csv_slots protos tmp (csv_bra c) n bra) as [[rl cc] n']. intros r.
      apply (V (fun b => tv l s b (map (slot r) ket) (map (slot r) ax))); auto. }
    destruct (csv_slots protos tmp (csv_bra c) n bra) as [[rbra cb] n1]. cbn [snd] in G1.
    pose proof (csv_slots_ge (csv_ket c) ket n1) as G2. pose proof (csv_slots_ix (csv_ket c) ket_ix ket n1) as I2.
    assert (V2 : let '(rl, cc, n') := csv_slots protos tmp (csv_ket c) n1 ket in forall r,
      tv l s (map (slot r) rbra) (map (slot r) ket) (map (slot r) ax) =
      sum_over (tmps n1 n') (fun r' => (pr cc r' * tv l s (map (slot r) rbra) (map (slot r') rl) (map (slot r) ax))%k) r).
    { pose proof (fun phi HQ r => csv_value (csv_ket c) (fun x y => tv c Nonsymm [y] [x] []) phi (fun r i x => eq_refl) HQ ket n1 [] r) as V.
      assert (Hb : forall m, n1 <= m -> ~ In (tmp m) (with_protos ket)) by (intros m Hm Q; apply (Hn m ltac:(lia)); apply flat_bra; auto).
      destruct (csv_slots protos tmp (csv_ket c) n1 ket) as [[rl cc] n']. intros r.
      apply (V (fun b => tv l s (map (slot r) rbra) b (map (slot r) ax))); auto. }
    destruct (csv_slots protos tmp (csv_ket c) n1 ket) as [[rket ck] n2]. cbn [snd] in G2.
    cbn zeta. destruct (cprod_ok (cb ++ ck)) as (F1 & F2 & F3). set (p := cprod (cb ++ ck)) in *. clearbody p.
    set (x1 := Ten l s rbra rket ax : At).
    assert (PO : forall F, poly (EProd PPlain (fst (prepend k a FRec (EAtom x1) (scale k a (k1 k) p))) (snd (prepend k a FRec (EAtom x1) (scale k a (k1 k) p)))) F = F (x1 :: cb ++ ck)).
    { intros F. destruct p as [sp fp]. transitivity ((sp * 1) * polys (EAtom x1 :: fp) F)%k; [apply (poly_prod k ksub RT a PPlain)|].
      rewrite (polys_cons k ksub RT), (poly_atom k ksub RT).
      specialize (F2 (fun u => F ([x1] ++ u))). unfold pv in F2. cbn [fst snd] in F2. cbn [app] in F2 |- *.
      rewrite <- F2. unfold Expr_Model.scale. cbn [fst]. ring. }
    assert (LE : leaves (EProd PPlain (fst (prepend k a FRec (EAtom x1) (scale k a (k1 k) p))) (snd (prepend k a FRec (EAtom x1) (scale k a (k1 k) p)))) = x1 :: cb ++ ck).
    { destruct p as [sp fp]. cbn [snd] in F3. subst fp. cbn. f_equal. clear. induction (cb ++ ck); cbn; congruence. }
    assert (IX : forall y, In y (ixs (x1 :: cb ++ ck)) <-> In y (indices (Ten l s bra ket ax)) \/ In y (tmps n n2)).
    { intros y. unfold Df_Proofs.ixs in *. cbn [flat_map]. rewrite flat_map_app, !in_app_iff. unfold x1. rewrite !flat_bra, (tmps_app n n1 n2), in_app_iff by lia.
      specialize (I1 y). specialize (I2 y). tauto. }
    eexists. cbn [fst snd]. split; [reflexivity|]. split; [|split; [lia|split]].
    - apply ok_prod. destruct p as [sp fp]. apply Forall_cons; [exact I|exact F1].
    - apply (leaf_ceq k ksub RT protos dom tv ov _ (tmps n n2) _ _ [(k1 k, x1 :: cb ++ ck)]).
      + apply NoDup_tmps.
      + intros y Hy. apply In_tmps in Hy as (m & Hm & ->). exists m. split; auto. lia.
      + intros y Hy. apply In_tmps in Hy as (m & Hm & ->). apply Hn. lia.
      + intros F. rewrite PO. unfold Df_Poly.lin. cbn [map Bin_Spec.ksum fst snd]. ring.
      + intros t [<-|[]]. exact IX.
      + intros r. unfold Df_Poly.lin. cbn [map Bin_Spec.ksum fst snd]. match goal with |- _ = (1 * ?X + _)%k => transitivity X; [|ring] end.
        cbn [Df_Spec.leaf_value]. rewrite V1, (tmps_app n n1 n2) by lia. rewrite sum_over_app. apply sum_over_agree. intros r1 Hr1.
        assert (A1 : forall l', (forall m, n <= m -> ~ In (tmp m) (with_protos l')) -> map (slot r) l' = map (slot r1) l').
        { intros l' Hl'. apply slots_agree. intros y Hy. symmetry. apply Hr1. intros Q. apply In_tmps in Q as (m & Hm & ->). apply (Hl' m); auto. lia. }
        rewrite (A1 ket), (A1 ax) by (intros m Hm Q; apply (Hn m Hm); apply flat_bra; auto). rewrite V2, <- sum_over_const. apply sum_over_agree. intros r2 Hr2.
        assert (N2 : forall y, In y (with_protos bra) \/ In y (tmps n n1) \/ In y (with_protos ax) -> r1 y = r2 y).
        { intros y Hy. symmetry. apply Hr2. intros Q. apply In_tmps in Q as (m & Hm & ->). destruct Hy as [Hy|[Hy|Hy]].
          - apply (Hn m); [lia|]. apply flat_bra; auto.
          - apply In_tmps in Hy as (m' & Hm' & Q). apply inj in Q. lia.
          - apply (Hn m); [lia|]. apply flat_bra; auto. }
        replace (pr cb r1) with (pr cb r2) by (apply pr_local; intros y Hy; symmetry; apply N2; specialize (I1 y); tauto).
        replace (map (slot r1) rbra) with (map (slot r2) rbra) by (apply slots_agree; intros y Hy; symmetry; apply N2; specialize (I1 y); tauto).
        replace (map (slot r1) ax) with (map (slot r2) ax) by (apply slots_agree; intros y Hy; symmetry; apply N2; auto).
        change (x1 :: cb ++ ck) with ([x1] ++ cb ++ ck). rewrite !(pr_app k ksub RT). unfold Df_Proofs.pr at 3. cbn [map kprod]. unfold x1. cbn [Df_Spec.leaf_value]. ring.
    - intros x Hx. assert (Hx' : In x (ixs (x1 :: cb ++ ck))) by (rewrite <- LE; exact Hx). clear Hx. rename Hx' into Hx. apply IX in Hx. rewrite (atom_eixs k protos). destruct Hx as [Hx|Hx]; auto. right.
      apply In_tmps in Hx as (m & Hm & ->). split; [exists m; split; auto; lia|]. intros (m' & Hm' & Q). apply inj in Q. lia.
  Qed.

  Lemma existsb_false {X} (f : X -> bool) l : (forall x, In x l -> f x = false) -> existsb f l = false.
  Proof. intros H. induction l as [|x l IH]; cbn; auto. rewrite (H x), IH; auto; [intros y Hy; apply H; right; auto|left; auto]. Qed.

  Lemma mk_prod_atoms (l : list At) : let e := mk_prod k a PPlain (k1 k) FRec (map (fun x => EAtom x) l) in
    ok e /\ (forall F, poly e F = F l) /\ incl (leaves e) l.
  Proof.
    destruct (mk_prod_ok k ksub RT EQ a (fun _ => eq_refl) PPlain (k1 k) FRec (map (fun x => EAtom x) l)) as (H1 & H2 & H3).
    { apply Forall_forall. intros y Hy. apply in_map_iff in Hy as (x & <- & _). exact I. }
    cbn zeta. split; auto. split.
    - intros F. rewrite H2. transitivity (polys (map (fun x => EAtom x) l) F); [ring|]. clear H1 H2 H3. revert F. induction l as [|x l IH]; intros F; cbn [map].
      + apply (polys_nil k ksub RT). + rewrite (polys_cons k ksub RT), (poly_atom k ksub RT), IH. reflexivity.
    - intros y Hy. apply H3 in Hy. clear H1 H2 H3. induction l as [|x l IH]; cbn in *; auto. destruct Hy; auto.
  Qed.

  Lemma csv_leaf l s bra ket ax n : expandable protos orthonormal o labels (Ten l s bra ket ax) ->
    (forall m, n <= m -> ~ In (tmp m) (indices (Ten l s bra ket ax))) ->
    csv_good n (EAtom (Ten l s bra ket ax)) (csv_transform (EAtom (Ten l s bra ket ax)) n).
  Proof.
    intros He Hn. cbn [Df_Model.csv_transform].
    destruct (existsb (Nat.eqb l) labels) eqn:El; cbn [negb]; [|apply csv_good_same; exact I].
    assert (Hl : In l labels) by (apply existsb_exists in El as (y & Hy & Q); apply Nat.eqb_eq in Q; subst; auto).
    destruct (existsb has_protos (bra ++ ket ++ ax)) eqn:Eh; cbn [negb]; [|apply csv_good_same; exact I].
    destruct (He Hl) as (Hax & Ho).
    assert (Hax' : existsb has_protos ax = false) by (apply existsb_false; intros i Hi; unfold Df_Model.has_protos; rewrite Hax; auto).
    rewrite !existsb_app, Hax', orb_false_r in Eh. unfold Df_Model.csv_tensor. rewrite existsb_app, Eh, Hax'. cbn [negb].
    destruct (orthonormal && Nat.eqb l o) eqn:Eo.
    - apply andb_true_iff in Eo as [Eo Q]. apply Nat.eqb_eq in Q. subst l. destruct (Ho Eo eq_refl) as (p & q & -> & -> & -> & Hpq).
      assert (Hb : has_protos p && has_protos q = false).
      { unfold Df_Model.has_protos. destruct Hpq as [-> | ->]; cbn; auto. apply andb_false_r. }
      rewrite Hb. destruct (mk_prod_atoms [Ten c Nonsymm [p] [q] []]) as (M1 & M2 & M3). cbn [map] in *.
      eexists. cbn [fst snd]. split; [reflexivity|]. split; [exact M1|]. split; auto. split.
      + apply (leaf_ceq k ksub RT protos dom tv ov _ [] _ _ [(k1 k, [Ten c Nonsymm [p] [q] []])]).
        * constructor. * intros y []. * intros y [].
        * intros F. rewrite M2. unfold Df_Poly.lin. cbn [map Bin_Spec.ksum fst snd]. ring.
        * intros t [<-|[]] y. unfold Df_Proofs.ixs. cbn [flat_map snd]. rewrite app_nil_r. cbn. tauto.
        * intros r. unfold Df_Poly.lin. cbn [map Bin_Spec.ksum fst snd Bin_Spec.sum_over]. unfold Df_Proofs.pr. cbn [map kprod].
          match goal with |- _ = (1 * (?X * _) + _)%k => transitivity X; [|ring] end. cbn [Df_Spec.leaf_value map].
          cbn [existsb app] in Eh. rewrite !orb_false_r in Eh.
          destruct (OV Eo s (r p) (map r (protos p)) (r q) (map r (protos q))) as (O1 & O2 & O3).
          destruct (has_protos p) eqn:Hp; cbn [andb] in *.
          -- assert (Q : protos q = []) by (apply has_protos_false; auto). unfold slot_value. rewrite Q in *. cbn [map] in *. apply O2.
             intros Q'. apply map_eq_nil in Q'. apply (has_protos_true _ Hp Q').
          -- assert (Q : protos p = []) by (apply has_protos_false; auto). unfold slot_value. rewrite Q in *. cbn [map] in *. apply O3.
             intros Q'. apply map_eq_nil in Q'. apply (has_protos_true q Eh Q').
      + intros x Hx. left. apply (ixs_incl k protos _ _ M3) in Hx. unfold Df_Proofs.ixs in Hx. cbn [flat_map] in Hx. rewrite app_nil_r in Hx. rewrite (atom_eixs k protos). exact Hx.
    - pose proof (csv_general l s bra ket ax n Hl Hn) as H. destruct (csv_slots protos tmp (csv_bra c) n bra) as [[rbra cb] n1].
      destruct (csv_slots protos tmp (csv_ket c) n1 ket) as [[rket ck] n2]. exact H.
  Qed.

  Lemma from_mono n n' x : n <= n' -> from n' x -> from n x.
  Proof. intros H (m & Hm & ->). exists m. split; [exact (Nat.le_trans _ _ _ H Hm)|reflexivity]. Qed.

  Definition go := fix go l n : list E * nat :=
    match l with
    | [] => ([], n)
    | x :: l' =>
        let '(y, n1) := csv_transform x n in
        let '(ys, n2) := go l' n1 in
        (match y with Some y => y | None => EErr end :: ys, n2)
    end.

  Lemma csv_ok e : ok e -> Forall (expandable protos orthonormal o labels) (leaves e) ->
    forall n, (forall x, from n x -> ~ In x (eixs e)) -> csv_good n e (csv_transform e n).
  Proof.
    induction e as [y|x|kd s fs IH|ci ss IH|] using expr_ind'; intros Hok Hex n Hf.
    - apply csv_good_same; auto.
    - destruct x as [l s bra ket ax|m ix]; [|apply csv_good_same; auto].
      apply csv_leaf; [inversion Hex; auto|]. intros m Hm. rewrite <- (atom_eixs k protos). apply Hf. exists m. auto.
    - apply ok_prod in Hok. rewrite Forall_forall in IH, Hok, Hex.
      set (step := fun n f => let '(g, n') := csv_transform f n in (match g with Some g => g | None => f end, FNo, n')).
      destruct (product_ceq k ksub RT EQ protos dom tv ov step from n kd s fs) as (H1 & H2 & H3 & H4).
      + intros st f Hin Hx. destruct (IH f Hin (Hok f Hin)) with (n := st) as (e' & G1 & G2 & G3 & G4 & G5); auto.
        { apply Forall_forall. intros y Hy. apply Hex. cbn. apply in_flat_map. eauto. }
        unfold Df_Proofs.good_step, step. destruct (csv_transform f st) as [g n']. cbn [fst snd] in *. subst g. split; auto. split; auto. split; auto.
        intros x. apply from_mono. auto.
      + exact Hf.
      + assert (Er : csv_transform (EProd kd s fs) n = (Some (fst (built k (build k step n fs (scale k a s (k1 k, []))))), snd (built k (build k step n fs (scale k a s (k1 k, [])))))) by reflexivity.
        rewrite Er. eexists. cbn [fst snd]. split; [reflexivity|]. split; [exact H1|]. split; [|split; [exact H2|exact H4]].
        assert (M : forall l st p, (forall f, In f l -> In f fs) -> (forall x, from st x -> forall f, In f l -> ~ In x (eixs f)) -> st <= snd (build k step st l p)).
        { induction l as [|f l IHl]; intros st p Hin Hx; [cbn; auto|]. destruct (IH f (Hin f (or_introl eq_refl)) (Hok f (Hin f (or_introl eq_refl)))) with (n := st) as (e' & G1 & G2 & G3 & G4 & G5).
          { apply Forall_forall. intros y Hy. apply Hex. cbn. apply in_flat_map. exists f. split; auto. apply Hin; left; auto. }
          { intros x Hx'. apply Hx; [auto|left; auto]. }
          change (build k step st (f :: l) p) with (let '(g, tag, st') := step st f in build k step st' l (append k a (Expr_Model.clone k a) tag g (scale k a (k1 k) p))).
          assert (S2 : snd (step st f) = snd (csv_transform f st)) by (unfold step; destruct (csv_transform f st); reflexivity).
          destruct (step st f) as [[g tag] st']. cbn [snd] in S2. subst st'.
          etransitivity; [exact G3|]. apply IHl; [intros f' Hf'; apply Hin; right; auto|]. intros x Hx' f' Hf'. apply Hx; [|right; auto]. apply (from_mono _ _ _ G3). exact Hx'. }
        apply M; auto. intros x Hx f Hin Q. apply (Hf x Hx). apply in_flat_map in Q as (y & Hy & Q). apply in_flat_map. exists y. split; auto. cbn. apply in_flat_map. eauto.
    - apply ok_sum in Hok as [_ Hok]. rewrite Forall_forall in IH, Hok, Hex.
      assert (Er : csv_transform (ESum ci ss) n = (Some (mk_sum k a (fst (go ss n))), snd (go ss n))) by reflexivity. rewrite Er. clear Er.
      assert (Hfs : forall x, from n x -> forall f, In f ss -> ~ In x (eixs f)).
      { intros x Hx f Hin Q. apply (Hf x Hx). apply in_flat_map in Q as (y & Hy & Q). apply in_flat_map. exists y. split; auto. cbn. apply in_flat_map. eauto. }
      assert (M : forall l n, (forall f, In f l -> In f ss) -> (forall x, from n x -> forall f, In f l -> ~ In x (eixs f)) ->
        n <= snd (go l n) /\ Forall ok (fst (go l n)) /\ Forall2 (ceq (from n)) l (fst (go l n)) /\
        (forall x, In x (ixs (flat_map leaves (fst (go l n)))) -> In x (ixs (flat_map leaves l)) \/ (from n x /\ ~ from (snd (go l n)) x))).
      { clear n Hf Hfs. induction l as [|f l IHl]; intros n Hin Hx; [cbn; repeat split; try lia; try constructor; intros x []|].
        destruct (IH f (Hin f (or_introl eq_refl)) (Hok f (Hin f (or_introl eq_refl)))) with (n := n) as (e' & G1 & G2 & G3 & G4 & G5).
        { apply Forall_forall. intros y Hy. apply Hex. cbn. apply in_flat_map. exists f. split; auto. apply Hin; left; auto. }
        { intros x Hx'. apply Hx; [auto|left; auto]. }
        change (go (f :: l) n) with (let '(y, n1) := csv_transform f n in let '(ys, n2) := go l n1 in (match y with Some y => y | None => EErr end :: ys, n2)).
        destruct (csv_transform f n) as [y n1]. cbn [fst snd] in G1, G3, G5. subst y.
        destruct (IHl n1) as (L1 & L2 & L3 & L4); [intros f' Hf'; apply Hin; right; auto| |].
        { intros x Hx' f' Hf'. apply Hx; [|right; auto]. apply (from_mono _ _ _ G3). exact Hx'. }
        destruct (go l n1) as [ys n2]. cbn [fst snd] in *. split; [lia|]. split; auto. split.
        - constructor; auto. clear - L3 G3. induction L3; constructor; auto. apply (ceq_sub k protos dom tv ov (from n1)); auto. intros z. apply from_mono. exact G3.
        - intros x Hx'. cbn [flat_map] in *. rewrite ixs_app in *. rewrite in_app_iff in Hx'. rewrite in_app_iff. destruct Hx' as [Q|Q].
          + destruct (G5 x Q) as [Q'|[Q1 Q2]]; auto. right. split; auto. intros Q'. apply Q2. apply (from_mono _ _ _ L1). exact Q'.
          + destruct (L4 x Q) as [Q'|[Q1 Q2]]; auto. right. split; auto. apply (from_mono _ _ _ G3). exact Q1. }
      destruct (M ss n (fun f H => H) Hfs) as (M1 & M2 & M3 & M4).
      destruct (sum_ceq k ksub RT EQ protos dom tv ov (from n) ci ss _ M2 M3) as (S1 & S2).
      eexists. cbn [fst snd]. split; [reflexivity|]. split; [exact S1|]. split; auto. split; auto. intros x Hx. apply M4.
      destruct (mk_sum_ok k ksub RT EQ a (fun _ => eq_refl) _ M2) as (_ & _ & S3). apply (ixs_incl k protos _ _ S3). exact Hx.
    - destruct Hok.
  Qed.

  (** An overlap with two slots with protoindices. *)
  Lemma csv_overlap s p q : In o labels -> orthonormal = true -> protos p <> [] -> protos q <> [] ->
    let d := if ordinal_less p q then drop p else drop q in
    protos d = [] -> dom d = D -> ~ In d (indices (Ten o s [p] [q] [])) ->
    forall n, exists e', csv_transform (EAtom (Ten o s [p] [q] [])) n = (Some e', n) /\ ok e' /\ ceq (fun x => x = d) (EAtom (Ten o s [p] [q] [])) e'.
  Proof.
    intros Hl Ho Hp Hq d Hd Dd Nd n. subst orthonormal. specialize (OV eq_refl). cbn [Df_Model.csv_transform].
    assert (El : existsb (Nat.eqb o) labels = true) by (apply existsb_exists; exists o; split; auto; apply Nat.eqb_refl).
    rewrite El. cbn [negb].
    assert (P1 : has_protos p = true) by (unfold Df_Model.has_protos; destruct (protos p); cbn; congruence).
    assert (P2 : has_protos q = true) by (unfold Df_Model.has_protos; destruct (protos q); cbn; congruence).
    unfold Df_Model.csv_tensor. cbn [existsb app]. rewrite P1. cbn [orb negb andb]. rewrite Nat.eqb_refl, P2. cbn [andb]. fold d.
    destruct (mk_prod_atoms [Ten c Nonsymm [p] [d] []; Ten c Nonsymm [d] [q] []]) as (M1 & M2 & M3). cbn [map] in *.
    eexists. split; [reflexivity|]. split; [exact M1|].
    apply (leaf_ceq k ksub RT protos dom tv ov _ [d] _ _ [(k1 k, [Ten c Nonsymm [p] [d] []; Ten c Nonsymm [d] [q] []])]).
    - repeat constructor; auto.
    - intros y [<-|[]]; auto.
    - intros y [<-|[]]; auto.
    - intros F. rewrite M2. unfold Df_Poly.lin. cbn [map Bin_Spec.ksum fst snd]. ring.
    - intros t [<-|[]] y. unfold Df_Proofs.ixs, Df_Spec.indices. cbn [flat_map snd slots app]. rewrite Hd, !app_nil_r. cbn [app]. repeat (rewrite ?in_app_iff; cbn [In app]). tauto.
    - intros r. unfold Df_Poly.lin. cbn [map Bin_Spec.ksum fst snd Bin_Spec.sum_over]. rewrite Dd.
      match goal with |- _ = (1 * ?X + _)%k => transitivity X; [|ring] end. cbn [Df_Spec.leaf_value map].
      destruct (OV s (r p) (map r (protos p)) (r q) (map r (protos q))) as (O1 & _ & _).
      etransitivity; [exact (O1 (fun Q => Hp (map_eq_nil _ _ Q)) (fun Q => Hq (map_eq_nil _ _ Q)))|]. unfold total. apply ksum_ext. intros v _.
      unfold Df_Proofs.pr. cbn [map kprod Df_Spec.leaf_value].
      assert (Sd : slot (set r d v) d = [v]) by (unfold slot_value; rewrite Hd; cbn; unfold set; now rewrite Nat.eqb_refl).
      assert (Sx : forall i, In i [p; q] -> slot (set r d v) i = slot r i).
      { intros i Hi. apply slot_agree. intros y Hy. unfold set. destruct (Nat.eqb_spec y d) as [->|]; auto. exfalso. apply Nd. apply in_flat_map. exists i. split; auto. }
      rewrite Sd, !Sx by (cbn; tauto). unfold slot_value. ring.
  Qed.

  (** *** No slot with protoindices remains *)
  Definition plain (y : At) : Prop := match y with Ten l _ bra ket _ => In l labels -> forall i, In i (bra ++ ket) -> protos i = [] | _ => True end.
  Hypothesis Hc : ~ In c labels.

  Lemma csv_leaf_plain l s bra ket ax n e' : expandable protos orthonormal o labels (Ten l s bra ket ax) ->
    fst (csv_transform (EAtom (Ten l s bra ket ax)) n) = Some e' -> forall y, In y (leaves e') -> plain y.
  Proof.
    intros He. cbn [Df_Model.csv_transform].
    destruct (existsb (Nat.eqb l) labels) eqn:El; cbn [negb].
    2:{ intros H; inversion H; subst. intros y [<-|[]] Hl. exfalso. rewrite <- not_true_iff_false in El. apply El. apply existsb_exists. exists l. split; auto. apply Nat.eqb_refl. }
    assert (Hl : In l labels) by (apply existsb_exists in El as (y & Hy & Q); apply Nat.eqb_eq in Q; subst; auto).
    destruct (existsb has_protos (bra ++ ket ++ ax)) eqn:Eh; cbn [negb].
    2:{ intros H; inversion H; subst. intros y [<-|[]] _ i Hi. apply has_protos_false. rewrite <- not_true_iff_false in Eh |- *. intros Q. apply Eh. apply existsb_exists. exists i. split; auto.
      rewrite app_assoc, in_app_iff. auto. }
    destruct (He Hl) as (Hax & Ho).
    assert (Hax' : existsb has_protos ax = false) by (apply existsb_false; intros i Hi; unfold Df_Model.has_protos; rewrite Hax; auto).
    rewrite !existsb_app, Hax', orb_false_r in Eh. unfold Df_Model.csv_tensor. rewrite existsb_app, Eh, Hax'. cbn [negb].
    destruct (orthonormal && Nat.eqb l o) eqn:Eo.
    - apply andb_true_iff in Eo as [Eo Q]. apply Nat.eqb_eq in Q. subst l. destruct (Ho Eo eq_refl) as (p & q & -> & -> & -> & Hpq).
      assert (Hb : has_protos p && has_protos q = false).
      { unfold Df_Model.has_protos. destruct Hpq as [-> | ->]; cbn; auto. apply andb_false_r. }
      rewrite Hb. destruct (mk_prod_atoms [Ten c Nonsymm [p] [q] []]) as (M1 & M2 & M3). cbn [map fst] in *.
      intros H; inversion H; subst. intros y Hy. apply M3 in Hy as [<-|[]]. intros Q. tauto.
    - pose proof (csv_slots_plain (csv_bra c) bra n) as P1. pose proof (csv_slots_coeff (csv_bra c) bra n) as C1.
      destruct (csv_slots protos tmp (csv_bra c) n bra) as [[rbra cb] n1].
      pose proof (csv_slots_plain (csv_ket c) ket n1) as P2. pose proof (csv_slots_coeff (csv_ket c) ket n1) as C2.
      destruct (csv_slots protos tmp (csv_ket c) n1 ket) as [[rket ck] n2]. cbn [fst]. intros H; inversion H as [H']; clear H H'.
      intros y Hy. destruct (cprod_ok (cb ++ ck)) as (_ & _ & F3).
      assert (Q : In y (Ten l s rbra rket ax :: flat_map leaves (snd (cprod (cb ++ ck))))) by exact Hy. rewrite F3 in Q.
      destruct Q as [<-|Q].
      + intros _ i Hi. apply in_app_iff in Hi as [Hi|Hi]; auto.
      + apply in_flat_map in Q as (x & Hx & Q). apply in_map_iff in Hx as (x' & <- & Hx). destruct Q as [<-|[]].
        apply in_app_iff in Hx as [Hx|Hx]; [destruct (C1 _ Hx) as (i & m & ->)|destruct (C2 _ Hx) as (i & m & ->)]; intros Q; tauto.
  Qed.

  Lemma csv_plain e : ok e -> Forall (expandable protos orthonormal o labels) (leaves e) -> (forall n, ~ In (tmp n) (eixs e)) ->
    forall n e', fst (csv_transform e n) = Some e' -> forall y, In y (leaves e') -> plain y.
  Proof.
    induction e as [y|x|kd s fs IH|ci ss IH|] using expr_ind'; intros Hok Hex Hf n e' He.
    - inversion He. intros ? [].
    - destruct x as [l s bra ket ax|m ix].
      + apply (csv_leaf_plain l s bra ket ax n); auto. inversion Hex; auto.
      + inversion He; subst. intros y [<-|[]]. exact I.
    - apply ok_prod in Hok. rewrite Forall_forall in IH, Hok, Hex.
      assert (Hsub : forall f, In f fs -> Forall (expandable protos orthonormal o labels) (leaves f) /\ forall n, ~ In (tmp n) (eixs f)).
      { intros f Hin. split; [apply Forall_forall; intros y Hy; apply Hex; cbn; apply in_flat_map; eauto|].
        intros m Q. apply (Hf m). apply in_flat_map in Q as (y & Hy & Q). apply in_flat_map. exists y. split; auto. cbn. apply in_flat_map. eauto. }
      set (step := fun n f => let '(g, n') := csv_transform f n in (match g with Some g => g | None => f end, FNo, n')) in *.
      assert (St : forall st f, In f fs -> fst (csv_transform f st) = Some (fst (fst (step st f))) /\ ok (fst (fst (step st f)))).
      { intros st f Hin. destruct (Hsub f Hin) as [S1 S2]. destruct (csv_ok f (Hok f Hin) S1 st) as (e2 & G1 & G2 & _).
        - intros x (m & _ & ->). apply S2.
        - unfold step. destruct (csv_transform f st) as [g n']. cbn [fst] in *. subst g. split; auto. }
      change (Some (fst (built k (build k step n fs (scale k a s (k1 k, []))))) = Some e') in He. inversion He as [He']. clear He.
      intros y Hy. cbn [built fst Df_Spec.leaves] in Hy.
      destruct (build_leaves k ksub RT EQ step fs (fun st f Hin => proj2 (St st f Hin)) n (scale k a s (k1 k, [])) (Forall_nil _) y Hy) as [[]|(st & f & Hin & Q)].
      apply (IH f Hin (Hok f Hin) (proj1 (Hsub f Hin)) (proj2 (Hsub f Hin)) st _ (proj1 (St st f Hin)) y Q).
    - apply ok_sum in Hok as [_ Hok]. rewrite Forall_forall in IH, Hok, Hex.
      assert (Hsub : forall f, In f ss -> Forall (expandable protos orthonormal o labels) (leaves f) /\ forall n, ~ In (tmp n) (eixs f)).
      { intros f Hin. split; [apply Forall_forall; intros y Hy; apply Hex; cbn; apply in_flat_map; eauto|].
        intros m Q. apply (Hf m). apply in_flat_map in Q as (y & Hy & Q). apply in_flat_map. exists y. split; auto. cbn. apply in_flat_map. eauto. }
      change (Some (mk_sum k a (fst (go ss n))) = Some e') in He. inversion He as [He']. clear He.
      assert (M : forall l n, (forall f, In f l -> In f ss) -> Forall ok (fst (go l n)) /\ forall y, In y (flat_map leaves (fst (go l n))) -> plain y).
      { clear n He'. induction l as [|f l IHl]; intros n Hin; [cbn; split; [constructor|intros y []]|].
        destruct (Hsub f (Hin f (or_introl eq_refl))) as [S1 S2]. pose proof (Hok f (Hin f (or_introl eq_refl))) as S3.
        destruct (csv_ok f S3 S1 n) as (e2 & G1 & G2 & _); [intros x (m & _ & ->); apply S2|].
        pose proof (IH f (Hin f (or_introl eq_refl)) S3 S1 S2 n e2 G1) as G3.
        change (go (f :: l) n) with (let '(y, n1) := csv_transform f n in let '(ys, n2) := go l n1 in (match y with Some y => y | None => EErr end :: ys, n2)).
        destruct (csv_transform f n) as [y n1]. cbn [fst] in G1. subst y.
        destruct (IHl n1 (fun f' Hf' => Hin f' (or_intror Hf'))) as (L1 & L2). destruct (go l n1) as [ys n2]. cbn [fst flat_map] in *. split; auto.
        intros y Hy. apply in_app_iff in Hy as [Hy|Hy]; auto. }
      destruct (M ss n (fun f H => H)) as (M1 & M2). destruct (mk_sum_ok k ksub RT EQ a (fun _ => eq_refl) _ M1) as (_ & _ & M3).
      intros y Hy. apply M2, M3. exact Hy.
    - destruct Hok.
  Qed.
End Csv.
