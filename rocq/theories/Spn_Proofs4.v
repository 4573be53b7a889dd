(** The expansion of the permutation operators keeps the value. *)
From Coq Require Import ZArith QArith Qcanon List Arith Bool Permutation Sorted Factorial Lia Ring.
From Verif Require Import Alg_Model Alg_Spec Alg_Proofs1 Alg_Proofs2 Spn_Model Spn_Spec Spn_Proofs1 Spn_Proofs2 Spn_Proofs3.
Import ListNotations.
Local Open Scope nat_scope.


Lemma map_combine_len {X} (l m : list X) : Permutation l m -> length l = length m.
Proof. apply Permutation_length. Qed.

Lemma rename_factor_ext f g x : (forall i, f i = g i) -> rename_factor f x = rename_factor g x.
Proof.
  intros H. destruct x as [t|v]; cbn; auto. f_equal. unfold rename_tensor.
  rewrite (map_ext f g H (t_bra t)), (map_ext f g H (t_ket t)), (map_ext f g H (t_aux t)). reflexivity.
Qed.
Lemma rename_factor_id f x : (forall i, f i = i) -> rename_factor f x = x.
Proof.
  intros H. destruct x as [t|v]; cbn; auto. f_equal. unfold rename_tensor.
  assert (E : forall l, map f l = l) by (intros l; rewrite <- (map_id l) at 2; apply map_ext; auto).
  rewrite !E. destruct t; reflexivity.
Qed.
Lemma image_id l i : image l l i = i.
Proof.
  unfold image. destruct (find _ _) as [p|] eqn:E; auto. apply find_some in E. destruct E as (H1 & H2). apply index_eqb_eq in H2. subst.
  revert H1. induction l as [|x l IH]; intros H1; [destruct H1|]. cbn in H1. destruct H1 as [<-|H1]; auto.
Qed.
Lemma image_notin l q i : ~ In i l -> image l q i = i.
Proof.
  intros H. rewrite <- lookup_image. apply lookup_notin. intros H'. apply H. clear H.
  revert q H'. induction l as [|x l IH]; intros [|y q] H; cbn in *; try tauto. destruct H; eauto.
Qed.
Lemma image_map l : NoDup l -> forall q, length l = length q -> map (image l q) l = q.
Proof.
  intros N q L. assert (G : forall l' q', incl l' l -> length l' = length q' -> (forall k v, In (k, v) (combine l' q') -> In (k, v) (combine l q)) -> map (image l q) l' = q').
  { induction l' as [|x l' IH]; intros [|y q'] I L' H; cbn in L'; try discriminate; auto. cbn [map]. f_equal.
    - rewrite <- lookup_image. apply lookup_In; [rewrite combine_fst; auto|]. apply H. left. auto.
    - apply IH; [intros z Hz; apply I; right; auto|lia|]. intros k v Hkv. apply H. right. auto. }
  apply G; auto. apply incl_refl.
Qed.
Lemma image_In l q i : NoDup l -> Permutation l q -> In (image l q i) l <-> In i l.
Proof.
  intros N P. rewrite <- lookup_image. pose proof (Permutation_length P) as L.
  destruct (in_dec (fun x y => ltac:(destruct (index_eqb x y) eqn:E; [left; apply index_eqb_eq; auto|right; intros ->; rewrite index_eqb_refl in E; discriminate]) : {x = y} + {x <> y}) i l) as [H|H].
  - split; auto. intros _. rewrite <- (combine_fst l q L) in H. apply in_map_iff in H. destruct H as ((k & v) & E & H). cbn in E. subst k.
    assert (Nk : NoDup (map fst (combine l q))) by (rewrite combine_fst; auto).
    rewrite (lookup_In _ Nk _ _ H). apply in_combine_r in H. eapply Permutation_in; [apply Permutation_sym|]; eauto.
  - rewrite lookup_notin; [tauto|]. rewrite combine_fst; auto.
Qed.

Lemma image_fun b (f : index -> index) i : In i b -> image b (map f b) i = f i.
Proof.
  intros Hi. rewrite <- lookup_image. induction b as [|x b IH]; [destruct Hi|]. cbn. destruct (index_eqb i x) eqn:Ex.
  - apply index_eqb_eq in Ex. subst. auto.
  - apply IH. destruct Hi as [->|Hi]; auto. rewrite index_eqb_refl in Ex. discriminate.
Qed.

Section Expand.
  Variable lt : index -> index -> bool.
  Hypothesis TO : total_order lt.
  Context {K : qalg} {V : Type}.
  Variable T : nat -> list V -> list V -> list V -> K.
  Variable vars : nat -> K.
  Add Ring Kring6 : (qring K).

  Lemma pick_pickg l ps : pick l ps = pickg (0, any) l ps. Proof. reflexivity. Qed.

  Lemma A_maps_ok A : NoDup (t_bra A ++ t_ket A) ->
    exists Qb Qk, all_perms_of (t_bra A) Qb /\ all_perms_of (t_ket A) Qk /\
      A_maps lt A = Some (flat_map (fun r => map (fun q => map_of lt (combine (t_bra A ++ t_ket A) (q ++ r))) Qb) Qk).
  Proof.
    intros N. destruct (NoDup_parts _ _ N) as (N1 & N2 & _). unfold A_maps.
    destruct (iota_loop (length (t_bra A))) as (Q1 & -> & H1). destruct (iota_loop (length (t_ket A))) as (Q2 & -> & H2).
    exists (map (pick (t_bra A)) Q1), (map (pick (t_ket A)) Q2).
    split; [apply (pickg_perms (0, any)); auto|]. split; [apply (pickg_perms (0, any)); auto|]. f_equal.
    assert (L1 : forall ps, In ps Q1 -> length ps = length (t_bra A)).
    { intros ps H. apply H1 in H. apply Permutation_length in H. rewrite seq_length in H. auto. }
    rewrite (flat_map_concat_map _ (map _ Q2)), map_map, <- flat_map_concat_map.
    rewrite !flat_map_concat_map. f_equal. apply map_ext_in. intros pk _. rewrite map_map. apply map_ext_in. intros pb Hb.
    rewrite combine_app; auto. unfold pick. rewrite map_length, (L1 pb Hb). reflexivity.
  Qed.

  Definition renamed (A : tensor) (q r : list index) (fs : list factor) : list factor :=
    map (rename_factor (image (t_bra A ++ t_ket A) (q ++ r))) (nonops fs).

  Lemma expand_A_ok tm A : filter is_operator (factors tm) = [Ten A] -> t_label A = L_A -> NoDup (t_bra A ++ t_ket A) ->
    exists e, expand_A_term lt tm = Some e /\
      (forall tm', In tm' e -> exists q r, Permutation (t_bra A) q /\ Permutation (t_ket A) r /\ factors tm' = renamed A q r (factors tm)) /\
      forall a : index -> V, expr_value T vars e a = term_value T vars tm a.
  Proof.
    intros Hop EA N. unfold expand_A_term.
    rewrite (find_only L_A A (factors tm) Hop EA) by discriminate.
    assert (Rm : factors (remove_tensor L_A tm) = nonops (factors tm)) by (apply (remove_only L_A A); auto).
    destruct (Nat.leb (length (t_bra A)) 1 && Nat.leb (length (t_ket A)) 1) eqn:Er.
    - apply andb_true_iff in Er. rewrite !Nat.leb_le in Er. destruct Er as (Rb & Rk).
      eexists. split; [reflexivity|]. split.
      + intros tm' [<-|[]]. exists (t_bra A), (t_ket A). split; auto. split; auto. rewrite Rm. unfold renamed.
        rewrite <- (map_id (nonops (factors tm))) at 1. apply map_ext. intros x. symmetry. apply rename_factor_id. intros; apply image_id.
      + intros a.
        unfold expr_value, sum. cbn [fold_right].
        unfold term_value. rewrite Rm. cbn [scalar remove_tensor].
        rewrite (ops_none _ _ (nonops_nonops _)), (ops_one _ _ _ Hop). unfold nonops. rewrite PV_nonops.
        cbn [apply_operator]. rewrite EA. unfold antisymmetrizer.
        assert (S1 : forall l : list index, length l <= 1 -> signed_perms l = [(false, l)]) by (intros [|x [|]]; cbn; intros; auto; lia).
        rewrite !S1 by auto. unfold sum. cbn [fold_right fst snd sgn].
        rewrite (PV_ext T vars (factors tm) _ a (reassign_short _ _ a)).
        assert (O1 : forall n, n <= 1 -> over_fact n = 1%Qc) by (intros [|[|]]; intros; [reflexivity..|lia]).
        rewrite !O1 by auto. rewrite rat_mul, rat_1. ring.
    - destruct (A_maps_ok A N) as (Qb & Qk & Hb & Hk & ->).
      pose proof (NoDup_parts _ _ N) as (N1 & N2 & _).
      assert (Pm : forall q r, In q Qb -> In r Qk -> Permutation (t_bra A ++ t_ket A) (q ++ r)).
      { intros q r H1 H2. apply Permutation_app; [apply Hb|apply Hk]; auto. }
      set (g := fun m q r => Term (scalar tm * (sgnQ (xorb (sg lt (t_bra A) q) (sg lt (t_ket A) r)) * (inv_fact (length (t_bra A)) * inv_fact (length (t_ket A)))))%Qc
                    (factors (rename_term (lookup m) (remove_tensor L_A tm)))).
      assert (G : mapM (fun m => option_map (fun ph =>
                let tm' := rename_term (lookup m) (remove_tensor L_A tm) in
                Term (scalar tm * (sgnQ ph * (inv_fact (length (t_bra A)) * inv_fact (length (t_ket A)))))%Qc (factors tm'))
                (map_phase lt m)) (flat_map (fun r => map (fun q => map_of lt (combine (t_bra A ++ t_ket A) (q ++ r))) Qb) Qk)
              = Some (flat_map (fun r => map (fun q => g (map_of lt (combine (t_bra A ++ t_ket A) (q ++ r))) q r) Qb) Qk)).
      { assert (Hin : incl Qk Qk) by apply incl_refl. revert Hin. generalize Qk at 1 3 4 as l. induction l as [|r l IH]; intros Hin; [reflexivity|].
        cbn [flat_map].
        assert (Happ : forall {X Y} (f : X -> option Y) l1 l2 m1 m2, mapM f l1 = Some m1 -> mapM f l2 = Some m2 -> mapM f (l1 ++ l2) = Some (m1 ++ m2)).
        { clear. intros X Y f l1. induction l1 as [|x l1 IH]; intros l2 m1 m2 H1 H2; cbn in *; [injection H1 as <-; auto|].
          destruct (f x) as [y|]; [|discriminate]. destruct (mapM f l1) as [ys|] eqn:E; [|discriminate]. injection H1 as <-.
          rewrite (IH l2 ys m2); auto. }
        apply Happ; [|apply IH; intros z Hz; apply Hin; right; auto].
        assert (Hq : incl Qb Qb) by apply incl_refl. revert Hq. generalize Qb at 1 3 4 as l0. induction l0 as [|q l0 IHq]; intros Hq; [reflexivity|].
        cbn [map mapM]. rewrite (map_phase_ok lt TO); auto; [|apply Pm; [apply Hq|apply Hin]; left; auto].
        rewrite IHq by (intros z Hz; apply Hq; right; auto). cbn [option_map]. unfold g at 2.
        fold (sg lt (t_bra A ++ t_ket A) (q ++ r)). rewrite (sg_app lt TO); auto; [apply Hb; apply Hq; left; auto|apply Hk; apply Hin; left; auto]. }
      cbv zeta in G. rewrite G. clear G. eexists. split; [reflexivity|].
      assert (Lk : forall q r, In q Qb -> In r Qk -> forall i, lookup (map_of lt (combine (t_bra A ++ t_ket A) (q ++ r))) i = image (t_bra A ++ t_ket A) (q ++ r) i).
      { intros q r H1 H2 i. rewrite lookup_map_of; auto; [apply lookup_image|].
        rewrite combine_fst; auto. apply Permutation_length. auto. }
      split.
      + intros tm' H. apply in_flat_map in H. destruct H as (r & Hr & H). apply in_map_iff in H. destruct H as (q & <- & Hq).
        exists q, r. split; [apply Hb; auto|]. split; [apply Hk; auto|]. unfold g. cbn [factors rename_term]. rewrite Rm. unfold renamed.
        apply map_ext. intros x. apply rename_factor_ext. apply Lk; auto.
      + intros a.
        unfold expr_value. rewrite sum_flat_map.
        unfold term_value at 2. rewrite (ops_one _ _ _ Hop). cbn [apply_operator]. rewrite EA. unfold antisymmetrizer.
        rewrite (signed_sum_gen lt TO (t_bra A) Qb (fun s q => sum (fun sr : bool * list index => (sgn s * sgn (fst sr) * product_value T vars (factors tm) (reassign (t_bra A ++ t_ket A) (q ++ snd sr) a))%q) (signed_perms (t_ket A))) N1 Hb).
        rewrite (sum_ext (fun q => sum (fun sr : bool * list index => (sgn (sg lt (t_bra A) q) * sgn (fst sr) * product_value T vars (factors tm) (reassign (t_bra A ++ t_ket A) (q ++ snd sr) a))%q) (signed_perms (t_ket A))) (fun q => sum (fun r => (sgn (sg lt (t_bra A) q) * sgn (sg lt (t_ket A) r) * product_value T vars (factors tm) (reassign (t_bra A ++ t_ket A) (q ++ r) a))%q) Qk)).
        2:{ intros q Hq. apply (signed_sum_gen lt TO (t_ket A) Qk (fun s r => (sgn (sg lt (t_bra A) q) * sgn s * product_value T vars (factors tm) (reassign (t_bra A ++ t_ket A) (q ++ r) a))%q) N2 Hk). }
        rewrite sum_swap, <- sum_mul_l, <- sum_mul_l. apply sum_ext. intros r Hr. rewrite sum_map, <- sum_mul_l, <- sum_mul_l. apply sum_ext. intros q Hq.
        unfold g. rewrite term_value_plain.
        2:{ cbn [factors rename_term]. rewrite Rm. apply rename_nonops, nonops_nonops. }
        cbn [factors rename_term]. rewrite Rm, PV_rename. unfold nonops. rewrite PV_nonops.
        rewrite (PV_ext T vars (factors tm) _ (reassign (t_bra A ++ t_ket A) (q ++ r) a)) by (intros i; unfold reassign; rewrite Lk; auto).
        rewrite !rat_mul, rat_sgn, sgn_xorb, !inv_over. ring.
  Qed.

  (** The symmetrizer form. *)
  Lemma maps_from_list_ok l : NoDup l -> exists Q, all_perms_of l Q /\ maps_from_list lt l = Some (map (fun q => map_of lt (combine l q)) Q).
  Proof.
    intros N. unfold maps_from_list. destruct (iota_loop (length l)) as (Q & -> & H). exists (map (pick l) Q).
    split; [apply (pickg_perms (0, any)); auto|]. cbn. f_equal. rewrite map_map. reflexivity.
  Qed.

  Definition half_renamed (A : tensor) (q : list index) (fs : list factor) : list factor :=
    map (rename_factor (image (t_bra A) q)) (nonops fs).

  Lemma image_app_l b k q r i : NoDup (b ++ k) -> length b = length q -> In i b -> image (b ++ k) (q ++ r) i = image b q i.
  Proof.
    intros N L H. rewrite <- !lookup_image, combine_app by auto. clear N. revert q L H. induction b as [|x b IH]; intros [|y q] L H; cbn in L; try discriminate; [destruct H|].
    cbn. destruct (index_eqb i x) eqn:E; auto. destruct H as [->|H]; [rewrite index_eqb_refl in E; discriminate|]. apply IH; auto.
  Qed.
  Lemma image_app_r b k q r i : length b = length q -> ~ In i b -> image (b ++ k) (q ++ r) i = image k r i.
  Proof.
    intros L H. rewrite <- !lookup_image, combine_app by auto. revert q L. induction b as [|x b IH]; intros [|y q] L; cbn in L; try discriminate; auto.
    cbn. rewrite index_eqb_neq by (intros ->; apply H; left; auto). apply IH; auto. intros H'. apply H. right. auto.
  Qed.

  (** The two forms of the antisymmetrizer. *)
  Lemma antisymmetrizer_split b k (F : (index -> V) -> K) Q (a : index -> V) :
    (forall a1 a2, (forall i, a1 i = a2 i) -> F a1 = F a2) ->
    NoDup (b ++ k) -> length b = length k -> all_perms_of b Q ->
    (sum (fun q => rat (over_fact (length k)) * sgn (sg lt b q) * symmetrizer b k (fun a' => F (fun i => a' (image b q i))) a) Q
    = antisymmetrizer b k F a)%q.
  Proof.
    intros Fe N L HQ. destruct (NoDup_parts _ _ N) as (N1 & N2 & D).
    unfold symmetrizer, antisymmetrizer.
    set (H := fun l => F (reassign (b ++ k) l a)).
    (* the inner functions *)
    assert (E : forall s c q, In (s, c) (signed_perms (combine b k)) -> In q Q ->
       F (fun i => reassign (b ++ k) (map fst c ++ map snd c) a (image b q i)) = H (map (image b (map fst c)) q ++ map snd c)).
    { intros s c q Hc Hq. apply Fe. intros i. unfold reassign. f_equal.
      destruct (signed_perms_exchanges _ _ _ Hc) as (j & Ec & _). pose proof (exchanges_perm _ _ _ Ec) as Pc.
      pose proof (Permutation_map fst Pc) as P1. pose proof (Permutation_map snd Pc) as P2. rewrite combine_fst in P1 by auto. rewrite combine_snd in P2 by auto.
      apply HQ in Hq. assert (Lq : length b = length q) by (apply Permutation_length; auto).
      assert (L1 : length b = length (map fst c)) by (apply Permutation_length; auto).
      destruct (in_dec (fun x y => ltac:(destruct (index_eqb x y) eqn:E; [left; apply index_eqb_eq; auto|right; intros ->; rewrite index_eqb_refl in E; discriminate]) : {x = y} + {x <> y}) i b) as [Hi|Hi].
      - rewrite image_app_l by (auto; apply image_In; auto).
        rewrite (image_app_l b k (map (image b (map fst c)) q)) by (auto; rewrite map_length; auto).
        rewrite <- (image_map b N1 q Lq) at 2. rewrite map_map.
        symmetry. apply (image_fun b (fun x => image b (map fst c) (image b q x)) i Hi).
      - rewrite (image_notin b q i Hi). rewrite !image_app_r; auto. rewrite map_length. auto. }
    rewrite (sum_ext _ (fun q => rat (over_fact (length b) * over_fact (length k))%Qc *
      sum (fun sc : bool * list (index * index) => sgn (sg lt b q) * H (map (image b (map fst (snd sc))) q ++ map snd (snd sc))) (signed_perms (combine b k))))%q.
    2:{ intros q Hq. rewrite rat_mul, sum_mul_l.
        rewrite (sum_ext (fun sc : bool * list (index * index) => F (fun i => reassign (b ++ k) (map fst (snd sc) ++ map snd (snd sc)) a (image b q i)))
                         (fun sc : bool * list (index * index) => H (map (image b (map fst (snd sc))) q ++ map snd (snd sc)))).
        2:{ intros (s & c) Hc. cbn [snd]. eapply E; eauto. }
        ring. }
    rewrite sum_mul_l. f_equal. rewrite sum_swap.
    rewrite (sum_swap (fun sq sr : bool * list index => (sgn (fst sq) * sgn (fst sr) * F (reassign (b ++ k) (snd sq ++ snd sr) a))%q)).
    assert (Ek : forall G : bool * list index -> K, sum G (signed_perms k) = sum (fun sc : bool * list (index * index) => G (fst sc, map snd (snd sc))) (signed_perms (combine b k))).
    { intros G. rewrite <- (combine_snd b k L) at 1. rewrite signed_perms_map, sum_map. reflexivity. }
    rewrite Ek. cbn [fst snd].
    apply sum_ext. intros (s & c) Hc. cbn [fst snd].
    destruct (signed_perms_exchanges _ _ _ Hc) as (j & Ec & ->). pose proof (exchanges_perm _ _ _ Ec) as Pc.
    pose proof (Permutation_map fst Pc) as P1. rewrite combine_fst in P1 by auto.
    assert (L1 : length b = length (map fst c)) by (apply Permutation_length; auto).
    pose proof (exchanges_map fst _ _ _ Ec) as E1. rewrite combine_fst in E1 by auto.
    rewrite <- (signed_sum_gen lt TO b Q (fun s q => (sgn s * H (map (image b (map fst c)) q ++ map snd c))%q) N1 HQ).
    transitivity (sum (fun sq : bool * list index => sgn (fst sq) * H (snd sq ++ map snd c))%q (signed_perms (map fst c))).
    - assert (Eb : forall G : bool * list index -> K, sum G (signed_perms (map fst c)) = sum (fun sc : bool * list index => G (fst sc, map (image b (map fst c)) (snd sc))) (signed_perms b)).
      { intros G. rewrite <- (image_map b N1 (map fst c) L1) at 1. rewrite signed_perms_map, sum_map. reflexivity. }
      rewrite Eb. reflexivity.
    - rewrite (signed_sum_base lt TO b (map fst c) (fun l => H (l ++ map snd c)) N1 P1).
      rewrite (sg_exchanges lt TO j b _ N1 E1). rewrite <- sum_mul_l. apply sum_ext. intros (s & q) Hq. cbn [fst snd]. unfold H. ring.
  Qed.

  Lemma symmetrize_ok tm A : filter is_operator (factors tm) = [Ten A] -> t_label A = L_A -> NoDup (t_bra A ++ t_ket A) ->
    length (t_bra A) = length (t_ket A) -> 1 <= length (t_bra A) ->
    exists e, symmetrize_term lt tm = Some e /\
      ((length (t_bra A) = 1 /\ e = [Term (scalar tm) (nonops (factors tm))]) \/
       (1 < length (t_bra A) /\ forall tm', In tm' e -> exists q, Permutation (t_bra A) q /\
         factors tm' = Ten (Tensor L_S (t_bra A) (t_ket A) (t_aux A) Nonsymm) :: half_renamed A q (factors tm))) /\
      forall a : index -> V, expr_value T vars e a = term_value T vars tm a.
  Proof.
    intros Hop EA N L R. unfold symmetrize_term.
    rewrite (find_only L_A A (factors tm) Hop EA) by discriminate. rewrite <- L, Nat.eqb_refl. cbn [negb].
    assert (Rm : factors (remove_tensor L_A tm) = nonops (factors tm)) by (apply (remove_only L_A A); auto).
    destruct (Nat.eqb_spec (length (t_bra A)) 1) as [R1|R1].
    - destruct (expand_A_ok tm A Hop EA N) as (e & He & _ & Hv).
      unfold expand_A_term in He. rewrite (find_only L_A A (factors tm) Hop EA) in He by discriminate.
      rewrite <- L, R1 in He. cbn in He. injection He as <-. eexists. split; [reflexivity|]. split; auto. left. split; auto.
      rewrite <- Rm. reflexivity.
    - assert (R2 : 1 < length (t_bra A)) by lia. destruct (Nat.leb_spec (length (t_bra A)) 1); [lia|].
      destruct (NoDup_parts _ _ N) as (N1 & N2 & D).
      destruct (maps_from_list_ok (t_bra A) N1) as (Q & HQ & ->).
      set (Sy := Tensor L_S (t_bra A) (t_ket A) (t_aux A) Nonsymm).
      set (g := fun q => Term (scalar tm * inv_fact (length (t_bra A)) * sgnQ (sg lt (t_bra A) q))%Qc
                    (Ten Sy :: factors (rename_term (lookup (map_of lt (combine (t_bra A) q))) (remove_tensor L_A tm)))).
      assert (G : mapM (fun m => option_map (fun ph =>
                let tm' := rename_term (lookup m) (remove_tensor L_A tm) in
                Term (scalar tm * inv_fact (length (t_bra A)) * sgnQ ph)%Qc (Ten Sy :: factors tm')) (map_phase lt m)) (map (fun q => map_of lt (combine (t_bra A) q)) Q)
              = Some (map g Q)).
      { assert (Hin : incl Q Q) by apply incl_refl. revert Hin. generalize Q at 1 3 4 as l. induction l as [|q l IH]; intros Hin; [reflexivity|].
        cbn [map mapM]. rewrite (map_phase_ok lt TO); auto; [|apply HQ; apply Hin; left; auto].
        cbv zeta in IH |- *. rewrite IH by (intros z Hz; apply Hin; right; auto). reflexivity. }
      cbv zeta in G. cbv zeta. rewrite G. eexists. split; [reflexivity|].
      assert (Lk : forall q, In q Q -> forall i, lookup (map_of lt (combine (t_bra A) q)) i = image (t_bra A) q i).
      { intros q H1 i. rewrite lookup_map_of; auto; [apply lookup_image|]. rewrite combine_fst; auto. apply Permutation_length. apply HQ. auto. }
      split.
      + right. split; auto. intros tm' Hin. apply in_map_iff in Hin. destruct Hin as (q & <- & Hq). exists q. split; [apply HQ; auto|].
        unfold g. cbn [factors rename_term]. rewrite Rm. unfold half_renamed. f_equal. apply map_ext. intros x. apply rename_factor_ext. apply Lk. auto.
      + intros a.
        unfold expr_value. rewrite sum_map. unfold term_value at 2. rewrite (ops_one _ _ _ Hop). cbn [apply_operator]. rewrite EA.
        rewrite <- (antisymmetrizer_split (t_bra A) (t_ket A) (product_value T vars (factors tm)) Q a (PV_ext T vars (factors tm)) N L HQ).
        rewrite <- sum_mul_l. apply sum_ext. intros q Hq. unfold term_value, g. cbn [scalar factors fold_right rename_term].
        assert (Ops : filter is_operator (map (rename_factor (lookup (map_of lt (combine (t_bra A) q)))) (factors (remove_tensor L_A tm))) = [])
          by (rewrite Rm; apply rename_nonops, nonops_nonops).
        rewrite (ops_none _ _ Ops). cbn [apply_operator t_label t_bra t_ket Sy].
        rewrite !rat_mul, rat_sgn, inv_over, L.
        assert (Es : symmetrizer (t_bra A) (t_ket A) (product_value T vars (Ten Sy :: map (rename_factor (lookup (map_of lt (combine (t_bra A) q)))) (factors (remove_tensor L_A tm)))) a
                   = symmetrizer (t_bra A) (t_ket A) (fun a' => product_value T vars (factors tm) (fun i => a' (image (t_bra A) q i))) a).
        { unfold symmetrizer. f_equal. apply sum_ext. intros (s & c) _. cbn [snd].
          assert (Ec : forall fs a', product_value T vars (Ten Sy :: fs) a' = product_value T vars fs a')
            by (intros fs' a'; unfold product_value; rewrite prod_cons; cbn [factor_value t_label Sy]; ring).
          rewrite Ec.
          rewrite Rm, PV_rename. unfold nonops. rewrite PV_nonops. 
          rewrite (PV_ext T vars (factors tm) _ (fun i => reassign (t_bra A ++ t_ket A) (map fst c ++ map snd c) a (image (t_bra A) q i))) by (intros i; rewrite Lk; auto).
          reflexivity. }
        rewrite Es. ring.
  Qed.

  (** The symmetrizer. *)
  Lemma interleave_combine b k q r : length b = length k -> length q = length b -> length r = length k ->
    Permutation (combine (b ++ k) (q ++ r))
      (flat_map (fun bk => bk) (map (fun c : (index * index) * (index * index) => [fst c; snd c]) (combine (combine b q) (combine k r)))).
  Proof.
    intros L1 L2 L3. rewrite combine_app by auto. revert k q r L1 L2 L3.
    induction b as [|x b IH]; intros [|y k] [|u q] [|v r] L1 L2 L3; cbn in *; try discriminate; auto.
    apply perm_skip. eapply Permutation_trans; [apply Permutation_sym, Permutation_middle|]. apply perm_skip. apply IH; lia.
  Qed.
  Lemma combine_pick b k ps : length b = length k -> combine (pick b ps) (pick k ps) = pickg ((0, any), (0, any)) (combine b k) ps.
  Proof.
    intros L. unfold pick, pickg. induction ps as [|p ps IH]; cbn; auto. rewrite IH, combine_nth by auto. reflexivity.
  Qed.

  Lemma expand_S_ok tm Sy : filter is_operator (factors tm) = [Ten Sy] -> t_label Sy = L_S -> NoDup (t_bra Sy ++ t_ket Sy) ->
    length (t_bra Sy) = length (t_ket Sy) -> 1 < length (t_bra Sy) ->
    exists e, expand_S_term lt tm = Some e /\
      (forall tm', In tm' e -> filter is_operator (factors tm') = []) /\
      forall a : index -> V, expr_value T vars e a = term_value T vars tm a.
  Proof.
    intros Hop EA N L R. destruct (NoDup_parts _ _ N) as (N1 & N2 & D). unfold expand_S_term.
    rewrite (find_only L_S Sy (factors tm) Hop EA) by discriminate.
    assert (Rm : factors (remove_tensor L_S tm) = nonops (factors tm)) by (apply (remove_only L_S Sy); auto).
    unfold S_replacement_maps. rewrite (proj2 (Nat.ltb_lt _ _) R), <- L, Nat.eqb_refl. cbn [andb].
    destruct (iota_loop (length (t_bra Sy))) as (Q & -> & HQ). cbn [option_map].
    eexists. split; [reflexivity|]. split.
    - intros tm' H. apply in_map_iff in H. destruct H as (m & <- & _). cbn [factors rename_term]. rewrite Rm. apply rename_nonops, nonops_nonops.
    - intros a.
      unfold expr_value. rewrite !sum_map. unfold term_value at 2. rewrite (ops_one _ _ _ Hop). cbn [apply_operator]. rewrite EA. unfold symmetrizer.
      assert (Nc : NoDup (combine (t_bra Sy) (t_ket Sy))).
      { apply (NoDup_map_inv fst). rewrite combine_fst; auto. }
      assert (HQc : all_perms_of (combine (t_bra Sy) (t_ket Sy)) (map (pickg ((0, any), (0, any)) (combine (t_bra Sy) (t_ket Sy))) Q)).
      { apply pickg_perms; auto. rewrite combine_length, <- L, Nat.min_id. auto. }
      rewrite (unsigned_sum_any (combine (t_bra Sy) (t_ket Sy)) _ (fun c => product_value T vars (factors tm) (reassign (t_bra Sy ++ t_ket Sy) (map fst c ++ map snd c) a)) Nc HQc).
      rewrite sum_map, <- sum_mul_l, <- sum_mul_l. apply sum_ext. intros ps Hps.
      unfold rename_term. rewrite term_value_plain by (cbn [factors rename_term]; rewrite Rm; apply rename_nonops, nonops_nonops).
      cbn [factors rename_term scalar]. rewrite Rm, PV_rename. unfold nonops. rewrite PV_nonops.
      assert (Lp : length ps = length (t_bra Sy)) by (apply HQ in Hps; apply Permutation_length in Hps; rewrite seq_length in Hps; auto).
      rewrite <- combine_pick by auto. rewrite combine_fst, combine_snd by (unfold pick; rewrite !map_length; auto).
      rewrite (PV_ext T vars (factors tm) _ (reassign (t_bra Sy ++ t_ket Sy) (pick (t_bra Sy) ps ++ pick (t_ket Sy) ps) a)).
      + rewrite rat_mul, inv_over. ring.
      + intros i. unfold reassign. f_equal.
        pose proof (interleave_combine (t_bra Sy) (t_ket Sy) (pick (t_bra Sy) ps) (pick (t_ket Sy) ps) L ltac:(unfold pick; rewrite map_length; auto) ltac:(unfold pick; rewrite map_length; lia)) as P.
        assert (Nk : NoDup (map fst (combine (t_bra Sy ++ t_ket Sy) (pick (t_bra Sy) ps ++ pick (t_ket Sy) ps)))).
        { rewrite combine_fst; auto. unfold pick. rewrite !app_length, !map_length. lia. }
        rewrite lookup_map_of; auto; [|eapply Permutation_NoDup; [apply Permutation_map; exact P|auto]].
        rewrite <- (lookup_perm _ _ i Nk P). apply lookup_image.
  Qed.

  (** Transpositions. *)
  Lemma pairs_of_ok l : Nat.even (length l) = true -> pairs_of l = Some (combine l (exchange_pairs l)) /\ length (exchange_pairs l) = length l.
  Proof.
    assert (G : forall n l, length l <= n -> Nat.even (length l) = true -> pairs_of l = Some (combine l (exchange_pairs l)) /\ length (exchange_pairs l) = length l).
    { induction n as [|n IH]; intros [|i [|j m]] H E; cbn in H; try lia; auto; try discriminate.
      destruct (IH m ltac:(lia) E) as (H1 & H2). cbn. rewrite H1. cbn. split; [reflexivity|lia]. }
    apply (G (length l)); auto.
  Qed.
  Lemma exchange_pairs_app b k : Nat.even (length b) = true -> exchange_pairs (b ++ k) = exchange_pairs b ++ exchange_pairs k.
  Proof.
    assert (G : forall n b, length b <= n -> Nat.even (length b) = true -> exchange_pairs (b ++ k) = exchange_pairs b ++ exchange_pairs k).
    { induction n as [|n IH]; intros [|i [|j m]] H E; cbn in H; try lia; auto; try discriminate. cbn. rewrite IH; auto. lia. }
    apply (G (length b)); auto.
  Qed.
  Lemma P_scan_only P fs : filter is_operator fs = [Ten P] -> t_label P = L_P ->
    (1 < length (t_bra P) \/ 1 < length (t_ket P)) -> P_scan lt fs = option_map (fun m => ([m], false)) (P_map lt P).
  Proof.
    intros Hop EP R. revert Hop.
    assert (Hn : forall fs, filter is_operator fs = [] -> P_scan lt fs = Some ([], false)).
    { clear. induction fs as [|x fs IH]; cbn; auto. destruct x as [t|v]; cbn; auto. destruct (t_label t); try discriminate. cbn. auto. }
    induction fs as [|x fs IH]; cbn [filter P_scan]; [discriminate|]. destruct x as [t|v]; cbn [is_operator]; auto.
    destruct (t_label t) eqn:Et; cbn [label_eqb]; try (intros H; injection H as -> H; congruence).
    - intros H. injection H as -> H.
      assert (E : Nat.ltb 1 (length (t_bra P)) || Nat.ltb 1 (length (t_ket P)) = true) by (apply orb_true_iff; rewrite !Nat.ltb_lt; auto).
      rewrite E. rewrite (Hn fs H). destruct (P_map lt P); reflexivity.
    - exact IH.
  Qed.

  Lemma expand_P_ok tm P : filter is_operator (factors tm) = [Ten P] -> t_label P = L_P -> NoDup (t_bra P ++ t_ket P) ->
    Nat.even (length (t_bra P)) = true -> Nat.even (length (t_ket P)) = true -> (1 < length (t_bra P) \/ 1 < length (t_ket P)) ->
    exists e, expand_P_term lt tm = Some e /\
      (forall tm', In tm' e -> filter is_operator (factors tm') = []) /\
      forall a : index -> V, expr_value T vars e a = term_value T vars tm a.
  Proof.
    intros Hop EP N Eb Ek R. unfold expand_P_term. rewrite (P_scan_only P _ Hop EP R).
    assert (Rm : factors (remove_tensor L_P tm) = nonops (factors tm)) by (apply (remove_only L_P P); auto).
    unfold P_map. rewrite Eb, Ek. cbn [andb].
    destruct (pairs_of_ok (t_bra P ++ t_ket P)) as (-> & Ll); [rewrite app_length, Nat.even_add, Eb, Ek; reflexivity|].
    cbn [option_map]. eexists. split; [reflexivity|]. split.
    - intros tm' [<-|[]]. cbn [factors rename_term]. rewrite Rm. apply rename_nonops, nonops_nonops.
    - intros a.
      unfold expr_value, sum. cbn [map fold_right]. unfold term_value at 2. rewrite (ops_one _ _ _ Hop). cbn [apply_operator]. rewrite EP.
      unfold rename_term. rewrite term_value_plain by (cbn [factors rename_term]; rewrite Rm; apply rename_nonops, nonops_nonops).
      cbn [factors rename_term scalar]. rewrite Rm, PV_rename. unfold nonops. rewrite PV_nonops. unfold transposition.
      rewrite (PV_ext T vars (factors tm) _ (reassign (t_bra P ++ t_ket P) (exchange_pairs (t_bra P) ++ exchange_pairs (t_ket P)) a)); [cbn [remove_tensor scalar]; ring|].
      intros i. unfold reassign. f_equal. rewrite <- exchange_pairs_app by auto. rewrite lookup_map_of; auto; [apply lookup_image|].
      rewrite combine_fst; auto.
  Qed.
End Expand.
