(** Expansion of antisymmetric tensors. *)
From Coq Require Import ZArith QArith Qcanon List Arith Bool Permutation Sorted Factorial Lia Ring.
From Verif Require Import Alg_Model Alg_Spec Alg_Proofs1 Alg_Proofs2 Spn_Model Spn_Spec Spn_Proofs1.
Import ListNotations.
Local Open Scope nat_scope.

(** Exchange of two positions. *)
Definition sw {X} (n m : nat) (q : list X) : list X :=
  match skipn n q with
  | x :: t => match skipn m t with
              | y :: c => firstn n q ++ y :: firstn m t ++ x :: c
              | [] => q
              end
  | [] => q
  end.
Lemma skipn_exact {X} (l m : list X) : skipn (length l) (l ++ m) = m.
Proof. induction l; cbn; auto. Qed.
Lemma firstn_exact {X} (l m : list X) : firstn (length l) (l ++ m) = l.
Proof. induction l; cbn; congruence. Qed.
Lemma sw_app {X} (A B C : list X) x y : sw (length A) (length B) (A ++ x :: B ++ y :: C) = A ++ y :: B ++ x :: C.
Proof. unfold sw. rewrite skipn_exact, skipn_exact, !firstn_exact. reflexivity. Qed.
Lemma split_at {X} (q : list X) n m c : length q = n + S (m + S c) ->
  exists A x B y C, q = A ++ x :: B ++ y :: C /\ length A = n /\ length B = m /\ length C = c.
Proof.
  intros H. destruct (skipn n q) as [|x t] eqn:E.
  { apply (f_equal (@length X)) in E. rewrite skipn_length in E. cbn in E. lia. }
  assert (L : length (x :: t) = S (m + S c)) by (rewrite <- E, skipn_length; lia). cbn in L.
  destruct (skipn m t) as [|y C] eqn:E2.
  { apply (f_equal (@length X)) in E2. rewrite skipn_length in E2. cbn in E2. lia. }
  exists (firstn n q), x, (firstn m t), y, C.
  assert (L2 : length (y :: C) = S c) by (rewrite <- E2, skipn_length; lia). cbn in L2.
  split; [|rewrite !firstn_length; lia].
  rewrite <- (firstn_skipn n q) at 1. f_equal. rewrite E. f_equal. rewrite <- (firstn_skipn m t) at 1. f_equal. auto.
Qed.
Lemma sw_perm {X} n m c (q : list X) : length q = n + S (m + S c) -> exchanges 1 q (sw n m q) /\ sw n m (sw n m q) = q.
Proof.
  intros H. destruct (split_at q n m c H) as (A & x & B & y & C & -> & <- & <- & _).
  rewrite !sw_app. split; auto. apply ex_swap. constructor.
Qed.

Lemma combine_app {X Y} (l1 : list X) (m1 : list Y) l2 m2 : length l1 = length m1 ->
  combine (l1 ++ l2) (m1 ++ m2) = combine l1 m1 ++ combine l2 m2.
Proof. revert m1. induction l1; destruct m1; cbn; intros; try discriminate; auto. f_equal. auto. Qed.
Lemma combine_fst {X Y} (l : list X) : forall m : list Y, length l = length m -> map fst (combine l m) = l.
Proof. induction l; destruct m; cbn; intros; try discriminate; auto. f_equal. auto. Qed.
Lemma combine_snd {X Y} (l : list X) : forall m : list Y, length l = length m -> map snd (combine l m) = m.
Proof. induction l; destruct m; cbn; intros; try discriminate; auto. f_equal. auto. Qed.

Lemma perm_exchanges {X} (l m : list X) : Permutation l m -> exists k, exchanges k l m.
Proof.
  induction 1 as [|x l m P (k & E)|x y l|l m n P1 (k & E1) P2 (j & E2)].
  - exists 0. constructor.
  - exists k. pose proof (exchanges_ctx _ _ _ [x] [] E) as E'. cbn [app] in E'. rewrite !app_nil_r in E'. exact E'.
  - exists 1. apply (ex_swap 0 [] y [] x l). constructor.
  - exists (k + j). eapply exchanges_trans; eauto.
Qed.

Section Expand.
  Context {K : qalg} {V : Type}.
  Local Open Scope q_scope.
  Add Ring Kring3 : (qring K).
  Variable T : nat -> list V -> list V -> list V -> K.
  Hypothesis CS : column_symmetric T.
  Variable lt : index -> index -> bool.
  Hypothesis TO : total_order lt.

  Lemma sum_opp {X} (f : X -> K) l : sum (fun x => - f x) l = - sum f l.
  Proof. unfold sum. induction l; cbn; [ring|]. rewrite IHl. ring. Qed.

  Section One.
    Variable n : nat.
    Variable a : index -> V.
    Variable xs : list V.
    Definition Gs (Q : list (list index)) (k : list index) : K :=
      sum (fun q => sgn (Nat.odd (inversions lt q)) * T n (map a q) (map a k) xs) Q.

    Lemma T_exchange A B C x y q : length q = length (A ++ x :: B ++ y :: C) ->
      T n (map a q) (map a (A ++ y :: B ++ x :: C)) xs
      = T n (map a (sw (length A) (length B) q)) (map a (A ++ x :: B ++ y :: C)) xs.
    Proof.
      intros H. rewrite !app_length in H. cbn [length] in H. rewrite app_length in H. cbn [length] in H.
      destruct (split_at q _ _ _ H) as (A' & x' & B' & y' & C' & -> & LA & LB & LC).
      rewrite <- LA, <- LB, sw_app.
      assert (E : forall (u v : list index), length u = length v ->
                T n (map a u) (map a v) xs = T n (map fst (combine (map a u) (map a v))) (map snd (combine (map a u) (map a v))) xs).
      { intros u v L. rewrite combine_fst, combine_snd; auto; rewrite !map_length; auto. }
      rewrite E by (rewrite !app_length; cbn [length]; rewrite !app_length; cbn [length]; lia).
      rewrite (E (A' ++ y' :: B' ++ x' :: C')) by (rewrite !app_length; cbn [length]; rewrite !app_length; cbn [length]; lia).
      apply CS. repeat (rewrite ?map_app; cbn [map]).
      rewrite !combine_app by (rewrite !map_length; auto). cbn [combine].
      rewrite !combine_app by (rewrite !map_length; auto). cbn [combine].
      apply Permutation_app_head.
      eapply Permutation_trans; [apply perm_skip, Permutation_sym, Permutation_middle|].
      eapply Permutation_trans; [apply perm_swap|]. apply perm_skip, Permutation_middle.
    Qed.

    Lemma Gs_exchange b Q j k k' : NoDup b -> all_perms_of b Q -> length b = length k -> exchanges j k k' ->
      Gs Q k = sgn (Nat.odd j) * Gs Q k'.
    Proof.
      intros N (NQ & HQ) L E. revert L. induction E as [k|j A x B y C k' E IH]; intros L; [cbn; ring|].
      assert (L' : length b = length (A ++ y :: B ++ x :: C)) by (rewrite L, !app_length; cbn [length]; rewrite !app_length; reflexivity).
      specialize (IH L'). rewrite Nat.odd_succ, <- Nat.negb_odd, sgn_negb.
      transitivity (- Gs Q (A ++ y :: B ++ x :: C)); [|rewrite IH; ring]. clear IH.
      unfold Gs.
      assert (LQ : forall q, In q Q -> length q = length b) by (intros q H; apply HQ in H; apply Permutation_length in H; auto).
      assert (Sw : forall q, In q Q -> exchanges 1 q (sw (length A) (length B) q) /\ sw (length A) (length B) (sw (length A) (length B) q) = q).
      { intros q H. apply (sw_perm _ _ (length C)). rewrite (LQ q H), L, !app_length. cbn [length]. rewrite app_length. reflexivity. }
      rewrite (sum_ext (fun q => sgn (Nat.odd (inversions lt q)) * T n (map a q) (map a (A ++ y :: B ++ x :: C)) xs)
                       (fun q => (fun q' => - (sgn (Nat.odd (inversions lt q')) * T n (map a q') (map a (A ++ x :: B ++ y :: C)) xs))
                                   (sw (length A) (length B) q))).
      - rewrite <- (sum_map (fun q' => - (sgn (Nat.odd (inversions lt q')) * T n (map a q') (map a (A ++ x :: B ++ y :: C)) xs)) (sw (length A) (length B))).
        rewrite (sum_perm _ (map (sw (length A) (length B)) Q) Q).
        + rewrite sum_opp. ring.
        + apply NoDup_Permutation; auto.
          * clear - NQ Sw. induction NQ as [|q Q Hq NQ IH]; cbn; constructor; [|apply IH; intros; apply Sw; right; auto].
            intros H. apply in_map_iff in H. destruct H as (r & E & Hr).
            destruct (Sw q (or_introl eq_refl)) as (_ & E1). destruct (Sw r (or_intror Hr)) as (_ & E2). congruence.
          * intros q. rewrite in_map_iff. split.
            -- intros (r & <- & H). destruct (Sw r H) as (E1 & _). apply HQ. apply HQ in H.
               eapply Permutation_trans; [exact H|]. eapply exchanges_perm; eauto.
            -- intros H. destruct (Sw q H) as (E1 & E2). exists (sw (length A) (length B) q). split; auto.
               apply HQ. apply HQ in H. eapply Permutation_trans; [exact H|]. eapply exchanges_perm; eauto.
      - intros q H. cbn beta. rewrite T_exchange by (rewrite (LQ q H); auto).
        destruct (Sw q H) as (E1 & _). destruct TO as (irr & tr & tri).
        rewrite (exchanges_sign lt irr tr 1 q _ E1) by (try (apply HQ in H; eapply Permutation_NoDup; eauto); intros; apply tri).
        rewrite sgn_xorb. cbn [Nat.odd Nat.even negb sgn]. ring.
    Qed.

    Lemma antisymm_sorted b k Q : length b = length k -> NoDup b -> NoDup k -> all_perms_of b Q ->
      sum (fun sq : bool * list index => sgn (fst sq) * T n (map a (snd sq)) (map a k) xs) (signed_perms b)
      = sgn (xorb (Nat.odd (inversions lt b)) (Nat.odd (inversions lt k))) * Gs Q (set_of lt k).
    Proof.
      intros L N1 N2 HQ.
      rewrite (signed_sum_any lt b Q (fun q => T n (map a q) (map a k) xs)); auto; [|apply TO_on; auto].
      fold (Gs Q k). destruct (perm_exchanges k (set_of lt k) (set_of_perm lt TO k N2)) as (j & E).
      rewrite (Gs_exchange b Q j k _ N1 HQ L E), sgn_xorb.
      destruct TO as (irr & tr & tri).
      pose proof (exchanges_sign lt irr tr j k _ E N2 (fun x y _ _ => tri x y)) as Sg.
      rewrite (sorted_inversions lt (set_of lt k)) in Sg by (apply set_of_ok; auto).
      cbn [Nat.odd Nat.even negb] in Sg. assert (Ej : Nat.odd (inversions lt k) = Nat.odd j) by (destruct (Nat.odd (inversions lt k)), (Nat.odd j); auto; discriminate).
      rewrite Ej. ring.
    Qed.
  End One.

  (** What the expansion of a tensor consists of. *)
  Definition expands_to (skip : bool) (t t' : tensor) : Prop :=
    t_label t' = t_label t /\ t_aux t' = t_aux t /\
    Permutation (t_bra t) (t_bra t') /\ Permutation (t_ket t) (t_ket t') /\
    (length (t_bra t) <= 1 -> t_bra t' = t_bra t /\ t_ket t' = t_ket t /\ t_symm t' = Nonsymm) /\
    (1 < length (t_bra t) -> t_symm t <> Antisymm -> t' = t) /\
    (1 < length (t_bra t) -> t_symm t = Antisymm ->
       (t_symm t' = Nonsymm /\ ms_conserving_columns (t_bra t') (t_ket t') = true) \/
       (skip = true /\ t' = t /\ ms_uniform t = Some true)).

  Lemma expand_tensor_ok skip t :
    length (t_bra t) = length (t_ket t) -> NoDup (t_bra t) -> NoDup (t_ket t) ->
    exists s, expand_antisymm_tensor lt skip t = Some s /\
      (forall b t', In (b, t') s -> expands_to skip t t') /\
      forall n (a : index -> V),
        (forall q k, Permutation (t_bra t) q -> Permutation (t_ket t) k ->
           t_symm t = Antisymm -> ms_conserving_columns q k = false -> T n (map a q) (map a k) (map a (t_aux t)) = 0) ->
        sum (fun bt : bool * tensor => sgn (fst bt) * tensor_value T n (snd bt) a) s = tensor_value T n t a.
  Proof.
    intros L N1 N2. unfold expand_antisymm_tensor. rewrite L, Nat.eqb_refl. cbn [negb]. rewrite <- L.
    destruct (Nat.leb_spec (length (t_bra t)) 1) as [L1|L1].
    { eexists. split; [reflexivity|]. split.
      - intros b t' [E|[]]. injection E as <- <-. unfold expands_to. cbn.
        split; auto. split; auto. split; auto. split; auto. split; auto. split; lia.
      - intros n a _. unfold sum, sgn. cbn. unfold tensor_value. cbn. destruct (t_symm t); try ring.
        destruct (t_bra t) as [|i [|]]; cbn; try ring. cbn in L1. lia. }
    assert (U : exists u, (if skip then ms_uniform t else Some false) = Some u /\ (u = true -> skip = true /\ ms_uniform t = Some true)).
    { destruct skip; [|exists false; split; auto; discriminate]. unfold ms_uniform.
      destruct (t_bra t ++ t_ket t) eqn:E; [|eexists; split; [reflexivity|intros ->; auto]].
      destruct (t_bra t); cbn in *; [lia|discriminate]. }
    destruct U as (u & -> & Hu).
    assert (Same : (t_symm t <> Antisymm \/ u = true) -> exists s, Some [(false, t)] = Some s /\
      (forall b t', In (b, t') s -> expands_to skip t t') /\
      forall n (a : index -> V),
        (forall q k, Permutation (t_bra t) q -> Permutation (t_ket t) k -> t_symm t = Antisymm -> ms_conserving_columns q k = false -> T n (map a q) (map a k) (map a (t_aux t)) = 0) ->
        sum (fun bt : bool * tensor => sgn (fst bt) * tensor_value T n (snd bt) a) s = tensor_value T n t a).
    { intros H. eexists. split; [reflexivity|]. split.
      - intros b t' [E|[]]. injection E as <- <-. unfold expands_to.
        split; auto. split; auto. split; auto. split; auto. split; [lia|]. split; auto.
        intros _ Es. destruct H as [H|H]; [congruence|]. right. destruct (Hu H). auto.
      - intros n a _. unfold sum, sgn. cbn. ring. }
    destruct u; [apply Same; auto|].
    destruct (t_symm t) eqn:Es; [apply Same; left; discriminate..|]. clear Same Hu.
    rewrite (tensor_phase_ok lt TO).
    destruct (set_of_ok lt TO (t_bra t)) as (Sb & Nb & Hb). destruct (set_of_ok lt TO (t_ket t)) as (Sk & Nk & Hk).
    destruct (permutation_loop_all lt (set_of lt (t_bra t)) (TO_on lt TO _) Sb Nb) as (Q & -> & HQ).
    set (kl := set_of lt (t_ket t)) in *.
    set (pre := xorb (Nat.odd (inversions lt (t_bra t))) (Nat.odd (inversions lt (t_ket t)))).
    rewrite (concat_mapM_some _ (fun bl => if ms_conserving_columns bl kl
       then [(xorb (xorb (Nat.odd (inversions lt bl)) (Nat.odd (inversions lt kl))) pre, Tensor (t_label t) bl kl (t_aux t) Nonsymm)] else [])).
    2:{ intros bl _. destruct (ms_conserving_columns bl kl); auto. rewrite (tensor_phase_ok lt TO). reflexivity. }
    assert (HQb : all_perms_of (t_bra t) Q).
    { destruct HQ as (H1 & H2). split; auto. intros q. rewrite H2. pose proof (set_of_perm lt TO (t_bra t) N1) as P.
      split; intros H; [eapply Permutation_trans; eauto|eapply Permutation_trans; [apply Permutation_sym|]; eauto]. }
    assert (I0 : inversions lt kl = 0%nat) by (apply sorted_inversions; auto).
    eexists. split; [reflexivity|]. split.
    - intros b t' H. apply in_flat_map in H. destruct H as (bl & H1 & H2).
      destruct (ms_conserving_columns bl kl) eqn:Ec; [|destruct H2]. destruct H2 as [E|[]]. injection E as <- <-.
      unfold expands_to. cbn. split; auto. split; auto. split; [apply HQb; auto|]. split; [apply set_of_perm; auto|].
      split; [lia|]. split; [congruence|]. auto.
    - intros n a Hz. rewrite sum_flat_map. unfold tensor_value at 2. rewrite Es.
      rewrite signed_perms_map, sum_map. cbn [fst snd].
      rewrite (antisymm_sorted n a (map a (t_aux t)) (t_bra t) (t_ket t) Q L N1 N2 HQb). fold pre. fold kl.
      unfold Gs. rewrite <- sum_mul_l. apply sum_ext. intros bl H.
      destruct (ms_conserving_columns bl kl) eqn:Ec.
      + unfold sum. cbn [fold_right fst snd]. unfold tensor_value. cbn [t_symm t_bra t_ket t_aux].
        rewrite !sgn_xorb, I0. cbn [Nat.odd Nat.even negb sgn]. ring.
      + rewrite (Hz bl kl); auto; [unfold sum; cbn; ring|apply HQb; auto|apply set_of_perm; auto].
  Qed.
End Expand.
