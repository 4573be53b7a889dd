(** binarize preserves the value of an expression. *)
From Coq Require Import List Arith Bool Lia Permutation Ring Ring_theory.
From Verif Require Import Idx_Model Idx_Spec Idx_Proofs1 Idx_Proofs2 Bin_Model Bin_Spec Bin_Sums.
Import ListNotations.

(** ** indices of the result of a contraction *)
Section Target.
  Variable proto : idx -> list idx.
  Hypothesis no_proto : forall x, proto x = [].

  Definition gocc (gs : list groups) : list (slot * idx) := flat_map groups_occ gs.
  Definition cnt (x : idx) (gs : list groups) : nat := times x (gocc gs).

  Lemma gocc_slots gs : slots_ok (gocc gs).
  Proof. intros o Ho. apply in_flat_map in Ho as [g [_ Ho]]. eapply groups_occ_slots. exact Ho. Qed.

  Lemma counts_of_bump gs : counts_of proto gs = fold_left bump (flat_map (ev proto) (gocc gs)) [].
  Proof.
    unfold counts_of. generalize (@nil (idx * counters)). induction gs as [|g gs IH]; intros m; [reflexivity|].
    cbn [fold_left]. unfold gocc. cbn [flat_map]. rewrite flat_map_app, fold_left_app, IH. fold (gocc gs). f_equal.
    apply count_tensor_bump.
  Qed.
  Lemma counts_of_wf gs : wf_counts (counts_of proto gs).
  Proof. rewrite counts_of_bump. apply wf_bump. split; [constructor|intros x c []]. Qed.

  Lemma times_split x l : slots_ok l -> times x l = times_in Bra x l + times_in Ket x l + times_in Aux x l.
  Proof.
    induction l as [|[s y] l IH]; intros H; [reflexivity|]. rewrite times_cons, !times_in_cons, IH by (intros o Ho; apply H; right; exact Ho).
    specialize (H _ (or_introl eq_refl)). cbn [fst snd] in *. destruct (Nat.eqb y x); rewrite ?andb_true_r, ?andb_false_r.
    - destruct s; cbn [slot_eqb andb]; try lia. congruence.
    - lia.
  Qed.
  Lemma filled_id l : times null l = 0 -> filled l = l.
  Proof.
    induction l as [|[s y] l IH]; [reflexivity|]. rewrite times_cons. cbn [filled filter snd]. intros H. destruct (Nat.eqb y null); [lia|].
    cbn [negb]. f_equal. apply IH. lia.
  Qed.

  Lemma counts_of_get gs x : cnt null gs = 0 ->
    get (counts_of proto gs) x = mkc (times_in Bra x (gocc gs)) (times_in Ket x (gocc gs)) (times_in Aux x (gocc gs)) 0.
  Proof.
    intros HN. rewrite counts_of_bump, get_bump. unfold plus_times.
    rewrite !times_in_ev by (try discriminate; apply gocc_slots). rewrite times_in_ev_proto by apply gocc_slots.
    rewrite (filled_id _ HN). cbn [get cbra cket caux cproto]. rewrite !Nat.add_0_r. f_equal.
    unfold times_proto. replace (flat_map _ (gocc gs)) with (@nil idx); [reflexivity|].
    induction (gocc gs) as [|[s y] l IH]; [reflexivity|]. cbn [flat_map snd]. rewrite <- IH, no_proto. destruct (Nat.eqb y null); reflexivity.
  Qed.

  Lemma nodup_app {X} (a b : list X) : NoDup a -> NoDup b -> (forall x, In x a -> In x b -> False) -> NoDup (a ++ b).
  Proof.
    induction a as [|x a IH]; intros H1 H2 H; [exact H2|]. inversion H1; subst. cbn. constructor.
    - rewrite in_app_iff. intros [Q|Q]; [contradiction|]. apply (H x); [left; reflexivity|exact Q].
    - apply IH; auto. intros y Hy. apply H. right. exact Hy.
  Qed.
  Lemma nodup_map_filter (m : counts) p : NoDup (map fst m) -> NoDup (map fst (filter p m)).
  Proof.
    induction m as [|[x c] m IH]; intros H; [constructor|]. cbn [map fst filter] in *. inversion H; subst.
    destruct (p (x, c)); [|auto]. cbn [map fst]. constructor; auto. intros HI. apply H2. apply in_map_iff in HI as [y [E HI]].
    apply filter_In in HI as [HI _]. apply in_map_iff. eauto.
  Qed.
  Lemma in_map_filter (m : counts) (p : idx * counters -> bool) x : wf_counts m ->
    In x (map fst (filter p m)) <-> 1 <= total (get m x) /\ p (x, get m x) = true.
  Proof.
    intros W. rewrite in_map_iff. split.
    - intros [[y c] [E H]]. cbn in E. subst y. apply filter_In in H as [H1 H2]. rewrite (wf_get m x c W H1). split; auto. eapply W. exact H1.
    - intros [H1 H2]. apply (wf_key m x W) in H1. apply in_map_iff in H1 as [[y c] [E H]]. cbn in E. subst y.
      rewrite (wf_get m x c W H) in H2. exists (x, c). split; auto. apply filter_In. auto.
  Qed.

  Lemma target_right gs u : cnt null gs = 0 ->
    NoDup (all_of_groups (target_indices proto gs u)) /\
    forall x, In x (all_of_groups (target_indices proto gs u)) <-> cnt x gs = 1 \/ (2 <= cnt x gs /\ In x u).
  Proof.
    intros HN. set (m := counts_of proto gs). assert (W : wf_counts m) by apply counts_of_wf.
    assert (TOT : forall x, total (get m x) = cnt x gs /\ nonproto (get m x) = cnt x gs).
    { intros x. unfold m. rewrite counts_of_get by exact HN. unfold total, nonproto, cnt. cbn [cbra cket caux cproto].
      rewrite (times_split x) by apply gocc_slots. lia. }
    unfold target_indices. fold m. unfold all_of_groups. cbn [gbra gket gaux]. split.
    - destruct W as [WN _]. assert (W : wf_counts m) by apply counts_of_wf.
      apply nodup_app; [apply nodup_map_filter; exact WN| |].
      + apply nodup_app; try (apply nodup_map_filter; exact WN). intros x H1 H2.
        rewrite in_map_filter in H1, H2 by exact W. destruct H1 as [_ H1], H2 as [_ H2]. cbn [fst snd] in *. unfold single in *. cbn [fst snd] in *.
        repeat (rewrite ?andb_true_iff, ?orb_true_iff, ?negb_true_iff in * ). destruct H1 as [[[H3 H4] H5] H6]. destruct H2 as [[[H7 H8] H9]|[[H7 H8] H9]].
        * rewrite H9 in H6. discriminate.
        * rewrite H8 in H4. discriminate.
      + intros x H1 H2. rewrite in_app_iff in H2. rewrite !in_map_filter in H2 by exact W. rewrite in_map_filter in H1 by exact W.
        destruct H1 as [_ H1]. cbn [fst snd] in *. unfold single in *. cbn [fst snd] in *.
        repeat (rewrite ?andb_true_iff, ?orb_true_iff, ?negb_true_iff in * ). destruct H1 as [[H3 H4] H6].
        destruct H2 as [[_ [[_ H7] H8]]|[_ [[[_ H7] H8]|[[H7 H8] _]]]].
        * rewrite H7 in H6. discriminate.
        * rewrite H7 in H6. discriminate.
        * rewrite H8 in H4. discriminate.
    - intros x. rewrite !in_app_iff, !in_map_filter by exact W. destruct (TOT x) as [T1 T2]. unfold single. cbn [fst snd]. rewrite T1, T2.
      assert (S3 : cbra (get m x) + cket (get m x) + caux (get m x) = cnt x gs) by exact T2.
      destruct (1 <? cnt x gs) eqn:E1.
      + apply Nat.ltb_lt in E1. rewrite !andb_false_r. cbn [andb orb]. rewrite (proj2 (Nat.eqb_neq (cnt x gs) 0)) by lia. cbn [negb andb]. rewrite mem_in.
        split; [intros [[_ ?]|[[_ ?]|[_ ?]]]; try discriminate; right; split; [lia|assumption]|].
        intros [H|[_ H]]; [lia|]. right. right. split; [lia|exact H].
      + apply Nat.ltb_ge in E1. rewrite !andb_false_r. cbn [andb orb]. rewrite !orb_false_r.
        destruct (Nat.eqb (cnt x gs) 0) eqn:E0; cbn [negb andb].
        * apply Nat.eqb_eq in E0. split; [intros [[? _]|[[? _]|[? _]]]; lia|intros [?|[? _]]; lia].
        * apply Nat.eqb_neq in E0. split; [left; lia|]. intros _.
          destruct (Nat.eqb (cbra (get m x)) 0) eqn:EB; cbn [negb andb]; [|left; split; [lia|reflexivity]].
          right. destruct (Nat.eqb (cket (get m x)) 0) eqn:EK; cbn [negb]; [right|left]; (split; [lia|reflexivity]).
  Qed.
End Target.

Section Main.
  Variable K : Type.
  Variables (zero one : K) (add mul : K -> K -> K).
  Variable SR : semi_ring_theory zero one add mul eq.
  Add Ring Kring2 : SR.
  Variable is_one : K -> bool.
  Hypothesis is_one_right : forall c, is_one c = true -> c = one.
  Variable proto : idx -> list idx.
  Hypothesis no_proto : forall x, proto x = [].
  Variable merge : bool.
  Variable dom : idx -> list nat.
  Variable var : nat -> K.
  Variable tens : tensor -> list nat -> K.

  Notation bex := (bex K). Notation node := (node K).
  Notation ksum := (ksum K zero add).
  Notation kprod := (kprod K one mul).
  Notation sum_over := (sum_over K zero add dom).
  Notation den := (den K zero one add mul dom var tens).
  Notation nval := (nval K zero add mul dom var tens).
  Notation open := (open K). Notation wf := (wf K). Notation keepable := (keepable K).
  Notation summed := (summed K). Notation nidx := (nidx K). Notation nres := (nres K).
  Notation all_indices := (all_indices K). Notation collect := (collect K).
  Notation binarize := (binarize K is_one proto merge).
  Notation make_prod := (make_prod K proto merge).
  Notation fold_prod := (fold_prod K proto merge).
  Notation fold_sum := (fold_sum K merge).
  Notation make_tensor := (make_tensor merge).
  Notation ext := (ext K).

  Lemma bex_ind2 (P : bex -> Prop) :
    (forall c, P (Con c)) -> (forall v, P (Var v)) -> (forall t, P (Ten t)) ->
    (forall l, Forall P l -> P (Add l)) -> (forall c l, Forall P l -> P (Mul c l)) -> forall e, P e.
  Proof.
    intros H1 H2 H3 H4 H5. fix IH 1. intros [c|v|t|l|c l]; [apply H1|apply H2|apply H3| | ].
    - apply H4. induction l; constructor; auto.
    - apply H5. induction l; constructor; auto.
  Qed.

  (** ** wf, keepable *)
  Lemma wf_list (l : list bex) : (fix go l := match l with [] => True | x :: l' => wf x /\ go l' end) l <-> forall x, In x l -> wf x.
  Proof.
    induction l as [|x l IH]; [split; auto; intros _ x []|]. rewrite IH. split.
    - intros [H1 H2] y [<-|Hy]; auto.
    - intros H. split; [apply H; left; reflexivity|intros y Hy; apply H; right; exact Hy].
  Qed.
  Lemma keepable_list F (l : list bex) : (fix go l := match l with [] => True | x :: l' => keepable F x /\ go l' end) l <-> forall x, In x l -> keepable F x.
  Proof.
    induction l as [|x l IH]; [split; auto; intros _ x []|]. rewrite IH. split.
    - intros [H1 H2] y [<-|Hy]; auto.
    - intros H. split; [apply H; left; reflexivity|intros y Hy; apply H; right; exact Hy].
  Qed.

  (** ** open indices *)
  Lemma mem_nodup x l : mem x (nodup Nat.eq_dec l) = mem x l.
  Proof.
    destruct (mem x l) eqn:E.
    - apply mem_in. apply nodup_In. apply mem_in. exact E.
    - apply mem_false. rewrite nodup_In. apply mem_false. exact E.
  Qed.
  Lemma has_pos x os : 1 <= has x os <-> exists o, In o os /\ In x o.
  Proof.
    unfold has. induction os as [|o os IH]; cbn [filter].
    - cbn. split; [lia|intros [o [[] _]]].
    - destruct (mem x o) eqn:E; cbn [length].
      + apply mem_in in E. split; [intros _; exists o; split; [left; reflexivity|exact E]|lia].
      + rewrite IH. apply mem_false in E. split; intros (o' & H1 & H2).
        * exists o'. split; [right; exact H1|exact H2].
        * destruct H1 as [<-|H1]; [contradiction|eauto].
  Qed.
  Lemma union_in x os : In x (union os) <-> 1 <= has x os.
  Proof. unfold union. rewrite nodup_In, in_concat, has_pos. reflexivity. Qed.
  Lemma has_app x a b : has x (a ++ b) = has x a + has x b.
  Proof. unfold has. rewrite filter_app, app_length. reflexivity. Qed.
  Lemma has_one x o : has x [o] = if mem x o then 1 else 0.
  Proof. unfold has. cbn. destruct (mem x o); reflexivity. Qed.

  Definition opens (l : list bex) : list (list idx) := map (open []) l.
  Lemma open_mul F c l x : In x (open F (Mul c l)) <-> has x (opens l) = 1 \/ (1 <= has x (opens l) /\ In x F).
  Proof.
    cbn [Bin_Spec.open]. rewrite filter_In, union_in, orb_true_iff, Nat.eqb_eq, mem_in. fold (opens l). split; [tauto|]. intros [H|[H1 H2]]; [split; [lia|auto]|auto].
  Qed.
  Lemma summed_in F l x : In x (summed F l) <-> 2 <= has x (opens l) /\ ~ In x F.
  Proof.
    unfold Bin_Spec.summed. rewrite filter_In, union_in, andb_true_iff, Nat.leb_le, negb_true_iff, mem_false. fold (opens l). split; [tauto|]. intros [H1 H2]. split; [lia|auto].
  Qed.
  Lemma summed_nodup F l : NoDup (summed F l).
  Proof. apply NoDup_filter, NoDup_nodup. Qed.
  Lemma open_seen : forall e F x, In x (open F e) -> In x (all_indices e).
  Proof.
    induction e as [c|v|t|l IH|c l IH] using bex_ind2; intros F x H.
    - destruct H.
    - destruct H.
    - cbn in *. apply nodup_In in H. exact H.
    - destruct l as [|y l]; [destruct H|]. cbn in *. inversion IH; subst. eapply H2. exact H.
    - assert (P : 1 <= has x (opens l)) by (apply open_mul in H; lia). apply has_pos in P as (o & H1 & H2).
      unfold opens in H1. apply in_map_iff in H1 as (y & <- & Hy). cbn [Bin_Model.all_indices]. apply in_flat_map. exists y. split; auto.
      rewrite Forall_forall in IH. eapply IH; eauto.
  Qed.

  (** ** the value depends on the open indices only *)
  Lemma kprod_ext {X} (f g : X -> K) l : (forall x, In x l -> f x = g x) -> kprod (map f l) = kprod (map g l).
  Proof. induction l as [|x l IH]; intros H; cbn; auto. rewrite (H x (or_introl eq_refl)), IH; auto. intros y Hy. apply H. right. exact Hy. Qed.
  Lemma den_ext : forall e F, ext (den F e).
  Proof.
    induction e as [c|v|t|l IH|c l IH] using bex_ind2; intros F r r' H; cbn [Bin_Spec.den]; auto.
    - f_equal. apply map_ext. exact H.
    - rewrite Forall_forall in IH. apply (ksum_ext K zero add). intros x Hx. apply IH; auto.
    - f_equal. apply (sum_over_env K zero add); auto. intros s s' E. rewrite Forall_forall in IH. apply kprod_ext. intros x Hx. apply IH; auto.
  Qed.
  Lemma den_indep : forall e, wf e -> forall x, ~ In x (open [] e) -> forall r v, den [] e (set r x v) = den [] e r.
  Proof.
    induction e as [c|y|t|l IH|c l IH] using bex_ind2; intros W x HX r v; cbn [Bin_Spec.den]; auto.
    - f_equal. apply map_ext_in. intros y Hy. unfold set. destruct (Nat.eqb_spec y x) as [->|NE]; auto. exfalso. apply HX. cbn. apply nodup_In. exact Hy.
    - destruct W as (W1 & W2 & W3). rewrite wf_list in W3. rewrite Forall_forall in IH. apply (ksum_ext K zero add). intros y Hy. apply IH; auto.
      intros HI. apply HX. destruct l as [|z l]; [congruence|]. cbn. apply (W2 z y); auto. left. reflexivity.
    - destruct W as (_ & W3). rewrite wf_list in W3. rewrite Forall_forall in IH. f_equal.
      assert (E : ext (fun r => kprod (map (fun x => den [] x r) l))) by (intros s s' H; apply kprod_ext; intros y _; apply den_ext; exact H).
      destruct (le_lt_dec 2 (has x (opens l))) as [H2|H2].
      + apply (sum_over_set K zero add); auto. apply summed_in. split; auto.
      + apply (sum_over_indep K zero add); auto. intros s w. apply kprod_ext. intros y Hy. apply IH; auto. intros HI.
        apply HX. apply open_mul. left. assert (1 <= has x (opens l)); [|lia]. apply has_pos. exists (open [] y). split; auto. apply in_map. exact Hy.
  Qed.

  (** ** keeping indices that are open anyway *)
  Lemma open_keep : forall e F, wf e -> (forall k, In k F -> In k (open [] e)) ->
    same_set (open F e) (open [] e) /\ keepable F e /\ forall r, den F e r = den [] e r.
  Proof.
    induction e as [c|v|t|l IH|c l IH] using bex_ind2; intros F W HF.
    - repeat split; auto.
    - repeat split; auto.
    - repeat split; auto.
    - destruct W as (W1 & W2 & W3). rewrite wf_list in W3. rewrite Forall_forall in IH.
      assert (A : forall x, In x l -> same_set (open F x) (open [] x) /\ keepable F x /\ forall r, den F x r = den [] x r).
      { intros x Hx. apply IH; auto. intros k Hk. destruct l as [|y l]; [congruence|]. apply (W2 x y); auto. left. reflexivity. }
      split; [|split].
      + destruct l as [|y l]; [congruence|]. cbn. apply A. left. reflexivity.
      + cbn [Bin_Spec.keepable]. split; [|apply keepable_list; intros x Hx; apply A; exact Hx].
        intros x y Hx Hy k. destruct (A x Hx) as (A1 & _). destruct (A y Hy) as (A2 & _). rewrite (A1 k), (A2 k). apply W2; auto.
      + intros r. cbn [Bin_Spec.den]. apply (ksum_ext K zero add). intros x Hx. apply A. exact Hx.
    - assert (O : forall k, In k F -> has k (opens l) = 1).
      { intros k Hk. apply HF in Hk. apply open_mul in Hk. destruct Hk as [Hk|[_ []]]. exact Hk. }
      assert (S : summed F l = summed [] l).
      { unfold Bin_Spec.summed. apply filter_ext_in'. intros x _. fold (opens l). destruct (2 <=? has x (opens l)) eqn:E; auto. cbn [andb].
        apply Nat.leb_le in E. replace (mem x F) with false; [reflexivity|]. symmetry. apply mem_false. intros H. apply O in H. lia. }
      split; [|split].
      + intros x. rewrite !open_mul. split; [intros [H|[H1 H2]]; left; auto|intros [H|[_ []]]; left; auto].
      + cbn [Bin_Spec.keepable]. intros x k Hx Hk Hs. specialize (O k Hk). destruct W as (W & W3).
        assert (P : 1 <= has k (opens l)) by lia. apply has_pos in P as (o & H1 & H2). unfold opens in H1. apply in_map_iff in H1 as (y & <- & Hy).
        apply In_nth_error in Hx as [i Hi]. apply In_nth_error in Hy as [j Hj]. destruct (Nat.eq_dec i j) as [->|NE]; [congruence|].
        apply (W i j x y k); auto. eapply open_seen. exact H2.
      + intros r. cbn [Bin_Spec.den]. rewrite S. reflexivity.
  Qed.

  (** ** the general reading of products *)
  Notation kept := (kept K). Notation gopen := (gopen K). Notation gok := (gok K). Notation gsummed := (gsummed K).
  Notation gden := (gden K zero one add mul dom var tens).
  Definition gopens (F : list idx) (L l : list bex) : list (list idx) := map (fun x => gopen (kept F L x) x) l.
  Lemma gok_list F (l : list bex) : (fix go l := match l with [] => True | x :: l' => gok F x /\ go l' end) l <-> forall x, In x l -> gok F x.
  Proof.
    induction l as [|x l IH]; [split; auto; intros _ x []|]. rewrite IH. split.
    - intros [H1 H2] y [<-|Hy]; auto.
    - intros H. split; [apply H; left; reflexivity|intros y Hy; apply H; right; exact Hy].
  Qed.
  Lemma gok_factors F L (l : list bex) : (fix go l' := match l' with [] => True | x :: l'' => gok (kept F L x) x /\ go l'' end) l <-> forall x, In x l -> gok (kept F L x) x.
  Proof.
    induction l as [|x l IH]; [split; auto; intros _ x []|]. rewrite IH. split.
    - intros [H1 H2] y [<-|Hy]; auto.
    - intros H. split; [apply H; left; reflexivity|intros y Hy; apply H; right; exact Hy].
  Qed.
  Lemma kept_in F L y x : In x (kept F L y) <-> In x (all_indices y) /\ (2 <= has x (map all_indices L) \/ In x F).
  Proof. unfold Bin_Spec.kept. rewrite filter_In, nodup_In, orb_true_iff, Nat.ltb_lt, mem_in. reflexivity. Qed.
  Lemma gopen_mul F c l x : In x (gopen F (Mul c l)) <-> has x (gopens F l l) = 1 \/ (1 <= has x (gopens F l l) /\ In x F).
  Proof.
    cbn [Bin_Spec.gopen]. rewrite filter_In, union_in, orb_true_iff, Nat.eqb_eq, mem_in. fold (gopens F l l). split; [tauto|]. intros [H|[H1 H2]]; [split; [lia|auto]|auto].
  Qed.
  Lemma gsummed_in F l x : In x (gsummed F l) <-> 2 <= has x (gopens F l l) /\ ~ In x F.
  Proof.
    unfold Bin_Spec.gsummed. rewrite filter_In, union_in, andb_true_iff, Nat.leb_le, negb_true_iff, mem_false. fold (gopens F l l). split; [tauto|]. intros [H1 H2]. split; [lia|auto].
  Qed.
  Lemma gsummed_nodup F l : NoDup (gsummed F l).
  Proof. apply NoDup_filter, NoDup_nodup. Qed.
  Lemma gopen_seen : forall e F x, In x (gopen F e) -> In x (all_indices e).
  Proof.
    induction e as [c|v|t|l IH|c l IH] using bex_ind2; intros F x H.
    - destruct H.
    - destruct H.
    - cbn in *. apply nodup_In in H. exact H.
    - destruct l as [|y l]; [destruct H|]. cbn in *. inversion IH; subst. eapply H2. exact H.
    - assert (P : 1 <= has x (gopens F l l)) by (apply gopen_mul in H; lia). apply has_pos in P as (o & H1 & H2).
      unfold gopens in H1. apply in_map_iff in H1 as (y & <- & Hy). cbn [Bin_Model.all_indices]. apply in_flat_map. exists y. split; auto.
      rewrite Forall_forall in IH. eapply IH; eauto.
  Qed.
  (** an index to be kept is an index of the value if it is seen at all *)
  Lemma gopen_kept : forall e F x, gok F e -> In x F -> In x (all_indices e) -> In x (gopen F e).
  Proof.
    induction e as [c|v|t|l IH|c l IH] using bex_ind2; intros F x G HF H.
    - destruct H.
    - destruct H.
    - cbn. apply nodup_In. exact H.
    - destruct G as (G1 & _ & G3). destruct l as [|y l]; [congruence|]. cbn in *. inversion IH; subst. apply H2; auto. apply G3.
    - cbn [Bin_Spec.gok] in G. rewrite gok_factors in G. cbn [Bin_Model.all_indices] in H. apply in_flat_map in H as (y & Hy & H). apply gopen_mul. right. split; auto.
      apply has_pos. exists (gopen (kept F l y) y). split; [apply in_map_iff; exists y; auto|]. rewrite Forall_forall in IH. apply IH; auto. apply kept_in. auto.
  Qed.
  Lemma gden_ext : forall e F, ext (gden F e).
  Proof.
    induction e as [c|v|t|l IH|c l IH] using bex_ind2; intros F r r' H; cbn [Bin_Spec.gden]; auto.
    - f_equal. apply map_ext. exact H.
    - rewrite Forall_forall in IH. apply (ksum_ext K zero add). intros x Hx. apply IH; auto.
    - f_equal. apply (sum_over_env K zero add); auto. intros s s' E. rewrite Forall_forall in IH. apply kprod_ext. intros x Hx. apply IH; auto.
  Qed.
  Lemma gden_indep : forall e F, gok F e -> forall x, ~ In x (gopen F e) -> forall r v, gden F e (set r x v) = gden F e r.
  Proof.
    induction e as [c|y|t|l IH|c l IH] using bex_ind2; intros F W x HX r v; cbn [Bin_Spec.gden]; auto.
    - f_equal. apply map_ext_in. intros y Hy. unfold set. destruct (Nat.eqb_spec y x) as [->|NE]; auto. exfalso. apply HX. cbn. apply nodup_In. exact Hy.
    - destruct W as (W1 & W2 & W3). rewrite gok_list in W3. rewrite Forall_forall in IH. apply (ksum_ext K zero add). intros y Hy. apply IH; auto.
      intros HI. apply HX. destruct l as [|z l]; [congruence|]. cbn. apply (W2 z y); auto. left. reflexivity.
    - cbn [Bin_Spec.gok] in W. rewrite gok_factors in W. rewrite Forall_forall in IH. f_equal.
      assert (E : ext (fun r => kprod (map (fun x => gden (kept F l x) x r) l))) by (intros s s' H; apply kprod_ext; intros y _; apply gden_ext; exact H).
      rewrite gopen_mul in HX. destruct (le_lt_dec 1 (has x (gopens F l l))) as [H1|H1].
      + apply (sum_over_set K zero add); auto. apply gsummed_in. split; [destruct (has x (gopens F l l)) as [|[|h]]; try lia; exfalso; apply HX; auto|].
        intros HF. apply HX. right. auto.
      + apply (sum_over_indep K zero add); auto. intros s w. apply kprod_ext. intros y Hy. apply IH; auto. intros HI.
        assert (1 <= has x (gopens F l l)); [|lia]. apply has_pos. exists (gopen (kept F l y) y). split; auto. apply in_map_iff. exists y. auto.
  Qed.

  (** ** nodes *)
  Lemma nidx_make o g a b : forall x, In x (nidx (Node o (Some (make_tensor g)) a b)) <-> In x (all_of_groups g).
  Proof.
    intros x. unfold Bin_Spec.nidx, Bin_Model.nres, Bin_Model.make_tensor, all_of_groups. destruct merge; cbn [gbra gket gaux]; rewrite ?in_app_iff; cbn; tauto.
  Qed.
  Lemma nodup_make o g a b : NoDup (all_of_groups g) -> NoDup (nidx (Node o (Some (make_tensor g)) a b)).
  Proof. unfold Bin_Spec.nidx, Bin_Model.nres, Bin_Model.make_tensor, all_of_groups. destruct merge; cbn [gbra gket gaux app]; auto. Qed.
  Lemma cnt_make x g : cnt x [make_tensor g] = cnt x [g].
  Proof.
    unfold cnt, gocc. cbn [flat_map]. rewrite !app_nil_r, !times_groups. unfold Bin_Model.make_tensor, all_of_groups. destruct merge; reflexivity.
  Qed.
  Lemma cnt_app x a b : cnt x (a ++ b) = cnt x a + cnt x b.
  Proof. unfold cnt, gocc. rewrite flat_map_app, times_app. reflexivity. Qed.
  Lemma cnt_single x g : cnt x [g] = count_occ Nat.eq_dec (all_of_groups g) x.
  Proof. unfold cnt, gocc. cbn [flat_map]. rewrite app_nil_r. apply times_groups. Qed.
  Lemma nodup_count l x : NoDup l -> count_occ Nat.eq_dec l x = if mem x l then 1 else 0.
  Proof.
    intros H. destruct (mem x l) eqn:E.
    - apply mem_in in E. apply (count_occ_In Nat.eq_dec) in E. assert (B := proj1 (NoDup_count_occ Nat.eq_dec l) H x). lia.
    - apply mem_false in E. apply count_occ_not_In. exact E.
  Qed.

  Definition scalar_iff (n : node) : Prop := nres n = None <-> nidx n = [].
  Lemma nval_ext : forall n, ext (nval n).
  Proof.
    induction n as [[c|v|t]|o res a IHa b IHb]; intros r r' H; cbn [Bin_Spec.nval]; auto.
    - f_equal. apply map_ext. exact H.
    - destruct o; [rewrite (IHa r r' H), (IHb r r' H); reflexivity|].
      apply (sum_over_env K zero add); auto. intros s s' E. rewrite (IHa s s' E), (IHb s s' E). reflexivity.
  Qed.

  (** ** the fold over the factors of a product *)
  Section Fold.
    Variable F : list idx.
    (** the indices, the value and the kept indices of every factor *)
    Variable op : bex -> list idx.
    Variable dn : bex -> env -> K.
    Variable kp : bex -> list idx.
    Hypothesis op_seen : forall y x, In x (op y) -> In x (all_indices y).
    Hypothesis dn_ext : forall y, ext (dn y).
    Definition ops (l : list bex) : list (list idx) := map op l.
    (** facts on the node of a factor *)
    Record factor_ok (e : bex) (n : node) : Prop := {
      fo_nodup : NoDup (nidx n);
      fo_open : same_set (nidx n) (op e);
      fo_scalar : scalar_iff n;
      fo_val : forall r, nval n r = dn e r;
      fo_some : forall x, In x (op e) -> 1 <= cnt x (collect n);
      fo_one : forall x, In x (op e) -> cnt x (collect n) = 1 \/ In x (kp e);
      fo_not : forall x, ~ In x (op e) -> cnt x (collect n) <> 1;
      fo_seen : forall x, 1 <= cnt x (collect n) -> In x (all_indices e) }.
    Definition seen (p : list bex) (x : idx) : Prop := exists y, In y p /\ In x (all_indices y).
    Definition needed (q : list bex) (x : idx) : Prop := seen q x \/ In x F.
    Definition neededb (q : list bex) (x : idx) : bool := existsb (fun y => mem x (all_indices y)) q || mem x F.
    Lemma neededb_right q x : neededb q x = true <-> needed q x.
    Proof.
      unfold neededb, needed, seen. rewrite orb_true_iff, existsb_exists, mem_in. split; intros [(y & H1 & H2)|H]; auto; left; exists y; split; auto; apply mem_in; exact H2.
    Qed.
    Definition closed (p q : list bex) : list idx :=
      filter (fun x => (2 <=? has x (ops p)) && negb (neededb q x)) (union (ops p)).
    Lemma closed_in p q x : In x (closed p q) <-> 2 <= has x (ops p) /\ ~ needed q x.
    Proof.
      unfold closed. rewrite filter_In, union_in, andb_true_iff, Nat.leb_le, negb_true_iff, <- neededb_right.
      destruct (neededb q x); split; intros H; (split; [lia|]); try split; try tauto; try lia; try congruence. all: destruct H as [? ?]; try (exfalso; tauto); auto.
    Qed.
    Lemma closed_nodup p q : NoDup (closed p q).
    Proof. apply NoDup_filter, NoDup_nodup. Qed.

    Definition fresh (l : list bex) : Prop := forall i j x y k, nth_error l i = Some x -> nth_error l j = Some y -> i <> j ->
      In k (all_indices x) -> In k (all_indices y) -> In k (op x).
    Definition keep_ok (l : list bex) : Prop := forall x k, In x l -> In k F -> In k (all_indices x) -> In k (op x).

    Definition kp_ok (l : list bex) : Prop := forall i x k, nth_error l i = Some x -> In k (kp x) ->
      (exists j y, j <> i /\ nth_error l j = Some y /\ In k (all_indices y)) \/ In k F.
    Lemma kp_split p f q k : kp_ok (p ++ f :: q) -> In k (kp f) -> seen p k \/ needed q k.
    Proof.
      intros H HK. assert (HF : nth_error (p ++ f :: q) (length p) = Some f) by (rewrite nth_error_app2, Nat.sub_diag by lia; reflexivity).
      destruct (H _ _ _ HF HK) as [(j & y & NE & Hy & Hk)|HI]; [|right; right; exact HI].
      destruct (lt_dec j (length p)) as [L|L].
      - left. exists y. rewrite nth_error_app1 in Hy by exact L. split; [eapply nth_error_In; exact Hy|exact Hk].
      - right. left. exists y. rewrite nth_error_app2 in Hy by lia. destruct (j - length p) as [|m] eqn:E; [lia|]. cbn in Hy. split; [eapply nth_error_In; exact Hy|exact Hk].
    Qed.

    Lemma fresh_split p f q k : fresh (p ++ f :: q) ->
      (forall y, In y p -> In k (all_indices y) -> In k (all_indices f) -> In k (op y) /\ In k (op f)) /\
      (forall y z, In y (p ++ [f]) -> In z q -> In k (all_indices y) -> In k (all_indices z) -> In k (op y)).
    Proof.
      intros H. assert (HF : nth_error (p ++ f :: q) (length p) = Some f) by (rewrite nth_error_app2, Nat.sub_diag by lia; reflexivity). split.
      - intros y Hy H1 H2. apply In_nth_error in Hy as [i Hi]. assert (i < length p) by (apply nth_error_Some; congruence).
        assert (HI : nth_error (p ++ f :: q) i = Some y) by (rewrite nth_error_app1 by lia; exact Hi).
        split; [apply (H i (length p) y f k); auto; lia|apply (H (length p) i f y k); auto; lia].
      - intros y z Hy Hz H1 H2. apply In_nth_error in Hy as [i Hi]. apply In_nth_error in Hz as [j Hj].
        assert (Li : i < length (p ++ [f])) by (apply nth_error_Some; congruence).
        replace (p ++ f :: q) with ((p ++ [f]) ++ q) in H by (rewrite <- app_assoc; reflexivity).
        apply (H i (length (p ++ [f]) + j) y z k); auto; [rewrite nth_error_app1 by lia; exact Hi| |lia].
        rewrite nth_error_app2 by lia. replace (length (p ++ [f]) + j - length (p ++ [f])) with j by lia. exact Hj.
    Qed.

    Record inv (p q : list bex) (n : node) : Prop := {
      i_nodup : NoDup (nidx n);
      i_idx : forall x, In x (nidx n) <-> has x (ops p) = 1 \/ (2 <= has x (ops p) /\ needed q x);
      i_scalar : scalar_iff n;
      i_val : forall r, nval n r = sum_over (closed p q) (fun r => kprod (map (fun y => dn y r) p)) r;
      i_cnt : forall x, has x (ops p) <= cnt x (collect n);
      i_one : forall x, has x (ops p) = 1 -> cnt x (collect n) = 1 \/ needed q x;
      i_not : forall x, has x (ops p) = 0 -> cnt x (collect n) <> 1;
      i_seen : forall x, 1 <= cnt x (collect n) -> seen p x }.

    Lemma ops_app p q : ops (p ++ q) = ops p ++ ops q.
    Proof. unfold ops. apply map_app. Qed.
    Lemma has_ops_seen p x : 1 <= has x (ops p) -> exists y, In y p /\ In x (op y).
    Proof. intros H. apply has_pos in H as (o & H1 & H2). unfold ops in H1. apply in_map_iff in H1 as (y & <- & Hy). eauto. Qed.
    Lemma open_has p x y : In y p -> In x (op y) -> 1 <= has x (ops p).
    Proof. intros H1 H2. apply has_pos. exists (op y). split; auto. apply in_map. exact H1. Qed.

    Lemma inv_start f q n : kp_ok (f :: q) -> factor_ok f n -> inv [f] q n.
    Proof.
      intros KP [N O S V C0 C1 C2 C3]. assert (HO : forall x, has x (ops [f]) = if mem x (op f) then 1 else 0) by (intros x; apply has_one).
      constructor; auto.
      - intros x. rewrite HO, (O x), <- mem_in. destruct (mem x (op f)); intuition (try lia; try congruence).
      - intros r. rewrite V. replace (closed [f] q) with (@nil idx).
        + cbn. ring.
        + symmetry. destruct (closed [f] q) as [|x l] eqn:E; auto. exfalso. assert (H : In x (closed [f] q)) by (rewrite E; left; reflexivity).
          apply closed_in in H as [H _]. rewrite HO in H. destruct (mem x (op f)); lia.
      - intros x. rewrite HO. destruct (mem x (op f)) eqn:E; [|lia]. apply C0. apply mem_in. exact E.
      - intros x. rewrite HO. destruct (mem x (op f)) eqn:E; [|discriminate]. intros _. destruct (C1 x) as [H|H]; [apply mem_in; exact E|left; exact H|right].
        destruct (kp_split [] f q x KP H) as [(y & [] & _)|Q]. exact Q.
      - intros x. rewrite HO. destruct (mem x (op f)) eqn:E; [discriminate|]. intros _. apply C2. apply mem_false. exact E.
      - intros x H. exists f. split; [left; reflexivity|apply C3; exact H].
    Qed.

    Lemma inv_step p f q acc n u :
      fresh (p ++ f :: q) -> keep_ok (p ++ f :: q) -> kp_ok (p ++ f :: q) ->
      (forall y, In y (p ++ f :: q) -> forall x, ~ In x (op y) -> forall r v, dn y (set r x v) = dn y r) ->
      (forall x, In null (all_indices x) -> ~ In x (p ++ f :: q)) ->
      (forall x, seen (p ++ [f]) x -> (In x u <-> needed q x)) ->
      inv p (f :: q) acc -> factor_ok f n ->
      inv (p ++ [f]) q (Node OProd (make_prod u acc n) acc n).
    Proof.
      intros FR KO KP WF NU HU [IN II IS IV IC IO INT IE] [N O S V C0 C1 C2 C3].
      assert (FS : forall k, (forall y, In y p -> In k (all_indices y) -> In k (all_indices f) -> In k (op y) /\ In k (op f)) /\
        (forall y z, In y (p ++ [f]) -> In z q -> In k (all_indices y) -> In k (all_indices z) -> In k (op y))) by (intros k; apply fresh_split; exact FR).
      assert (HA : forall x, has x (ops (p ++ [f])) = has x (ops p) + if mem x (op f) then 1 else 0).
      { intros x. rewrite ops_app, has_app. f_equal. apply has_one. }
      (* counts *)
      assert (CN : forall x, has x (ops (p ++ [f])) <= cnt x (collect acc ++ collect n) /\
                             (has x (ops (p ++ [f])) = 1 -> cnt x (collect acc ++ collect n) = 1 \/ needed q x) /\
                             (has x (ops (p ++ [f])) = 0 -> cnt x (collect acc ++ collect n) <> 1) /\
                             (1 <= cnt x (collect acc ++ collect n) -> seen (p ++ [f]) x)).
      { intros x. rewrite HA, cnt_app. split; [|split; [|split]].
        - specialize (IC x). destruct (mem x (op f)) eqn:E; [|lia]. apply mem_in in E. specialize (C0 x E). lia.
        - destruct (mem x (op f)) eqn:E.
          + apply mem_in in E. intros H. assert (HP : has x (ops p) = 0) by lia.
            assert (NP : ~ seen p x).
            { intros (y & Hy & Hs). destruct (FS x) as [FS1 _]. destruct (FS1 y Hy Hs (op_seen f x E)) as [Q _].
              assert (1 <= has x (ops p)) by (eapply open_has; eauto). lia. }
            assert (Z : cnt x (collect acc) = 0).
            { destruct (cnt x (collect acc)) eqn:EZ; auto. exfalso. apply NP. apply IE. lia. }
            rewrite Z. destruct (C1 x E) as [Q|Q]; [left; lia|]. destruct (kp_split p f q x KP Q) as [Q2|Q2]; [contradiction|right; exact Q2].
          + apply mem_false in E. rewrite Nat.add_0_r. intros H. assert (L : 1 <= has x (ops p)) by lia. apply has_ops_seen in L as (y & Hy & Ho).
            assert (NF : ~ In x (all_indices f)).
            { intros Q. apply E. destruct (FS x) as [FS1 _]. apply (FS1 y Hy (op_seen y x Ho) Q). }
            assert (Z : cnt x (collect n) = 0). { destruct (cnt x (collect n)) eqn:EZ; auto. exfalso. apply NF. apply C3. lia. }
            rewrite Z, Nat.add_0_r. destruct (IO x H) as [Q|[(z & [<-|Hz] & Hs)|Q]]; auto; [contradiction|right; left; exists z; auto|right; right; exact Q].
        - destruct (mem x (op f)) eqn:E; [lia|]. rewrite Nat.add_0_r. intros L. specialize (INT x L). apply mem_false in E. specialize (C2 x E). lia.
        - intros L. destruct (le_lt_dec 1 (cnt x (collect acc))) as [L1|L1].
          + apply IE in L1 as (y & Hy & Hs). exists y. split; [apply in_or_app; left; exact Hy|exact Hs].
          + exists f. split; [apply in_or_app; right; left; reflexivity|apply C3; lia]. }
      assert (NS : forall k, needed q k -> needed (f :: q) k).
      { intros k [(y & Hy & Hs)|H]; [left; exists y; split; [right; exact Hy|exact Hs]|right; exact H]. }
      assert (SF : forall k, In k (all_indices f) -> needed (f :: q) k) by (intros k H; left; exists f; split; [left; reflexivity|exact H]).
      (* an index that is needed later is open where it is seen *)
      assert (NO : forall k y, In y (p ++ [f]) -> In k (all_indices y) -> needed q k -> In k (op y)).
      { intros k y Hy Hs [(z & Hz & Hz2)|H].
        - destruct (FS k) as [_ FS2]. apply (FS2 y z); auto.
        - apply KO; auto. replace (p ++ f :: q) with ((p ++ [f]) ++ q) by (rewrite <- app_assoc; reflexivity). apply in_or_app. left. exact Hy. }
      assert (NULL : cnt null (collect acc ++ collect n) = 0).
      { destruct (cnt null (collect acc ++ collect n)) eqn:E; auto. exfalso. destruct (CN null) as (_ & _ & _ & C). destruct C as (y & Hy & Hs); [lia|].
        apply (NU y Hs). replace (p ++ f :: q) with ((p ++ [f]) ++ q) by (rewrite <- app_assoc; reflexivity). apply in_or_app. left. exact Hy. }
      assert (OF : forall k, In k (op f) <-> mem k (op f) = true) by (intros k; symmetry; apply mem_in).
      set (res := Node OProd (make_prod u acc n) acc n).
      (* the indices of the result *)
      assert (RES : NoDup (nidx res) /\ (forall x, In x (nidx res) <-> has x (ops (p ++ [f])) = 1 \/ (2 <= has x (ops (p ++ [f])) /\ needed q x)) /\ scalar_iff res).
      { unfold res, Bin_Model.make_prod. destruct (nres acc) as [ga|] eqn:EA; destruct (nres n) as [gn|] eqn:EN.
        - (* tensor * tensor *)
          set (g := target_indices proto (collect acc ++ collect n) u).
          assert (IDX : forall x, In x (all_of_groups g) <-> has x (ops (p ++ [f])) = 1 \/ (2 <= has x (ops (p ++ [f])) /\ needed q x)).
          { intros x. destruct (target_right proto no_proto _ u NULL) as [_ T]. fold g in T. rewrite (T x). clear T. destruct (CN x) as (D0 & D1 & D2 & D3). split.
            - intros [H|[H1 H2]].
              + left. destruct (has x (ops (p ++ [f]))) eqn:EH; [exfalso; apply D2; auto|lia].
              + assert (SE : seen (p ++ [f]) x) by (apply D3; lia). assert (ND : needed q x) by (apply HU; auto).
                destruct SE as (y & Hy & Hs). assert (L : 1 <= has x (ops (p ++ [f]))) by (eapply open_has; [exact Hy|apply NO; auto]).
                destruct (Nat.eq_dec (has x (ops (p ++ [f]))) 1) as [EQ|EQ]; [left; exact EQ|right; split; [lia|exact ND]].
            - intros [H|[H1 H2]].
              + destruct (D1 H) as [Q|Q]; [left; exact Q|]. destruct (Nat.eq_dec (cnt x (collect acc ++ collect n)) 1) as [EQ|EQ]; [left; exact EQ|right].
                split; [lia|]. apply HU; [apply D3; lia|exact Q].
              + right. split; [lia|]. apply HU; auto. apply D3. lia. }
          assert (ND : NoDup (all_of_groups g)) by (apply (target_right proto no_proto _ u NULL)).
          destruct (all_of_groups g) as [|x0 g0] eqn:EG.
          + split; [constructor|]. split; [intros x; rewrite <- IDX; reflexivity|]. split; auto.
          + split; [apply nodup_make; rewrite EG; exact ND|]. split; [intros x; rewrite nidx_make, EG; apply IDX|].
            split; [discriminate|]. intros H. exfalso. assert (HI : In x0 (nidx (Node OProd (Some (make_tensor g)) acc n))) by (apply nidx_make; rewrite EG; left; reflexivity).
            rewrite H in HI. destruct HI.
        - (* tensor * scalar *)
          assert (OE : op f = []).
          { destruct (op f) as [|x l] eqn:E; auto. exfalso. assert (HI : In x (nidx n)) by (apply (proj2 (O x)); try rewrite E; left; reflexivity).
            rewrite (proj1 S EN) in HI. destruct HI. }
          assert (EQ : nidx acc = all_of_groups ga) by (unfold Bin_Spec.nidx; rewrite EA; reflexivity).
          split; [apply nodup_make; rewrite <- EQ; exact IN|]. split.
          + intros x. rewrite nidx_make, <- EQ, II, HA, OE. cbn [mem existsb]. rewrite Nat.add_0_r. split; intros [H|[H1 H2]]; auto; right; split; auto.
            destruct H2 as [(z & [<-|Hz] & Hs)|H2]; [|left; exists z; auto|right; exact H2]. exfalso.
            assert (L : 1 <= has x (ops p)) by lia. apply has_ops_seen in L as (y & Hy & Ho). destruct (FS x) as [FS1 _].
            destruct (FS1 y Hy (op_seen y x Ho) Hs) as [_ Q]. rewrite OE in Q. destruct Q.
          + split; [discriminate|]. intros H. exfalso. assert (NE : nidx acc <> []) by (intros E; apply IS in E; congruence).
            destruct (nidx acc) as [|x l] eqn:E; [congruence|]. assert (HI : In x (nidx (Node OProd (Some (make_tensor ga)) acc n))) by (apply nidx_make; rewrite <- EQ; left; reflexivity).
            rewrite H in HI. destruct HI.
        - (* scalar * tensor *)
          assert (AE : forall x, ~ In x (nidx acc)) by (intros x HI; rewrite (proj1 IS EA) in HI; destruct HI).
          assert (EQ : nidx n = all_of_groups gn) by (unfold Bin_Spec.nidx; rewrite EN; reflexivity).
          split; [apply nodup_make; rewrite <- EQ; exact N|]. split.
          + intros x. rewrite nidx_make, <- EQ, (O x), HA. split.
            * intros H. left. rewrite (proj1 (OF x) H). destruct (has x (ops p)) as [|[|h]] eqn:EH; auto; exfalso; apply (AE x); apply II; rewrite EH.
              -- left. reflexivity.
              -- right. split; [lia|]. apply SF. apply op_seen. exact H.
            * intros H. apply OF. destruct (mem x (op f)) eqn:E; auto. exfalso. rewrite Nat.add_0_r in H. apply (AE x). apply II.
              destruct H as [H|[H1 H2]]; auto.
          + split; [discriminate|]. intros H. exfalso. assert (NE : nidx n <> []) by (intros E; apply S in E; congruence).
            destruct (nidx n) as [|x l] eqn:E; [congruence|]. assert (HI : In x (nidx (Node OProd (Some (make_tensor gn)) acc n))) by (apply nidx_make; rewrite <- EQ; left; reflexivity).
            rewrite H in HI. destruct HI.
        - (* scalar * scalar *)
          assert (AE : forall x, ~ In x (nidx acc)) by (intros x HI; rewrite (proj1 IS EA) in HI; destruct HI).
          assert (OE : op f = []).
          { destruct (op f) as [|x l] eqn:E; auto. exfalso. assert (HI : In x (nidx n)) by (apply (proj2 (O x)); try rewrite E; left; reflexivity).
            rewrite (proj1 S EN) in HI. destruct HI. }
          split; [constructor|]. split; [|split; auto]. intros x. rewrite HA, OE. cbn [mem existsb]. rewrite Nat.add_0_r. split; [intros []|].
          intros H. exfalso. apply (AE x). apply II. destruct H as [H|[H1 H2]]; auto. }
      destruct RES as (R1 & R2 & R3). constructor; auto; try (intros x; apply (CN x)).
      (* the value *)
      intros r. unfold res. cbn [Bin_Spec.nval]. fold res.
      set (D := contracted (nidx acc) (nidx n) (nidx res)).
      assert (DI : forall x, In x D <-> (In x (nidx acc) \/ In x (op f)) /\ ~ In x (nidx res)).
      { intros x. unfold D, contracted. rewrite filter_In, nodup_In, in_app_iff, negb_true_iff, mem_false, (O x). reflexivity. }
      assert (E1 : forall s, mul (nval acc s) (nval n s) = sum_over (closed p (f :: q)) (fun s => kprod (map (fun y => dn y s) (p ++ [f]))) s).
      { intros s. rewrite IV, V. rewrite <- (sum_over_mul_r K zero one add mul SR).
        - apply (sum_over_ext K zero add). intros t. rewrite map_app. cbn [map]. rewrite (kprod_snoc K zero one add mul SR). reflexivity.
        - intros t x v Hx. apply closed_in in Hx as [Hx1 Hx2]. apply WF.
          + apply in_or_app. right. left. reflexivity.
          + intros HO. apply Hx2. apply SF. apply op_seen. exact HO. }
      rewrite (sum_over_ext K zero add dom D _ _ r E1), <- (sum_over_app K zero add). apply (sum_over_same K zero one add mul SR).
      - intros s s' H. apply kprod_ext. intros y _. apply dn_ext. exact H.
      - apply nodup_app; [apply NoDup_filter, NoDup_nodup|apply closed_nodup|]. intros x H1 H2. apply DI in H1 as [H1 _]. apply closed_in in H2 as [H2 H3].
        destruct H1 as [H1|H1]; [apply II in H1; destruct H1 as [H1|[_ H1]]; [lia|contradiction]|]. apply H3. apply SF. apply op_seen. exact H1.
      - apply closed_nodup.
      - intros x. rewrite in_app_iff, DI, !closed_in, (II x), (R2 x). rewrite HA, OF. split.
        + intros [[H1 H2]|[H1 H2]].
          * assert (L2 : 2 <= has x (ops p) + (if mem x (op f) then 1 else 0)).
            { destruct (mem x (op f)) eqn:E; destruct H1 as [[H1|[H1 _]]|H1]; try lia; try discriminate;
              (destruct (has x (ops p)) as [|[|h]]; [exfalso; apply H2; left; lia|try lia|lia]). }
            split; auto.
          * split; [lia|]. intros H. apply H2, NS, H.
        + intros [H1 H2]. destruct (mem x (op f)) eqn:E.
          * left. split; [right; reflexivity|]. intros [H|[_ H]]; [lia|contradiction].
          * rewrite Nat.add_0_r in *. destruct (neededb (f :: q) x) eqn:EN.
            -- apply neededb_right in EN. left. split; [left; right; auto|]. intros [H|[_ H]]; [lia|contradiction].
            -- right. split; auto. intros H. apply neededb_right in H. congruence.
    Qed.

    Fixpoint imed_ok (p rest : list bex) (im : list (list idx)) : Prop :=
      match rest, im with
      | [], [] => True
      | f :: q, u :: im' => (forall x, seen (p ++ [f]) x -> (In x u <-> needed q x)) /\ imed_ok (p ++ [f]) q im'
      | _, _ => False
      end.
    Lemma fold_prod_ok rest : forall p im ns acc,
      fresh (p ++ rest) -> keep_ok (p ++ rest) -> kp_ok (p ++ rest) ->
      (forall y, In y (p ++ rest) -> forall x, ~ In x (op y) -> forall r v, dn y (set r x v) = dn y r) ->
      (forall x, In null (all_indices x) -> ~ In x (p ++ rest)) ->
      imed_ok p rest im -> Forall2 factor_ok rest ns -> inv p rest acc ->
      inv (p ++ rest) [] (fold_prod acc im ns).
    Proof.
      induction rest as [|f q IH]; intros p im ns acc FR KO KP WF NU IM FN I0.
      - inversion FN; subst. rewrite app_nil_r. destruct im; exact I0.
      - inversion FN; subst. destruct im as [|u im]; [destruct IM|]. destruct IM as [IM1 IM2]. cbn [Bin_Model.fold_prod].
        replace (p ++ f :: q) with ((p ++ [f]) ++ q) in * by (rewrite <- app_assoc; reflexivity).
        apply IH; auto. apply inv_step; auto; replace (p ++ f :: q) with ((p ++ [f]) ++ q) by (rewrite <- app_assoc; reflexivity); auto.
    Qed.
    Lemma imed_ok_build : forall rest p im, length im = length rest ->
      (forall j u, nth_error im j = Some u -> forall x, seen (p ++ firstn (S j) rest) x -> (In x u <-> needed (skipn (S j) rest) x)) ->
      imed_ok p rest im.
    Proof.
      induction rest as [|f q IH]; intros p [|u im] HL H; try discriminate; cbn [imed_ok]; auto. split.
      - apply (H 0 u eq_refl).
      - apply IH; [cbn in HL; lia|]. intros j v Hv x Hx. apply (H (S j) v Hv). cbn [firstn]. rewrite <- app_assoc in Hx. exact Hx.
    Qed.
  End Fold.

  (** ** the whole conversion *)
  Record good (F : list idx) (e : bex) (n : node) : Prop := {
    g_nodup : NoDup (nidx n);
    g_open : same_set (nidx n) (gopen F e);
    g_scalar : scalar_iff n;
    g_val : forall r, nval n r = gden F e r }.
  Definition counted (F : list idx) (e : bex) (n : node) : Prop :=
    (forall x, In x (gopen F e) -> 1 <= cnt x (collect n) /\ (cnt x (collect n) = 1 \/ In x F)) /\
    (forall x, ~ In x (gopen F e) -> cnt x (collect n) <> 1) /\
    (forall x, 1 <= cnt x (collect n) -> In x (all_indices e)).

  Lemma null_free : forall e F, gok F e -> ~ In null (all_indices e).
  Proof.
    induction e as [c|v|t|l IH|c l IH] using bex_ind2; intros F W H.
    - destruct H.
    - destruct H.
    - destruct W as (_ & _ & W). apply W. exact H.
    - destruct W as (W1 & _ & W3). rewrite gok_list in W3. destruct l as [|y l]; [congruence|]. inversion IH; subst. apply (H2 F); [|exact H]. apply W3. left. reflexivity.
    - cbn [Bin_Spec.gok] in W. rewrite gok_factors in W. cbn [Bin_Model.all_indices] in H. apply in_flat_map in H as (y & Hy & H). rewrite Forall_forall in IH. apply (IH y Hy (kept F l y)); auto.
  Qed.

  Lemma is_tensor_right n : is_tensor K n = true <-> nres n <> None.
  Proof. unfold Bin_Model.is_tensor. destruct (nres n); split; congruence. Qed.

  Lemma fold_sum_val b : forall rest n r, nval (fold_sum b n rest) r = add (nval n r) (ksum (map (fun m => nval m r) rest)).
  Proof.
    unfold Bin_Model.fold_sum. induction rest as [|m rest IH]; intros n r; cbn [fold_left map Bin_Spec.ksum]; [ring|]. rewrite IH. cbn [Bin_Spec.nval]. ring.
  Qed.
  (** the slots of a sum of tensors *)
  Lemma fold_sum_tensor : forall rest n g, nres n = Some g -> NoDup (all_of_groups g) -> rest <> [] ->
    exists g', nres (fold_sum true n rest) = Some g' /\ collect (fold_sum true n rest) = [g'] /\ NoDup (all_of_groups g') /\ same_set (all_of_groups g') (all_of_groups g).
  Proof.
    unfold Bin_Model.fold_sum. induction rest as [|m rest IH]; intros n g HG ND HR; [congruence|]. cbn [fold_left]. rewrite HG. cbn [option_map].
    set (n' := Node OSum (Some (make_tensor g)) n m).
    assert (ND' : NoDup (all_of_groups (make_tensor g))) by (apply (nodup_make OSum g n m); exact ND).
    assert (SS : same_set (all_of_groups (make_tensor g)) (all_of_groups g)) by (intros x; apply (nidx_make OSum g n m)).
    destruct rest as [|m2 rest].
    - exists (make_tensor g). cbn [fold_left]. repeat split; auto; apply SS.
    - destruct (IH n' (make_tensor g) eq_refl ND') as (g' & H1 & H2 & H3 & H4); [discriminate|]. exists g'. repeat split; auto; intros H.
      + apply SS, H4, H.
      + apply H4, SS, H.
  Qed.
  Lemma fold_sum_scalar : forall rest n, rest <> [] -> nres (fold_sum false n rest) = None /\ collect (fold_sum false n rest) = [].
  Proof.
    unfold Bin_Model.fold_sum. induction rest as [|m rest IH]; intros n HR; [congruence|]. cbn [fold_left]. destruct rest as [|m2 rest]; [split; reflexivity|]. apply IH. discriminate.
  Qed.

  Lemma ksum_map2 {X Y} (f : X -> K) (g : Y -> K) l m (R : X -> Y -> Prop) : Forall2 R l m -> (forall x y, R x y -> f x = g y) -> ksum (map f l) = ksum (map g m).
  Proof. intros H E. induction H; cbn; auto. rewrite (E x y H), IHForall2. reflexivity. Qed.

  Lemma sum_ok F l ns : l <> [] ->
    (forall x y, In x l -> In y l -> same_set (gopen F x) (gopen F y)) ->
    Forall2 (fun x n => good F x n /\ counted F x n) l ns ->
    exists n, match ns with
        | [] => Undefined
        | n :: rest =>
            if forallb (is_tensor K) ns then Ret (fold_sum true n rest)
            else if forallb (fun n => negb (is_tensor K n)) ns then Ret (fold_sum false n rest)
            else Undefined
        end = Ret n /\ good F (Add l) n /\ counted F (Add l) n.
  Proof.
    intros HL SAME H. destruct l as [|y l]; [congruence|]. inversion H as [|? n0 ? rest [G0 C0] HR]; subst. clear H.
    assert (ALL : Forall (fun m => same_set (nidx m) (gopen F y) /\ scalar_iff m) (n0 :: rest)).
    { constructor; [split; apply G0|]. rewrite Forall_forall. intros m Hm. clear - HR SAME Hm.
      assert (Q : exists x, In x l /\ good F x m).
      { clear SAME. induction HR as [|a b l' r' [GA _] HR IH]; [destruct Hm|]. destruct Hm as [<-|Hm]; [exists a; split; [left; reflexivity|exact GA]|].
        destruct (IH Hm) as (x & Hx & Gx). exists x. split; [right; exact Hx|exact Gx]. }
      destruct Q as (x & Hx & Gx). split; [|apply Gx]. intros k. rewrite (g_open _ _ _ Gx k). apply SAME; [right; exact Hx|left; reflexivity]. }
    assert (VAL : forall b r, nval (fold_sum b n0 rest) r = gden F (Add (y :: l)) r).
    { intros b r. rewrite fold_sum_val. cbn [Bin_Spec.gden map Bin_Spec.ksum]. rewrite (g_val _ _ _ G0 r). f_equal. symmetry.
      eapply (ksum_map2 _ _ _ _ _ HR). intros x m [Gx _]. symmetry. apply Gx. }
    assert (RL : l = [] <-> rest = []) by (inversion HR; subst; split; congruence).
    destruct (gopen F y) as [|k0 o0] eqn:EO.
    - (* all scalar *)
      assert (SC : forall m, In m (n0 :: rest) -> nres m = None).
      { rewrite Forall_forall in ALL. intros m Hm. destruct (ALL m Hm) as [A1 A2]. apply A2. destruct (nidx m) as [|k o]; auto. exfalso. apply (A1 k). left. reflexivity. }
      exists (fold_sum false n0 rest). split.
      + replace (forallb (is_tensor K) (n0 :: rest)) with false.
        * replace (forallb (fun n => negb (is_tensor K n)) (n0 :: rest)) with true; [reflexivity|]. symmetry. apply forallb_forall. intros m Hm.
          unfold Bin_Model.is_tensor. rewrite (SC m Hm). reflexivity.
        * cbn [forallb]. unfold Bin_Model.is_tensor at 1. rewrite (SC n0 (or_introl eq_refl)). reflexivity.
      + assert (NR : nres (fold_sum false n0 rest) = None).
        { destruct rest as [|m rest]; [apply SC; left; reflexivity|]. apply fold_sum_scalar. discriminate. }
        assert (NI : nidx (fold_sum false n0 rest) = []) by (unfold Bin_Spec.nidx; rewrite NR; reflexivity).
        split.
        * constructor; [rewrite NI; constructor| |split; auto|apply VAL]. intros x. rewrite NI. cbn [Bin_Spec.gopen]. rewrite EO. reflexivity.
        * destruct rest as [|m rest].
          -- destruct (proj2 RL eq_refl). exact C0.
          -- unfold counted. destruct (fold_sum_scalar (m :: rest) n0) as [_ ->]; [discriminate|]. unfold cnt, gocc. cbn. rewrite EO. split; [|split]; try lia.
             intros x [].
    - (* all tensors *)
      assert (SC : forall m, In m (n0 :: rest) -> nres m <> None).
      { rewrite Forall_forall in ALL. intros m Hm E. destruct (ALL m Hm) as [A1 A2]. apply A2 in E. assert (Q : In k0 (nidx m)) by (apply A1; left; reflexivity). rewrite E in Q. destruct Q. }
      exists (fold_sum true n0 rest). split.
      + replace (forallb (is_tensor K) (n0 :: rest)) with true; [reflexivity|]. symmetry. apply forallb_forall. intros m Hm. apply is_tensor_right. apply SC. exact Hm.
      + destruct rest as [|m rest].
        * destruct (proj2 RL eq_refl). split; [|exact C0]. constructor; try apply G0. apply VAL.
        * destruct (nres n0) as [g|] eqn:EG; [|exfalso; apply (SC n0 (or_introl eq_refl)); exact EG].
          assert (NG : nidx n0 = all_of_groups g) by (unfold Bin_Spec.nidx; rewrite EG; reflexivity).
          destruct (fold_sum_tensor (m :: rest) n0 g EG) as (g' & H1 & H2 & H3 & H4); [rewrite <- NG; apply G0|discriminate|].
          assert (NG' : nidx (fold_sum true n0 (m :: rest)) = all_of_groups g') by (unfold Bin_Spec.nidx; rewrite H1; reflexivity).
          assert (SO : same_set (all_of_groups g') (gopen F y)).
          { intros x. rewrite (H4 x), <- NG. apply (g_open _ _ _ G0). }
          split.
          -- constructor; [rewrite NG'; exact H3|rewrite NG'; exact SO| |apply VAL].
             split; [congruence|]. rewrite NG'. intros E. exfalso. assert (Q : In k0 (all_of_groups g')) by (apply SO; rewrite EO; left; reflexivity). rewrite E in Q. destruct Q.
          -- unfold counted. rewrite H2.
             assert (CC : forall x, cnt x [g'] = if mem x (all_of_groups g') then 1 else 0) by (intros x; rewrite cnt_single; apply nodup_count; exact H3).
             split; [|split]; intros x Hx; rewrite CC in *; cbn [Bin_Spec.gopen] in *.
             ++ apply SO in Hx. apply mem_in in Hx. rewrite Hx. auto.
             ++ rewrite <- (SO x) in Hx. apply mem_false in Hx. rewrite Hx. discriminate.
             ++ destruct (mem x (all_of_groups g')) eqn:E; [|lia]. apply mem_in in E. apply SO in E. cbn [Bin_Model.all_indices]. eapply gopen_seen. exact E.
  Qed.

  Theorem gbinarize_ok : forall e F, gok F e -> exists n, binarize e F = Ret n /\ good F e n /\ counted F e n.
  Proof.
    induction e as [c|v|t|l IH|c l IH] using bex_ind2; intros F W.
    - exists (Leaf (LCon c)). split; [reflexivity|]. split; [constructor; cbn; auto; [constructor|intros x; reflexivity|split; auto]|].
      split; [intros x []|split; cbn; intros; unfold cnt, gocc in *; cbn in *; lia].
    - exists (Leaf (LVar v)). split; [reflexivity|]. split; [constructor; cbn; auto; [constructor|intros x; reflexivity|split; auto]|].
      split; [intros x []|split; cbn; intros; unfold cnt, gocc in *; cbn in *; lia].
    - destruct W as (W1 & W2 & W3). exists (Leaf (LTen t)). split; [|split].
      + cbn [Bin_Model.binarize]. destruct (tbra t ++ tket t ++ taux t); [congruence|reflexivity].
      + constructor; [exact W1| |split; [discriminate|intros E; exfalso; apply W2; exact E]|reflexivity].
        intros x. cbn [Bin_Spec.gopen]. rewrite nodup_In. reflexivity.
      + assert (CC : forall x, cnt x (collect (Leaf (LTen t))) = if mem x (tbra t ++ tket t ++ taux t) then 1 else 0).
        { intros x. cbn [Bin_Model.collect]. rewrite cnt_single. apply nodup_count. exact W1. }
        split; [|split]; intros x Hx; rewrite CC in *; cbn [Bin_Spec.gopen Bin_Model.all_indices] in *; rewrite ?nodup_In in Hx.
        * apply mem_in in Hx. rewrite Hx. auto.
        * apply mem_false in Hx. rewrite Hx. discriminate.
        * destruct (mem x (tbra t ++ tket t ++ taux t)) eqn:E; [|lia]. apply mem_in. exact E.
    - destruct W as (W1 & W2 & W3). rewrite gok_list in W3.
      assert (GO : exists ns, (fix go l := match l with [] => Ret [] | x :: l' => bind (binarize x F) (fun n => bind (go l') (fun r => Ret (n :: r))) end) l = Ret ns /\
        Forall2 (fun x n => good F x n /\ counted F x n) l ns).
      { clear W1 W2. induction l as [|x l IHl]; [exists []; split; [reflexivity|constructor]|]. inversion IH as [|? ? IHx IHr]; subst.
        destruct (IHx F) as (n & E1 & G1 & C1); [apply W3; left; reflexivity|].
        destruct IHl as (ns & E2 & G2); [exact IHr|intros y Hy; apply W3; right; exact Hy|].
        exists (n :: ns). rewrite E1. cbn [bind]. rewrite E2. split; [reflexivity|]. constructor; auto. }
      destruct GO as (ns & E & G). destruct (sum_ok F l ns W1 W2 G) as (n & S1 & S2 & S3). exists n. cbn [Bin_Model.binarize]. rewrite E. cbn [bind]. auto.
    - destruct l as [|y l].
      + exists (Leaf (LCon c)). split; [reflexivity|]. split.
        * constructor; [constructor|intros x; reflexivity|split; auto|]. intros r. cbn. ring.
        * split; [intros x []|split; cbn; intros; unfold cnt, gocc in *; cbn in *; lia].
      + set (L := y :: l). assert (W3 : forall x, In x L -> gok (kept F L x) x) by (apply (proj1 (gok_factors F L L)); exact W).
        set (rng := map (fun x => nodup Nat.eq_dec (all_indices x)) L).
        set (im := map (fun k => filter (fun x => (occurrences x (firstn k rng) <? occurrences x rng) || mem x F) (union_of (firstn k rng))) (seq 1 (length rng))).
        assert (OCC : forall x, occurrences x rng = has x (map all_indices L)).
        { intros x. unfold occurrences, has, rng. clear. induction L as [|z l0 IH]; [reflexivity|]. cbn [map filter]. rewrite mem_nodup. destruct (mem x (all_indices z)); cbn [length]; rewrite IH; reflexivity. }
        assert (EL : ltr rng F = Ret (map (kept F L) L, im)).
        { change (ltr rng F) with (Ret (map (fun s => filter (fun x => (1 <? occurrences x rng) || mem x F) s) rng, im)). f_equal. f_equal.
          unfold rng at 2. rewrite map_map. apply map_ext. intros z. unfold Bin_Spec.kept. apply filter_ext_in'. intros x _. rewrite OCC. reflexivity. }
        assert (RN : forall j s x, nth_error rng j = Some s -> (In x s <-> exists z, nth_error L j = Some z /\ In x (all_indices z))).
        { intros j s x H. unfold rng in H. rewrite nth_error_map in H. destruct (nth_error L j) as [z|]; [|discriminate]. cbn in H. injection H as <-.
          rewrite nodup_In. split; [intros H; exists z; auto|intros (z' & E & H); congruence]. }
        destruct (ltr_right rng F _ im EL) as (_ & L2 & L3 & L4). unfold rng in L2. rewrite map_length in L2.
        assert (KP : forall i x k, nth_error L i = Some x -> (In k (kept F L x) <-> In k (all_indices x) /\ ((exists j z, j <> i /\ nth_error L j = Some z /\ In k (all_indices z)) \/ In k F))).
        { intros i x k Hx. assert (HR : nth_error rng i = Some (nodup Nat.eq_dec (all_indices x))) by (unfold rng; rewrite nth_error_map, Hx; reflexivity).
          assert (HC : nth_error (map (kept F L) L) i = Some (kept F L x)) by (rewrite nth_error_map, Hx; reflexivity).
          rewrite (L3 i _ _ HR HC k), nodup_In. split; intros [H1 [(j & s & NE & Hs & Hi)|H]]; split; auto; left.
          - apply (RN j s k Hs) in Hi as (z & Hz & Hi). exists j, z. auto.
          - exists j, (nodup Nat.eq_dec (all_indices s)). split; auto. split; [unfold rng; rewrite nth_error_map, Hs; reflexivity|]. apply nodup_In. exact Hi. }
        set (op := fun x => gopen (kept F L x) x). set (dn := fun x => gden (kept F L x) x).
        assert (GEN : forall l0, Forall (fun b => forall F, gok F b -> exists n, binarize b F = Ret n /\ good F b n /\ counted F b n) l0 ->
           (forall x, In x l0 -> gok (kept F L x) x) ->
           exists ns, (fix go l cs := match l with
               | [] => Ret []
               | x :: l' =>
                   match cs with
                   | [] => Undefined
                   | ch :: cs' => bind (binarize x ch) (fun n => bind (go l' cs') (fun r => Ret (n :: r)))
                   end
               end) l0 (map (kept F L) l0) = Ret ns /\ Forall2 (factor_ok op dn (kept F L)) l0 ns).
        { clear - SR. induction l0 as [|x l' IHl]; intros IH W3; [exists []; split; [reflexivity|constructor]|].
          inversion IH as [|? ? IHx IHr]; subst. cbn [map].
          destruct (IHx (kept F L x) (W3 x (or_introl eq_refl))) as (n & E1 & [G1 G2 G3 G4] & (C1 & C2 & C3)). destruct (IHl IHr (fun z Hz => W3 z (or_intror Hz))) as (ns & E2 & GG).
          exists (n :: ns). rewrite E1. cbn [bind]. rewrite E2. split; [reflexivity|]. constructor; auto. constructor; auto.
          - intros z Hz. apply (C1 z Hz).
          - intros z Hz. apply (C1 z Hz). }
        assert (GO := GEN L IH W3). clear GEN.
        destruct GO as (ns & E & G). inversion G as [|? n0 ? rest GY GR]; subst.
        set (p := fold_prod n0 (tl im) rest).
        assert (OPS : forall y0 x, In x (op y0) -> In x (all_indices y0)) by (intros y0 x; apply gopen_seen).
        assert (FRESH : fresh op L).
        { intros i j x z k Hi Hj NE H1 H2. apply gopen_kept; [apply W3; eapply nth_error_In; exact Hi| |exact H1]. apply (KP i x k Hi). split; [exact H1|]. left. exists j, z. auto. }
        assert (KO : keep_ok F op L).
        { intros x k Hx Hk H1. apply gopen_kept; [apply W3; exact Hx| |exact H1]. apply kept_in. auto. }
        assert (INV : inv F op dn L [] p).
        { unfold p, L. change (y :: l) with ([y] ++ l). apply fold_prod_ok with (kp := kept F L); auto.
          - intros z. apply gden_ext.
          - intros i x k Hx Hk. apply (KP i x k Hx) in Hk as [_ Hk]. exact Hk.
          - intros z Hz x Hx r v. apply gden_indep; auto.
          - intros x HN HI. apply (null_free x _ (W3 x HI) HN).
          - destruct im as [|i0 im0] eqn:EIM; [discriminate|]. cbn [tl]. apply imed_ok_build; [cbn in L2; lia|].
            intros j u Hu x Hx. destruct (L4 (S j) u Hu) as [_ L5]. rewrite (L5 x). unfold needed. split.
            + intros [_ [(j' & s & HJ & Hs & Hi)|H]]; [left|right; exact H]. apply (RN j' s x Hs) in Hi as (z & Hz & Hi). exists z. split; auto.
              destruct j' as [|j']; [lia|]. unfold L in Hz. cbn [nth_error] in Hz. assert (HL : j' < length l) by (apply nth_error_Some; congruence).
              rewrite <- (firstn_skipn (S j) l) in Hz. rewrite nth_error_app2 in Hz by (rewrite firstn_length; lia). eapply nth_error_In. exact Hz.
            + intros H. split.
              * destruct Hx as (z & Hz & Hi). apply in_app_or in Hz. destruct Hz as [[<-|[]]|Hz].
                -- exists 0, (nodup Nat.eq_dec (all_indices y)). split; [lia|]. split; [reflexivity|]. rewrite nodup_In. exact Hi.
                -- apply In_nth_error in Hz as [i Hz]. assert (HL : i < length (firstn (S j) l)) by (apply nth_error_Some; congruence).
                   assert (HZ : nth_error l i = Some z) by (rewrite <- (firstn_skipn (S j) l), nth_error_app1 by exact HL; exact Hz). rewrite firstn_length in HL.
                   exists (S i), (nodup Nat.eq_dec (all_indices z)). split; [lia|]. split; [|rewrite nodup_In; exact Hi].
                   unfold rng. rewrite nth_error_map. unfold L. cbn [nth_error]. rewrite HZ. reflexivity.
              * destruct H as [(z & Hz & Hi)|H]; [left|right; exact H]. apply In_nth_error in Hz as [i Hz].
                exists (S (S j) + i), (nodup Nat.eq_dec (all_indices z)). split; [lia|]. split; [|rewrite nodup_In; exact Hi].
                unfold rng. rewrite nth_error_map. change (option_map (fun x0 => nodup Nat.eq_dec (all_indices x0)) (nth_error l (S j + i)) = Some (nodup Nat.eq_dec (all_indices z))).
                assert (HS : S j <= length l). { destruct (le_lt_dec (S j) (length l)); auto. rewrite skipn_all2 in Hz by lia. destruct i; discriminate. }
                rewrite <- (firstn_skipn (S j) l) at 1. rewrite nth_error_app2 by (rewrite firstn_length; lia). rewrite firstn_length, Nat.min_l by lia.
                replace (S j + i - S j) with i by lia. rewrite Hz. reflexivity.
          - apply inv_start with (kp := kept F L); auto. intros i x k Hx Hk. apply (KP i x k Hx) in Hk as [_ Hk]. exact Hk. }
        assert (PE : fold_prod n0 (tl im) rest = p) by reflexivity. clearbody p. destruct INV as [I1 I2 I3 I4 I5 I5b I6 I7].
        assert (ND : forall x, needed F [] x <-> In x F). { intros x. unfold needed, seen. split; [intros [(z & [] & _)|H]; exact H|auto]. }
        assert (OP : same_set (nidx p) (gopen F (Mul c L))).
        { intros x. rewrite (I2 x), gopen_mul, ND. fold op. change (gopens F L L) with (ops op L). split; intros [H|[H1 H2]]; try (left; exact H); [right; split; [lia|exact H2]|].
          destruct (Nat.eq_dec (has x (ops op L)) 1); [left; assumption|right; split; [lia|exact H2]]. }
        assert (CT : counted F (Mul c L) p).
        { split; [|split].
          - intros x Hx. apply gopen_mul in Hx. change (gopens F L L) with (ops op L) in Hx. specialize (I5 x). destruct Hx as [Hx|[Hx1 Hx2]].
            + split; [lia|]. destruct (I5b x Hx) as [Q|Q]; [left; exact Q|right; apply ND; exact Q].
            + split; [lia|right; exact Hx2].
          - intros x Hx. rewrite gopen_mul in Hx. change (gopens F L L) with (ops op L) in Hx. destruct (has x (ops op L)) as [|[|h]] eqn:EH.
            + apply I6. exact EH.
            + exfalso. apply Hx. left. reflexivity.
            + specialize (I5 x). lia.
          - intros x Hx. apply I7 in Hx as (z & Hz & Hi). cbn [Bin_Model.all_indices]. apply in_flat_map. eauto. }
        assert (VL : forall r, mul c (nval p r) = gden F (Mul c L) r).
        { intros r. rewrite I4. reflexivity. }
        change (exists n, binarize (Mul c L) F = Ret n /\ good F (Mul c L) n /\ counted F (Mul c L) n).
        assert (BE : binarize (Mul c L) F = if is_one c then Ret p else Ret (Node OProd (option_map make_tensor (nres p)) p (Leaf (LCon c)))).
        { unfold L. cbn [Bin_Model.binarize]. fold L. fold rng. rewrite EL. cbn [bind fst snd].
          match goal with |- bind ?m ?f = _ => change (bind m f = if is_one c then Ret p else Ret (Node OProd (option_map make_tensor (nres p)) p (Leaf (LCon c)))); replace m with (@Ret (list node) (n0 :: rest)) by (symmetry; exact E) end.
          cbn [bind]. rewrite PE. reflexivity. }
        rewrite BE. destruct (is_one c) eqn:E1.
        * exists p. split; [reflexivity|]. split; [|exact CT]. constructor; auto. intros r. rewrite <- VL, (is_one_right c E1). ring.
        * eexists. split; [reflexivity|]. set (q := Node OProd _ _ _).
          assert (NQ : same_set (nidx q) (nidx p) /\ NoDup (nidx q) /\ scalar_iff q).
          { unfold q. destruct (nres p) as [g|] eqn:EP; cbn [option_map].
            - assert (NG : nidx p = all_of_groups g) by (unfold Bin_Spec.nidx; rewrite EP; reflexivity).
              assert (SS : same_set (nidx (Node OProd (Some (make_tensor g)) p (Leaf (LCon c)))) (nidx p)) by (intros x; rewrite NG; apply nidx_make).
              split; [exact SS|]. split; [apply nodup_make; rewrite <- NG; exact I1|]. split; [discriminate|]. intros H. exfalso.
              assert (NE : nidx p <> []) by (intros Q; apply I3 in Q; congruence). destruct (nidx p) as [|k o]; [congruence|].
              assert (Q : In k []) by (rewrite <- H; apply SS; left; reflexivity). destruct Q.
            - assert (NG : nidx p = []) by (apply I3; exact EP). rewrite NG. split; [intros x; reflexivity|]. split; [constructor|split; auto]. }
          destruct NQ as (Q1 & Q2 & Q3). split.
          -- constructor; auto.
             ++ intros x. rewrite (Q1 x). apply OP.
             ++ intros r. rewrite <- VL. unfold q. cbn [Bin_Spec.nval]. fold q.
                replace (contracted (nidx p) (nidx (Leaf (LCon c))) (nidx q)) with (@nil idx); [cbn [Bin_Spec.sum_over]; ring|].
                symmetry. destruct (contracted (nidx p) (nidx (Leaf (LCon c))) (nidx q)) as [|x o] eqn:EC; auto. exfalso.
                assert (HX : In x (contracted (nidx p) (nidx (Leaf (LCon c))) (nidx q))) by (rewrite EC; left; reflexivity).
                unfold contracted in HX. rewrite filter_In, nodup_In, in_app_iff, negb_true_iff, mem_false in HX. destruct HX as [[HX|[]] HX2]. apply HX2, Q1, HX.
          -- unfold counted, q. cbn [Bin_Model.collect]. rewrite app_nil_r. exact CT.
  Qed.

  (** ** the two readings agree on well-formed expressions *)
  Lemma open_keep_eq : forall e F, (forall k, In k F -> In k (open [] e)) -> open F e = open [] e.
  Proof.
    induction e as [c|v|t|l IH|c l IH] using bex_ind2; intros F HF; try reflexivity.
    - destruct l as [|y l]; [reflexivity|]. cbn in *. inversion IH; subst. auto.
    - cbn [Bin_Spec.open]. apply filter_ext_in'. intros x _. fold (opens l). destruct (Nat.eqb (has x (opens l)) 1) eqn:E; [reflexivity|]. cbn [orb mem existsb].
      apply mem_false. intros H. apply HF in H. apply open_mul in H as [H|[_ []]]. apply Nat.eqb_neq in E. contradiction.
  Qed.
  Lemma kept_open F c l : wf (Mul c l) -> keepable F (Mul c l) -> forall x k, In x l -> In k (kept F l x) -> In k (open [] x).
  Proof.
    intros [W _] KE x k Hx Hk. apply kept_in in Hk as [H1 H2]. destruct H2 as [H2|H2]; [|apply KE; auto].
    apply In_nth_error in Hx as [i Hi].
    assert (Q : exists j y, j <> i /\ nth_error l j = Some y /\ In k (all_indices y)).
    { clear - H1 H2 Hi. revert i Hi H2. induction l as [|y l IH]; intros i Hi H2; [destruct i; discriminate|]. unfold has in H2. cbn [map filter] in H2.
      destruct i as [|i].
      - cbn in Hi. injection Hi as ->. replace (mem k (all_indices x)) with true in H2 by (symmetry; apply mem_in; exact H1). cbn [length] in H2.
        assert (P : 1 <= has k (map all_indices l)) by (unfold has; lia). apply has_pos in P as (o & Ho & Hk). apply in_map_iff in Ho as (y & <- & Hy).
        apply In_nth_error in Hy as [j Hj]. exists (S j), y. auto.
      - cbn in Hi. destruct (mem k (all_indices y)) eqn:E; cbn [length] in H2.
        + exists 0, y. split; [lia|]. split; [reflexivity|]. apply mem_in. exact E.
        + destruct (IH i Hi H2) as (j & z & NE & Hz & Hk). exists (S j), z. split; [lia|]. auto. }
    destruct Q as (j & y & NE & Hy & Hk). eapply (W i j x y k); eauto.
  Qed.
  Lemma g_of_wf : forall e F, wf e -> keepable F e -> gopen F e = open F e /\ gok F e /\ forall r, gden F e r = den F e r.
  Proof.
    induction e as [c|v|t|l IH|c l IH] using bex_ind2; intros F W KE; try (repeat split; auto; apply W).
    - destruct W as (W1 & W2 & W3). rewrite wf_list in W3. destruct KE as (K1 & K2). rewrite keepable_list in K2. rewrite Forall_forall in IH.
      assert (A : forall x, In x l -> gopen F x = open F x /\ gok F x /\ forall r, gden F x r = den F x r) by (intros x Hx; apply IH; auto).
      split; [|split].
      + destruct l as [|y l]; [congruence|]. cbn. apply A. left. reflexivity.
      + split; [exact W1|]. split; [|apply gok_list; intros x Hx; apply A; exact Hx]. intros x y Hx Hy. rewrite (proj1 (A x Hx)), (proj1 (A y Hy)). apply K1; auto.
      + intros r. cbn [Bin_Spec.gden Bin_Spec.den]. apply (ksum_ext K zero add). intros x Hx. apply A. exact Hx.
    - assert (KO := kept_open F c l W KE). destruct W as (_ & W3). rewrite wf_list in W3. rewrite Forall_forall in IH.
      assert (A : forall x, In x l -> gopen (kept F l x) x = open [] x /\ gok (kept F l x) x /\ forall r, gden (kept F l x) x r = den [] x r).
      { intros x Hx. destruct (open_keep x (kept F l x) (W3 x Hx) (fun k => KO x k Hx)) as (_ & K2 & K3).
        destruct (IH x Hx (kept F l x) (W3 x Hx) K2) as (I1 & I2 & I3). split; [rewrite I1; apply open_keep_eq; intros k; apply KO; exact Hx|]. split; [exact I2|].
        intros r. rewrite I3. apply K3. }
      assert (EO : map (fun x => gopen (kept F l x) x) l = map (open []) l) by (apply map_ext_in; intros x Hx; apply A; exact Hx).
      split; [|split].
      + cbn [Bin_Spec.gopen Bin_Spec.open]. rewrite EO. reflexivity.
      + cbn [Bin_Spec.gok]. apply gok_factors. intros x Hx. apply A. exact Hx.
      + intros r. cbn [Bin_Spec.gden Bin_Spec.den]. f_equal. unfold Bin_Spec.gsummed, Bin_Spec.summed. rewrite EO. apply (sum_over_ext K zero add). intros s. apply kprod_ext. intros x Hx. apply A. exact Hx.
  Qed.

  (** ** regrouping factors *)
  Lemma kprod_app l m : kprod (l ++ m) = mul (kprod l) (kprod m).
  Proof. induction l as [|x l IH]; cbn [app Bin_Spec.kprod]; [ring|rewrite IH; ring]. Qed.
  Lemma kprod_perm l m : Permutation l m -> kprod l = kprod m.
  Proof. intros H. induction H; cbn [Bin_Spec.kprod]; auto; [rewrite IHPermutation; reflexivity|ring|congruence]. Qed.
  Lemma has_perm x l m : Permutation l m -> has x l = has x m.
  Proof.
    unfold has. intros H. induction H; cbn [filter]; auto; try congruence.
    - destruct (mem x x0); cbn [length]; congruence.
    - destruct (mem x x0); destruct (mem x y); reflexivity.
  Qed.

  (** reordering the factors *)
  Lemma kept_perm F l m x : Permutation l m -> kept F l x = kept F m x.
  Proof. intros H. unfold Bin_Spec.kept. apply filter_ext_in'. intros k _. rewrite (has_perm k _ _ (Permutation_map all_indices H)). reflexivity. Qed.
  Lemma gopens_perm F l m x : Permutation l m -> has x (gopens F l l) = has x (gopens F m m).
  Proof.
    intros H. rewrite (has_perm x (gopens F l l) (gopens F l m)) by (apply Permutation_map; exact H). unfold gopens. f_equal. apply map_ext. intros y. rewrite (kept_perm F l m y H). reflexivity.
  Qed.
  Theorem reorder_factors F c l m : Permutation l m ->
    (gok F (Mul c l) <-> gok F (Mul c m)) /\ same_set (gopen F (Mul c l)) (gopen F (Mul c m)) /\ forall r, gden F (Mul c l) r = gden F (Mul c m) r.
  Proof.
    intros H. split; [|split].
    - cbn [Bin_Spec.gok]. rewrite !gok_factors. split; intros Q x Hx; [rewrite <- (kept_perm F l m x H)|rewrite (kept_perm F l m x H)]; apply Q; eapply Permutation_in; [| exact Hx | | exact Hx]; [apply Permutation_sym|]; exact H.
    - intros x. rewrite !gopen_mul, (gopens_perm F l m x H). reflexivity.
    - intros r. cbn [Bin_Spec.gden]. f_equal. etransitivity.
      + apply (sum_over_same K zero one add mul SR) with (ys := gsummed F m); try apply gsummed_nodup.
        * intros s s' E. apply kprod_ext. intros y _. apply gden_ext. exact E.
        * intros x. rewrite !gsummed_in, (gopens_perm F l m x H). reflexivity.
      + apply (sum_over_ext K zero add). intros s. rewrite (kprod_perm _ (map (fun x => gden (kept F l x) x s) m)) by (apply Permutation_map; exact H).
        apply kprod_ext. intros y _. rewrite (kept_perm F l m y H). reflexivity.
  Qed.

  (** flattening a factor that is a product *)
  Section Flat.
    Variables (F : list idx) (s : K) (l m : list bex).
    Let N := Mul s m.
    Let LN := N :: l.
    Let LF := m ++ l.
    Let G := kept F LN N.
    Lemma has_cons x o os : has x (o :: os) = (if mem x o then 1 else 0) + has x os.
    Proof. unfold has. cbn [filter]. destruct (mem x o); reflexivity. Qed.
    Lemma seen_has x (q : list bex) : In x (flat_map all_indices q) <-> 1 <= has x (map all_indices q).
    Proof.
      rewrite in_flat_map, has_pos. split; [intros (y & H1 & H2); exists (all_indices y); split; auto; apply in_map; exact H1|].
      intros (o & H1 & H2). apply in_map_iff in H1 as (y & <- & H1). eauto.
    Qed.
    Lemma has_LN x : has x (map all_indices LN) = (if mem x (flat_map all_indices m) then 1 else 0) + has x (map all_indices l).
    Proof. unfold LN. cbn [map]. rewrite has_cons. reflexivity. Qed.
    Lemma has_LF x : has x (map all_indices LF) = has x (map all_indices m) + has x (map all_indices l).
    Proof. unfold LF. rewrite map_app. apply has_app. Qed.
    Lemma kept_others y : In y l -> kept F LN y = kept F LF y.
    Proof.
      intros Hy. unfold Bin_Spec.kept. apply filter_ext_in'. intros x Hx. rewrite nodup_In in Hx. rewrite has_LN, has_LF. f_equal.
      assert (P : 1 <= has x (map all_indices l)) by (apply has_pos; exists (all_indices y); split; [apply in_map; exact Hy|exact Hx]).
      destruct (mem x (flat_map all_indices m)) eqn:E.
      - apply mem_in in E. rewrite seen_has in E. destruct (Nat.ltb_spec 1 (1 + has x (map all_indices l))); destruct (Nat.ltb_spec 1 (has x (map all_indices m) + has x (map all_indices l))); try reflexivity; lia.
      - apply mem_false in E. rewrite seen_has in E. replace (has x (map all_indices m)) with 0 by lia. reflexivity.
    Qed.
    Lemma kept_inner y : In y m -> kept G m y = kept F LF y.
    Proof.
      intros Hy. unfold Bin_Spec.kept at 1. unfold Bin_Spec.kept at 1. apply filter_ext_in'. intros x Hx. rewrite nodup_In in Hx. rewrite has_LF.
      assert (P : In x (flat_map all_indices m)) by (apply in_flat_map; eauto). assert (P2 := P). rewrite seen_has in P2.
      assert (GI : In x G <-> 1 <= has x (map all_indices l) \/ In x F).
      { unfold G. rewrite kept_in, has_LN. replace (mem x (flat_map all_indices m)) with true by (symmetry; apply mem_in; exact P). cbn [Bin_Model.all_indices]. unfold N. cbn [Bin_Model.all_indices]. split.
        - intros [_ [H|H]]; [left; lia|right; exact H].
        - intros [H|H]; (split; [exact P|]); [left; lia|right; exact H]. }
      apply eq_true_iff_eq. rewrite !orb_true_iff, !Nat.ltb_lt, !mem_in, GI. split; [intros [H|[H|H]]|intros [H|H]]; try (right; exact H); try (left; lia); auto.
      destruct (le_lt_dec 1 (has x (map all_indices l))); [right; left; assumption|left; lia].
    Qed.
    Lemma gopens_LN : gopens F LN LN = gopen G N :: gopens F LF l.
    Proof. unfold gopens at 1. unfold LN at 2. cbn [map]. f_equal. apply map_ext_in. intros y Hy. rewrite (kept_others y Hy). reflexivity. Qed.
    Lemma gopens_LF : gopens F LF LF = gopens G m m ++ gopens F LF l.
    Proof. unfold gopens. unfold LF at 2. rewrite map_app. f_equal. apply map_ext_in. intros y Hy. rewrite (kept_inner y Hy). reflexivity. Qed.
    Lemma gok_flat c c' : gok F (Mul c LN) <-> gok F (Mul c' LF).
    Proof.
      cbn [Bin_Spec.gok]. rewrite !gok_factors. unfold LN at 1, LF at 1. split.
      - intros H x Hx. apply in_app_or in Hx as [Hx|Hx].
        + assert (Q := H N (or_introl eq_refl)). unfold N in Q. cbn [Bin_Spec.gok] in Q. fold N in Q. fold G in Q. rewrite gok_factors in Q. rewrite <- (kept_inner x Hx). apply Q. exact Hx.
        + rewrite <- (kept_others x Hx). apply H. right. exact Hx.
      - intros H x [<-|Hx].
        + fold G. unfold N. cbn [Bin_Spec.gok]. apply gok_factors. intros y Hy. rewrite (kept_inner y Hy). apply H. apply in_or_app. left. exact Hy.
        + rewrite (kept_others x Hx). apply H. apply in_or_app. right. exact Hx.
    Qed.
    Lemma G_in x : In x (flat_map all_indices m) -> (In x G <-> 1 <= has x (map all_indices l) \/ In x F).
    Proof.
      intros P. unfold G. rewrite kept_in, has_LN. replace (mem x (flat_map all_indices m)) with true by (symmetry; apply mem_in; exact P). unfold N. cbn [Bin_Model.all_indices]. split.
      - intros [_ [H|H]]; [left; lia|right; exact H].
      - intros [H|H]; (split; [exact P|]); [left; lia|right; exact H].
    Qed.
    Hypothesis OKF : gok F (Mul one LF).
    (** an index that is seen outside and inside is open outside *)
    Lemma seen_open x : In x (flat_map all_indices m) -> 1 <= has x (map all_indices l) -> 1 <= has x (gopens F LF l).
    Proof.
      intros P H. apply has_pos in H as (o & H1 & H2). apply in_map_iff in H1 as (y & <- & Hy). apply has_pos. exists (gopen (kept F LF y) y). split; [unfold gopens; apply in_map_iff; exists y; auto|].
      cbn [Bin_Spec.gok] in OKF. rewrite gok_factors in OKF. apply gopen_kept; auto; [apply OKF; apply in_or_app; right; exact Hy|].
      apply kept_in. split; auto. left. rewrite has_LF. rewrite seen_has in P. assert (1 <= has x (map all_indices l)) by (apply has_pos; exists (all_indices y); split; [apply in_map; exact Hy|exact H2]). lia.
    Qed.
    Lemma has_inner_seen x : 1 <= has x (gopens G m m) -> In x (flat_map all_indices m).
    Proof. intros H. apply has_pos in H as (o & H1 & H2). unfold gopens in H1. apply in_map_iff in H1 as (y & <- & Hy). apply in_flat_map. exists y. split; auto. eapply gopen_seen. exact H2. Qed.
    Lemma has_outer_seen x : 1 <= has x (gopens F LF l) -> 1 <= has x (map all_indices l).
    Proof. intros H. apply has_pos in H as (o & H1 & H2). unfold gopens in H1. apply in_map_iff in H1 as (y & <- & Hy). apply has_pos. exists (all_indices y). split; [apply in_map; exact Hy|]. eapply gopen_seen. exact H2. Qed.
    Lemma mem_gopen_N x : mem x (gopen G N) = true <-> has x (gopens G m m) = 1 \/ (1 <= has x (gopens G m m) /\ In x G).
    Proof. rewrite mem_in. unfold N. apply gopen_mul. Qed.

    Lemma flat_open c c' : same_set (gopen F (Mul c LN)) (gopen F (Mul c' LF)).
    Proof.
      intros x. rewrite !gopen_mul, gopens_LN, gopens_LF, has_app, has_cons. assert (MN := mem_gopen_N x).
      set (hm := has x (gopens G m m)) in *. set (hl := has x (gopens F LF l)) in *.
      destruct (le_lt_dec 1 hm) as [Lm|Lm].
      - assert (SM := has_inner_seen x Lm). rewrite (G_in x SM) in MN. assert (SO := seen_open x SM). fold hl in SO. assert (HS := has_outer_seen x). fold hl in HS.
        destruct (mem x (gopen G N)) eqn:E.
        + destruct (proj1 MN eq_refl) as [H|[_ [H|H]]].
          * rewrite H. reflexivity.
          * specialize (SO H). split; intros [Q|[_ Q]]; try lia; right; (split; [lia|exact Q]).
          * split; intros _; right; (split; [lia|exact H]).
        + assert (NE : hm <> 1) by (intros H; assert (Q : false = true) by (apply MN; left; exact H); discriminate).
          assert (NH : ~ 1 <= has x (map all_indices l)) by (intros H; assert (Q : false = true) by (apply MN; right; split; [lia|left; exact H]); discriminate).
          assert (NF : ~ In x F) by (intros H; assert (Q : false = true) by (apply MN; right; split; [lia|right; exact H]); discriminate).
          assert (Z : hl = 0) by (destruct hl; auto; exfalso; apply NH; apply HS; lia). rewrite Z. split; intros [Q|[_ Q]]; try contradiction; lia.
      - assert (Z : hm = 0) by lia. destruct (mem x (gopen G N)) eqn:E.
        + destruct (proj1 MN eq_refl) as [H|[H _]]; lia.
        + rewrite Z. reflexivity.
    Qed.

    Theorem flat_value c r : gden F (Mul c LN) r = gden F (Mul (mul c s) LF) r.
    Proof.
      assert (OKN : gok F (Mul one LN)) by (apply (gok_flat one one); exact OKF).
      cbn [Bin_Spec.gok] in OKN. rewrite gok_factors in OKN. assert (OKG : gok G N) by (apply (OKN N); left; reflexivity).
      cbn [Bin_Spec.gden].
      set (PL := fun r => kprod (map (fun x => gden (kept F LF x) x r) l)).
      set (PM := fun r => kprod (map (fun x => gden (kept G m x) x r) m)).
      assert (EPL : ext PL) by (intros t t' E; apply kprod_ext; intros y _; apply gden_ext; exact E).
      assert (EPM : ext PM) by (intros t t' E; apply kprod_ext; intros y _; apply gden_ext; exact E).
      assert (E1 : forall t, kprod (map (fun x => gden (kept F LN x) x t) LN) = mul s (sum_over (gsummed G m) (fun t => mul (PM t) (PL t)) t)).
      { intros t. unfold LN at 2. cbn [map Bin_Spec.kprod]. fold G. replace (kprod (map (fun x => gden (kept F LN x) x t) l)) with (PL t).
        - unfold N. cbn [Bin_Spec.gden]. rewrite (sum_over_mul_r K zero one add mul SR); [unfold PM; ring|].
          intros t' x v Hx. unfold PL. apply kprod_ext. intros y Hy. rewrite <- (kept_others y Hy). apply gden_indep; [apply OKN; right; exact Hy|].
          intros HO. apply gsummed_in in Hx as [H1 H2]. assert (SM := has_inner_seen x ltac:(lia)). apply H2. apply (G_in x SM). left.
          apply has_outer_seen. apply has_pos. exists (gopen (kept F LF y) y). rewrite <- (kept_others y Hy). split; [|exact HO]. unfold gopens. apply in_map_iff. exists y. rewrite (kept_others y Hy). auto.
        - unfold PL. apply kprod_ext. intros y Hy. rewrite (kept_others y Hy). reflexivity. }
      rewrite (sum_over_ext K zero add dom _ _ _ r E1).
      assert (E2 : sum_over (gsummed F LN) (fun t => mul s (sum_over (gsummed G m) (fun t => mul (PM t) (PL t)) t)) r
                   = mul (sum_over (gsummed F LN) (sum_over (gsummed G m) (fun t => mul (PM t) (PL t))) r) s).
      { rewrite <- (sum_over_mul_r K zero one add mul SR) with (g := fun _ => s) by reflexivity. apply (sum_over_ext K zero add). intros t. ring. }
      rewrite E2, <- (sum_over_app K zero add).
      replace (sum_over (gsummed F LN ++ gsummed G m) (fun t => mul (PM t) (PL t)) r)
        with (sum_over (gsummed F LF) (fun t => kprod (map (fun x => gden (kept F LF x) x t) LF)) r); [ring|].
      symmetry. etransitivity.
      - apply (sum_over_same K zero one add mul SR) with (ys := gsummed F LF).
        + intros t t' E. rewrite (EPM t t' E), (EPL t t' E). reflexivity.
        + apply nodup_app; try apply gsummed_nodup. intros x H1 H2. apply gsummed_in in H1 as [H1 H1F]. apply gsummed_in in H2 as [H2 H2G].
          assert (SM := has_inner_seen x ltac:(lia)). rewrite gopens_LN, has_cons in H1. destruct (mem x (gopen G N)) eqn:E.
          * apply mem_gopen_N in E. destruct E as [E|[_ E]]; [lia|contradiction].
          * apply H2G. apply (G_in x SM). left. apply has_outer_seen. lia.
        + apply gsummed_nodup.
        + intros x. rewrite in_app_iff, !gsummed_in, gopens_LN, gopens_LF, has_app, has_cons. assert (MN := mem_gopen_N x).
          set (hm := has x (gopens G m m)) in *. set (hl := has x (gopens F LF l)) in *.
          destruct (le_lt_dec 1 hm) as [Lm|Lm].
          * assert (SM := has_inner_seen x Lm). assert (GI := G_in x SM). assert (SO := seen_open x SM). fold hl in SO. assert (HS := has_outer_seen x). fold hl in HS.
            destruct (mem x (gopen G N)) eqn:E.
            -- destruct (proj1 MN eq_refl) as [H|[_ H]].
               ++ rewrite H. split; [intros [Q|[Q _]]; [exact Q|lia]|intros Q; left; exact Q].
               ++ split; [intros [[Q1 Q2]|[_ Q]]; [split; [lia|exact Q2]|contradiction]|]. intros [Q1 Q2]. left. apply GI in H. destruct H as [H|H]; [|contradiction]. specialize (SO H). split; [lia|exact Q2].
            -- assert (NE : hm <> 1) by (intros H; assert (Q : false = true) by (apply MN; left; exact H); discriminate).
               assert (NG : ~ In x G) by (intros H; assert (Q : false = true) by (apply MN; right; split; [lia|exact H]); discriminate).
               assert (Z : hl = 0) by (destruct hl; auto; exfalso; apply NG; apply GI; left; apply HS; lia).
               rewrite Z. split; [intros [[Q _]|[Q1 Q2]]; [lia|split; [lia|]]; intros H; apply NG, GI; right; exact H|]. intros [Q1 Q2]. right. split; [lia|exact NG].
          * assert (Z : hm = 0) by lia. destruct (mem x (gopen G N)) eqn:E.
            -- destruct (proj1 MN eq_refl) as [H|[H _]]; lia.
            -- rewrite Z. split; [intros [Q|[Q _]]; [exact Q|lia]|intros Q; left; exact Q].
      - apply (sum_over_ext K zero add). intros t. unfold LF at 2. rewrite map_app, kprod_app. f_equal. unfold PM. apply kprod_ext. intros y Hy. rewrite (kept_inner y Hy). reflexivity.
    Qed.
  End Flat.
End Main.
