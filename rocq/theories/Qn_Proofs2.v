(** Applying operators one after the other bounds what every contraction pattern leaves. *)
From Coq Require Import List NArith ZArith Bool Arith Lia Permutation.
From Verif Require Import Wick_Model Wick_Spec Wick_Proofs1 Wick_Proofs2 Wick_Proofs3 Wick_Proofs7 Wick_Proofs11 Wick_Ring Qn_Model Qn_Spec Qn_Proofs1.
Import ListNotations.

Section S.
  Variable ctx : context.
  Context {I : Type}.
  Variable base : I -> nat.
  Notation op := (op I).
  Notation slot := (slot ctx base).
  Notation number := (number ctx base).
  Notation conforms := (conforms ctx base).
  Notation contractible := (contractible ctx base).
  Notation proper := (proper ctx base).
  Hypothesis low : occupied_lowest ctx.
  Notation len := (if physical ctx then 1 else length (base_spaces ctx)).

  Lemma qns_equal_eq : forall a b : qns, length a = length b -> qns_equal a b = true -> a = b.
  Proof.
    induction a as [|[[a1 a2] [a3 a4]] a IH]; intros [|[[b1 b2] [b3 b4]] b] L H; try discriminate; [reflexivity|].
    unfold qns_equal in H. cbn [List.combine forallb fst snd] in H. apply andb_prop in H. destruct H as (H & H').
    f_equal; [|apply IH; [cbn in L; lia|exact H']].
    unfold pair_equal, iequal, lower, upper in H. cbn [fst snd] in H. rewrite !andb_true_iff, !Z.eqb_eq in H.
    destruct H as ((-> & ->) & (-> & ->)). reflexivity.
  Qed.

  Lemma zero_length : length (zero_qns ctx) = len.
  Proof. apply repeat_length. Qed.

  Lemma number_pos k c (w : list op) o : In o w -> ocre o = c -> slot (oidx o) = k -> (0 < number c k w)%Z.
  Proof.
    intros H <- <-. unfold Qn_Spec.number. destruct (filter _ w) as [|x l] eqn:E; [|cbn [length]; lia].
    assert (F : In o []). { rewrite <- E. apply filter_In. split; [exact H|]. rewrite Bool.eqb_reflx, Nat.eqb_refl. reflexivity. } destruct F.
  Qed.

  Lemma zero_only (w : list op) : conforms (zero_qns ctx) w -> w = [].
  Proof.
    intros (L & S & H). destruct w as [|o w]; [reflexivity|]. exfalso.
    assert (Ho : slot (oidx o) < length (zero_qns ctx)) by (apply S; left; reflexivity).
    destruct (nth_error (zero_qns ctx) (slot (oidx o))) as [[c n]|] eqn:E; [|apply nth_error_None in E; lia].
    destruct (H _ _ _ E) as (H1 & H2). apply nth_error_In, repeat_spec in E. injection E as -> ->. cbn [fst snd] in *.
    destruct (ocre o) eqn:Ec.
    - pose proof (number_pos (slot (oidx o)) true (o :: w) o (or_introl eq_refl) Ec eq_refl). lia.
    - pose proof (number_pos (slot (oidx o)) false (o :: w) o (or_introl eq_refl) Ec eq_refl). lia.
  Qed.

  Lemma apply_step o d s q (m : list (op * op)) u v :
    apply ctx o (zero_qns ctx) = Some d -> apply ctx o s = Some q ->
    conforms d (map fst m ++ u) -> conforms s (map snd m ++ v) ->
    Forall (fun lr => contractible (fst lr) (snd lr) = true) m -> conforms q (u ++ v).
  Proof.
    intros Hd Hq Cd Cs Hm. unfold apply in Hq. destruct (is_vacuum ctx s) eqn:E.
    - unfold is_vacuum in E. apply qns_equal_eq in E; [|rewrite zero_length; apply Cs]. subst s.
      assert (d = q).
      { unfold apply in Hd. destruct (is_vacuum ctx (zero_qns ctx)) eqn:E; [congruence|]. exfalso.
        unfold is_vacuum in E. assert (T : forall a : qns, qns_equal a a = true).
        { induction a as [|[[a1 a2] [a3 a4]] a IH]; [reflexivity|]. unfold qns_equal in *. cbn [List.combine forallb fst snd]. rewrite IH.
          unfold pair_equal, iequal. rewrite !Z.eqb_refl. reflexivity. }
        rewrite T in E. discriminate. }
      subst q. apply zero_only in Cs. apply app_eq_nil in Cs. destruct Cs as (E1 & ->). apply map_eq_nil in E1. subst m. rewrite app_nil_r. exact Cd.
    - unfold apply in Hd. assert (is_vacuum ctx (zero_qns ctx) = true) as Ez.
      { unfold is_vacuum. assert (T : forall a : qns, qns_equal a a = true).
        { induction a as [|[[a1 a2] [a3 a4]] a IH]; [reflexivity|]. unfold qns_equal in *. cbn [List.combine forallb fst snd]. rewrite IH.
          unfold pair_equal, iequal. rewrite !Z.eqb_refl. reflexivity. }
        apply T. }
      rewrite Ez in Hd. rewrite Hd in Hq. eapply combine_step; eauto.
  Qed.

  (** an operator all of whose terms conform to the change it declares *)
  Definition declared (o : operator) (w : list op) : Prop := exists d, apply ctx o (zero_qns ctx) = Some d /\ conforms d w.

  Lemma apply_bound ops : forall ws r m rest q, Forall2 declared ops ws -> apply_to_vac ctx ops = Some q ->
    Permutation (tag_nest ws r) (pair_list m ++ rest) -> proper m -> conforms q (map snd rest).
  Proof.
    induction ops as [|o ops IH]; intros ws r m rest q HF Hc P Hm.
    - inversion HF; subst. cbn in Hc. injection Hc as <-. cbn in P. apply Permutation_nil in P. apply app_eq_nil in P. destruct P as (_ & ->).
      apply zero_conforms.
    - inversion HF as [|? w ? ws' (d & Hd & Cd) HF']; subst. cbn [apply_to_vac] in Hc. destruct (apply_to_vac ctx ops) as [s|] eqn:Es; [|discriminate].
      destruct (peel ctx base _ _ _ _ _ P Hm) as (m0 & m1 & rest0 & rest1 & Pm & Pr & P0 & P1).
      assert (Hm1 : proper m1) by (intros x y Hxy; apply Hm; apply (Permutation_in _ (Permutation_sym Pm)), in_app_iff; auto).
      assert (Hm0 : proper m0) by (intros x y Hxy; apply Hm; apply (Permutation_in _ (Permutation_sym Pm)), in_app_iff; auto).
      pose proof (IH _ _ _ _ _ HF' eq_refl P1 Hm1) as H1.
      apply (conforms_perm ctx base q (map snd (rest0 ++ rest1))); [apply Permutation_map, Permutation_sym, Pr|]. rewrite map_app.
      eapply apply_step with (m := map (fun xy => (snd (fst xy), snd (snd xy))) m0); [exact Hd|exact Hc| | |].
      + eapply conforms_perm; [|exact Cd]. apply (Permutation_map snd) in P0. rewrite map_map in P0. cbn in P0. rewrite map_id, map_app, map_map in P0.
        rewrite map_map. exact P0.
      + rewrite map_app, map_map in H1. rewrite map_map. exact H1.
      + apply Forall_forall. intros [l r'] Hin. apply in_map_iff in Hin. destruct Hin as ([x y] & E & Hin). injection E as <- <-. apply (Hm0 _ _ Hin).
  Qed.

  Lemma tag_lt (ws : list (list op)) r x : In x (tag_nest ws r) -> fst x < r + length ws.
  Proof.
    intros H. pose proof (tags_ok_in _ _ _ _ (tag_nest_tags ws r) H). lia.
  Qed.

  (** taking the last operator off *)
  Lemma peel_last (w : list op) ws r m rest :
    Permutation (tag_nest (ws ++ [w]) r) (pair_list m ++ rest) -> proper m ->
    exists m0 m1 rest0 rest1, Permutation m (m0 ++ m1) /\ Permutation rest (rest0 ++ rest1) /\
      Permutation w (map snd (map snd m0 ++ rest0)) /\ Permutation (tag_nest ws r) (pair_list m1 ++ (map fst m0 ++ rest1)).
  Proof.
    intros P Hm. set (n := r + length ws). set (f := fun x : nat * op => Nat.eqb (fst x) n).
    assert (Hge : forall x, In x (pair_list m ++ rest) -> fst x <= n).
    { intros x Hx. apply (Permutation_in _ (Permutation_sym P)), tag_lt in Hx. rewrite app_length in Hx. cbn in Hx. unfold n. lia. }
    assert (Split : forall (X : Type) (g : X -> bool) l, Permutation l (filter g l ++ filter (fun x => negb (g x)) l)).
    { intros X g l. induction l as [|x l IH]; [constructor|]. cbn. destruct (g x); cbn; [constructor; exact IH|].
      rewrite <- Permutation_middle. constructor. exact IH. }
    exists (filter (fun xy => f (snd xy)) m), (filter (fun xy => negb (f (snd xy))) m), (filter f rest), (filter (fun x => negb (f x)) rest).
    split; [apply Split|]. split; [apply Split|].
    assert (Hp : forall g, Permutation (filter g (tag_nest (ws ++ [w]) r)) (filter g (pair_list m) ++ filter g rest)).
    { intros g. rewrite <- filter_app. apply filter_perm, P. }
    assert (Em : filter f (pair_list m) = map snd (filter (fun xy => f (snd xy)) m) /\
                 Permutation (filter (fun x => negb (f x)) (pair_list m)) (pair_list (filter (fun xy => negb (f (snd xy))) m) ++ map fst (filter (fun xy => f (snd xy)) m))).
    { assert (Hg : forall x y, In (x, y) m -> fst y <= n).
      { intros x y Hxy. apply Hge. apply in_app_iff. left. unfold pair_list. apply in_flat_map. exists (x, y). split; [exact Hxy|]. cbn. auto. }
      clear P Hp Hge. revert Hm Hg. induction m as [|[x y] m IH]; intros Hm Hg; [split; constructor|].
      destruct IH as (I1 & I2); [intros a b Hab; apply Hm; right; auto|intros a b Hab; eapply Hg; right; eauto|].
      destruct (Hm x y (or_introl eq_refl)) as (Hlt & _). specialize (Hg x y (or_introl eq_refl)).
      unfold pair_list in *. cbn [flat_map fst snd app filter]. assert (Fx : f x = false) by (apply Nat.eqb_neq; lia). rewrite Fx. cbn [negb].
      destruct (f y) eqn:Fy; cbn [negb map fst snd flat_map app].
      - split; [f_equal; exact I1|]. rewrite <- Permutation_middle. constructor. exact I2.
      - split; [exact I1|]. constructor. constructor. exact I2. }
    destruct Em as (E1 & E2). rewrite tag_nest_app in Hp. cbn [tag_nest] in Hp. rewrite app_nil_r in Hp. fold n in Hp. split.
    - specialize (Hp f). rewrite E1 in Hp. rewrite filter_app in Hp.
      rewrite (filter_all f (map (pair n) w)) in Hp by (intros x Hx; apply in_map_iff in Hx; destruct Hx as (o & <- & _); apply Nat.eqb_refl).
      rewrite (filter_none f (tag_nest ws r)) in Hp by (intros x Hx; apply tag_lt in Hx; apply Nat.eqb_neq; unfold n; lia).
      cbn [app] in Hp. apply (Permutation_map snd) in Hp. rewrite map_map in Hp. cbn in Hp. rewrite map_id in Hp. exact Hp.
    - specialize (Hp (fun x => negb (f x))). rewrite filter_app in Hp.
      rewrite (filter_none (fun x => negb (f x)) (map (pair n) w)), app_nil_r in Hp
        by (intros x Hx; apply in_map_iff in Hx; destruct Hx as (o & <- & _); unfold f; cbn; rewrite Nat.eqb_refl; reflexivity).
      rewrite (filter_all (fun x => negb (f x)) (tag_nest ws r)) in Hp
        by (intros x Hx; apply tag_lt in Hx; apply negb_true_iff, Nat.eqb_neq; unfold n; lia).
      rewrite Hp, E2. rewrite <- app_assoc. reflexivity.
  Qed.

  Lemma overlap_conforms q target (w : list op) : conforms q w -> conforms target w -> overlaps_with q target = true.
  Proof.
    intros (Lq & _ & Hq) (Lt & _ & Ht). assert (L : length q = length target) by congruence. clear Lq Lt.
    assert (G : forall j a b, length a = length b -> (forall k, nth_error q (j + k) = nth_error a k) -> (forall k, nth_error target (j + k) = nth_error b k) -> overlaps_with a b = true).
    { intros j a. revert j. induction a as [|[c n] a IH]; intros j [|[c' n'] b] Lab Ha Hb; try discriminate; [reflexivity|].
      unfold overlaps_with. cbn [List.combine forallb]. apply andb_true_intro. split.
      - pose proof (Ha 0) as H1. pose proof (Hb 0) as H2. cbn in H1, H2. destruct (Hq _ _ _ H1) as (A1 & A2). destruct (Ht _ _ _ H2) as (B1 & B2).
        unfold overlap, lower, upper. rewrite !andb_true_iff, !Z.leb_le. cbn [fst snd]. lia.
      - apply (IH (S j)); [cbn in Lab; lia| |]; intros k.
        + specialize (Ha (S k)). cbn [nth_error] in Ha. rewrite <- Ha. f_equal. lia.
        + specialize (Hb (S k)). cbn [nth_error] in Hb. rewrite <- Hb. f_equal. lia. }
    apply (G 0); auto.
  Qed.

  Lemma change_bound ops ws r m rest target source w0 : Forall2 declared ops ws -> conforms source w0 ->
    can_change_qns ctx ops target source = Some false -> Permutation (tag_nest (ws ++ [w0]) r) (pair_list m ++ rest) -> proper m ->
    ~ conforms target (map snd rest).
  Proof.
    intros HF H0 Hc P Hm Ct. unfold can_change_qns in Hc. destruct (apply_to_vac ctx ops) as [qnc|] eqn:Eq; [|discriminate].
    destruct (combine ctx qnc source) as [s|] eqn:Es; [|discriminate]. injection Hc as Hc.
    destruct (peel_last _ _ _ _ _ P Hm) as (m0 & m1 & rest0 & rest1 & Pm & Pr & P0 & P1).
    assert (Hm1 : proper m1) by (intros x y Hxy; apply Hm; apply (Permutation_in _ (Permutation_sym Pm)), in_app_iff; auto).
    assert (Hm0 : proper m0) by (intros x y Hxy; apply Hm; apply (Permutation_in _ (Permutation_sym Pm)), in_app_iff; auto).
    pose proof (apply_bound _ _ _ _ _ _ HF Eq P1 Hm1) as H1.
    assert (H2 : conforms s (map snd rest)).
    { apply (conforms_perm ctx base s (map snd rest1 ++ map snd rest0)).
      - rewrite Permutation_app_comm, <- map_app. apply Permutation_map, Permutation_sym, Pr.
      - eapply combine_step with (m := map (fun xy => (snd (fst xy), snd (snd xy))) m0); [exact low| | | |exact Es].
        + rewrite map_app, map_map in H1. rewrite map_map. exact H1.
        + eapply conforms_perm; [|exact H0]. rewrite map_app, map_map in P0. rewrite map_map. exact P0.
        + apply Forall_forall. intros [l r'] Hin. apply in_map_iff in Hin. destruct Hin as ([x y] & E & Hin). injection E as <- <-. apply (Hm0 _ _ Hin). }
    rewrite (overlap_conforms _ _ _ H2 Ct) in Hc. discriminate.
  Qed.

  (** the left-hand side of a matrix element *)
  Lemma adjoint_conforms target (m : list (op * op)) :
    conforms (adjoint_qns target) (map fst m) -> Forall (fun lr => contractible (fst lr) (snd lr) = true) m -> conforms target (map snd m).
  Proof.
    intros (L & S & H) Hm. unfold adjoint_qns in *. rewrite map_length in *.
    assert (N : forall c k, number c k (map snd m) = number (negb c) k (map fst m)).
    { intros c k. clear - Hm. induction Hm as [|[l r] m H _ IH]; [reflexivity|]. cbn [map fst snd]. rewrite !number_cons, IH. f_equal.
      cbn [fst snd] in H. unfold Qn_Spec.contractible in H. apply andb_prop in H. destruct H as (H & Hb). apply andb_prop in H. destruct H as (_ & Hc).
      apply Nat.eqb_eq in Hb. assert (Hs : slot (oidx r) = slot (oidx l)) by (unfold Qn_Spec.slot; rewrite Hb; reflexivity). rewrite Hs.
      destruct c, (ocre l), (ocre r); try discriminate; reflexivity. }
    split; [exact L|]. split.
    - intros o Ho. apply in_map_iff in Ho. destruct Ho as ([l r] & <- & Ho). cbn [snd].
      pose proof (proj1 (Forall_forall _ _) Hm _ Ho) as Hc. cbn [fst snd] in Hc. unfold Qn_Spec.contractible in Hc. apply andb_prop in Hc. destruct Hc as (_ & Hb).
      apply Nat.eqb_eq in Hb. assert (Hs : slot (oidx r) = slot (oidx l)) by (unfold Qn_Spec.slot; rewrite Hb; reflexivity). rewrite Hs.
      apply S. apply (in_map fst _ _ Ho).
    - intros k c n Hk. assert (Hk' : nth_error (map (fun ca => (snd ca, fst ca)) target) k = Some (n, c)) by (rewrite nth_error_map, Hk; reflexivity).
      destruct (H _ _ _ Hk') as (H1 & H2). rewrite !N. cbn [negb]. auto.
  Qed.

  Lemma no_full ops ws target source w' w0 m : Forall2 declared ops ws -> conforms source w0 -> conforms (adjoint_qns target) w' ->
    can_change_qns ctx ops target source = Some false -> full_matching (tagged (w' :: ws ++ [w0])) m ->
    (forall x y, In (x, y) m -> fst x <> fst y /\ contractible (snd x) (snd y) = true) -> False.
  Proof.
    intros HF H0 H' Hc M Hm. apply full_partial in M. pose proof (proper_matching ctx base _ _ _ M Hm) as Hp. apply partial_perm in M.
    destruct (peel ctx base _ _ _ _ _ M Hp) as (m0 & m1 & rest0 & rest1 & Pm & Pr & P0 & P1).
    apply Permutation_nil in Pr. apply app_eq_nil in Pr. destruct Pr as (-> & ->). rewrite app_nil_r in *.
    assert (Hm1 : proper m1) by (intros x y Hxy; apply Hp; apply (Permutation_in _ (Permutation_sym Pm)), in_app_iff; auto).
    eapply (change_bound _ _ _ _ _ _ _ _ HF H0 Hc P1 Hm1).
    rewrite map_map. replace (map (fun x => snd (snd x)) m0) with (map snd (map (fun xy : (nat * op) * (nat * op) => (snd (fst xy), snd (snd xy))) m0)) by (rewrite map_map; reflexivity).
    apply adjoint_conforms.
    - eapply conforms_perm; [|exact H']. apply (Permutation_map snd) in P0. rewrite !map_map in P0. cbn in P0. rewrite map_id in P0.
      rewrite map_map. exact P0.
    - apply Forall_forall. intros [l r'] Hin. apply in_map_iff in Hin. destruct Hin as ([x y] & E & Hin). injection E as <- <-.
      apply Hm. apply (Permutation_in _ (Permutation_sym Pm)), in_app_iff. auto.
  Qed.

  (** ** Values *)
  Context {R : ring}.
  Variable fermi : bool.
  Variables plus minus : op -> car R.
  Variable contr : op -> op -> car R.
  Hypothesis CCR : canonical fermi plus minus contr.
  Hypothesis contr_zero : forall l r, contractible l r = false -> contr l r = r0 R.
  Variable V : car R -> car R.
  Hypothesis HV : expectation plus minus V.
  Notation N := (normal fermi plus minus).
  Local Open Scope op_scope.

  Lemma product_of_tagged (input : list (list op)) : product_of fermi plus minus (seq 0 (length input)) (tagged input) = rprod (map N input).
  Proof.
    unfold product_of. f_equal. rewrite <- (map_map (fun k => members k (tagged input)) N). f_equal. apply (unflat_flat input).
  Qed.

  Lemma no_pattern_zero (input : list (list op)) :
    (forall m, full_matching (tagged input) m -> (forall x y, In (x, y) m -> fst x <> fst y /\ contractible (snd x) (snd y) = true) -> False) ->
    V (rprod (map N input)) = r0 R.
  Proof.
    intros H. rewrite <- product_of_tagged.
    assert (qp : forall l r, contractible l r = true -> annihilates ctx base l = true).
    { intros l r Hc. unfold Qn_Spec.contractible in Hc. destruct (annihilates ctx base l); [reflexivity|discriminate]. }
    rewrite <- (gof_value fermi (annihilates ctx base) contractible (fun _ _ _ _ => true) plus minus contr CCR contr_zero (fun _ _ _ _ => eq_refl)
      (length input) qp V HV (length (tagged input)) []); [|lia|apply tag_nest_tags].
    destruct (gof _ _ _ _ _ _ _) as [|t l] eqn:E; [reflexivity|]. exfalso.
    assert (Ht : In t (gof fermi (annihilates ctx base) contractible (fun _ _ _ _ => true) (length (tagged input)) [] (tagged input))) by (rewrite E; left; reflexivity).
    apply gof_sound in Ht. destruct Ht as (H1 & _ & H3 & _).
    apply (H _ H1). clear - H3. intros x y Hxy.
    assert (G : forall m prev v, path_ok contractible (fun _ _ _ _ => true) prev v m -> In (x, y) m -> fst x <> fst y /\ contractible (snd x) (snd y) = true).
    { induction m as [|[a b] m IH]; intros prev v Hp [].
      - injection H as -> ->. destruct Hp as (p & v1 & v2 & _ & He & _). unfold eligible in He. rewrite andb_true_r in He.
        apply andb_prop in He. destruct He as (He & Hc). split; [|exact Hc]. apply negb_true_iff, Nat.eqb_neq in He. exact He.
      - destruct Hp as (p & v1 & v2 & _ & _ & Hp). eapply IH; eauto. }
    eapply G; eauto.
  Qed.

  Lemma sum_zero ls : forall pre (X : car R),
    (forall ws, Forall2 (fun terms w => exists c, In (c, w) terms) ls ws -> V (rprod (map N (pre ++ ws)) * X) = r0 R) ->
    Forall (Forall (fun t => central (fst t))) ls ->
    V (rprod (map N pre) * rprod (map (operator_value fermi plus minus) ls) * X) = r0 R.
  Proof.
    induction ls as [|terms ls IH]; intros pre X H HC.
    - cbn [map]. change (rprod (@nil (car R))) with (r1 R). specialize (H [] (Forall2_nil _)). rewrite app_nil_r in H. rewrite rmul_1_r. exact H.
    - inversion HC as [|? ? Hc HC']; subst. cbn [map]. rewrite rprod_cons. unfold operator_value at 1.
      rewrite <- rsum_map_mul_r, <- rsum_map_mul_l, <- rsum_map_mul_r, (V_rsum plus minus V HV).
      rewrite map_map. apply rsum_zero. intros [c w] Hin. cbn [fst snd].
      pose proof (proj1 (Forall_forall _ _) Hc _ Hin) as Cc. cbn in Cc.
      transitivity (V (c * (rprod (map N (pre ++ [w])) * rprod (map (operator_value fermi plus minus) ls) * X))).
      + f_equal. rewrite map_app, rprod_app. cbn [map]. rewrite rprod_cons. change (rprod (@nil (car R))) with (r1 R). rewrite rmul_1_r.
        rewrite !rmul_assoc. f_equal. f_equal. rewrite <- !rmul_assoc. rewrite (rmul_assoc R _ c). rewrite <- (Cc (rprod (map N pre))). rewrite <- rmul_assoc. reflexivity.
      + destruct HV as (_ & Hl & _). rewrite (Hl _ _ Cc), IH, rmul_0_r; [reflexivity| |exact HC'].
        intros ws Hws. rewrite <- app_assoc. cbn [app]. apply H. constructor; [exists c; exact Hin|exact Hws].
  Qed.

  (** A matrix element between a state with the target's numbers and one with the source's numbers. *)
  Theorem matrix_element ops ls target source w' w0 :
    Forall2 (fun o terms => Forall (fun t => central (fst t) /\ declared o (snd t)) terms) ops ls ->
    conforms source w0 -> conforms (adjoint_qns target) w' -> can_change_qns ctx ops target source = Some false ->
    V (N w' * rprod (map (operator_value fermi plus minus) ls) * N w0) = r0 R.
  Proof.
    intros HF H0 H' Hc.
    replace (N w') with (rprod (map N [w'])) by (cbn [map]; rewrite rprod_cons; apply rmul_1_r).
    apply sum_zero.
    - intros ws Hws.
      replace (N w0) with (rprod (map N [w0])) by (cbn [map]; rewrite rprod_cons; apply rmul_1_r). rewrite <- rprod_app, <- map_app.
      apply no_pattern_zero. intros m Hm Ha. rewrite <- app_assoc in Hm. cbn [app] in Hm. eapply no_full; [|exact H0|exact H'|exact Hc|exact Hm|exact Ha].
      clear - HF Hws. revert ws Hws. induction HF as [|o terms ops ls Ho HF IH]; intros ws Hws; inversion Hws; subst; constructor; auto.
      destruct H1 as (c & Hin). apply (proj1 (Forall_forall _ _) Ho _ Hin).
    - clear - HF. induction HF as [|o terms ops ls Ho HF IH]; constructor; auto. eapply Forall_impl; [|exact Ho]. cbn. tauto.
  Qed.
End S.
