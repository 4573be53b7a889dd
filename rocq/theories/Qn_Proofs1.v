(** Contractions and interval arithmetic. *)
From Coq Require Import List NArith ZArith Bool Arith Lia Permutation.
From Verif Require Import Wick_Model Wick_Spec Wick_Proofs1 Wick_Proofs3 Wick_Proofs11 Qn_Model Qn_Spec.
Import ListNotations.

Lemma land_le a b : N.land a b = b -> (b <= a)%N.
Proof.
  intros H. assert (E : N.ldiff b a = 0%N).
  { apply N.bits_inj. intros i. rewrite N.ldiff_spec, N.bits_0. rewrite <- H, N.land_spec. destruct (N.testbit a i), (N.testbit b i); reflexivity. }
  apply N.ldiff_le in E. exact E.
Qed.

Section S.
  Variable ctx : context.
  Context {I : Type}.
  Variable base : I -> nat.
  Notation op := (op I).
  Notation slot := (slot ctx base).
  Notation number := (number ctx base).
  Notation conforms := (conforms ctx base).
  Notation contractible := (contractible ctx base).
  Hypothesis low : occupied_lowest ctx.

  Lemma number_app c k u v : number c k (u ++ v) = (number c k u + number c k v)%Z.
  Proof. unfold Qn_Spec.number. rewrite filter_app, app_length. lia. Qed.
  Lemma number_cons c k o v : number c k (o :: v) = ((if Bool.eqb (ocre o) c && Nat.eqb (slot (oidx o)) k then 1 else 0) + number c k v)%Z.
  Proof. unfold Qn_Spec.number. cbn [filter]. destruct (_ && _); cbn [length]; lia. Qed.
  Lemma number_nil c k : number c k [] = 0%Z. Proof. reflexivity. Qed.
  Lemma number_nonneg c k w : (0 <= number c k w)%Z. Proof. unfold Qn_Spec.number. lia. Qed.
  Lemma number_perm c k u v : Permutation u v -> number c k u = number c k v.
  Proof. intros H. unfold Qn_Spec.number. f_equal. apply Permutation_length, filter_perm, H. Qed.
  Lemma conforms_perm (q : qns) u v : Permutation u v -> conforms q u -> conforms q v.
  Proof.
    intros P (L & S & H). split; [exact L|]. split.
    - intros o Ho. apply S. apply (Permutation_in _ (Permutation_sym P)), Ho.
    - intros k c n Hk. rewrite <- !(number_perm _ k _ _ P). auto.
  Qed.

  Lemma slots_nth occ : forall a b q k z, combine_slots occ a b = Some q -> nth_error q k = Some z ->
    exists o x y, nth_error occ k = Some o /\ nth_error a k = Some x /\ nth_error b k = Some y /\ combine_slot o x y = Some z.
  Proof.
    induction occ as [|o occ IH]; intros a b q k z H Hk.
    - injection H as <-. destruct k; discriminate.
    - destruct a as [|x a]; [injection H as <-; destruct k; discriminate|]. destruct b as [|y b]; [injection H as <-; destruct k; discriminate|].
      cbn [combine_slots] in H. destruct (combine_slot o x y) as [z'|] eqn:E; [|discriminate].
      destruct (combine_slots occ a b) as [r|] eqn:E'; [|discriminate]. injection H as <-.
      destruct k as [|k]; cbn in Hk; [injection Hk as ->; exists o, x, y; cbn; auto|]. cbn. eapply IH; eauto.
  Qed.
  Lemma slots_length occ : forall a b q, combine_slots occ a b = Some q -> length a = length occ -> length b = length occ -> length q = length occ.
  Proof.
    induction occ as [|o occ IH]; intros [|x a] [|y b] q H Ha Hb; try discriminate; [injection H as <-; reflexivity|].
    cbn [combine_slots] in H. destruct (combine_slot o x y) as [z'|]; [|discriminate].
    destruct (combine_slots occ a b) as [r|] eqn:E'; [|discriminate]. injection H as <-. cbn in *. f_equal. eapply IH; eauto.
  Qed.
  Lemma occ_length : length (occupied_slots ctx) = (if physical ctx then 1 else length (base_spaces ctx)).
  Proof. unfold occupied_slots. destruct (physical ctx); [reflexivity|apply map_length]. Qed.

  Lemma combine_slot_some occ a b c n : combine_slot occ a b = Some (c, n) ->
    let u := if occ then Z.min (snd (snd b)) (snd (fst a)) else Z.min (snd (fst b)) (snd (snd a)) in
    c = (Z.max 0 (fst (fst a) + fst (fst b) - u), snd (fst a) + snd (fst b))%Z /\
    n = (Z.max 0 (fst (snd a) + fst (snd b) - u), snd (snd a) + snd (snd b))%Z.
  Proof.
    unfold combine_slot, upto, nonnegative, isub, iadd, lower, upper. destruct occ; cbn [fst snd].
    - destruct (0 <=? Z.min (snd (snd b)) (snd (fst a)))%Z; [|discriminate]. cbn [fst snd].
      destruct (0 <=? snd (fst b) + snd (fst a) - 0)%Z; [|discriminate]. destruct (0 <=? snd (snd b) + snd (snd a) - 0)%Z; [|discriminate].
      intros H. injection H as <- <-. cbn zeta. split; apply f_equal2; try lia; f_equal; lia.
    - destruct (0 <=? Z.min (snd (fst b)) (snd (snd a)))%Z; [|discriminate]. cbn [fst snd].
      destruct (0 <=? snd (fst b) + snd (fst a) - 0)%Z; [|discriminate]. destruct (0 <=? snd (snd b) + snd (snd a) - 0)%Z; [|discriminate].
      intros H. injection H as <- <-. cbn zeta. split; apply f_equal2; try lia; f_equal; lia.
  Qed.

  (** what the occupancy flag of a slot says about its states *)
  Lemma flag_ok i k o : nth_error (occupied_slots ctx) k = Some o -> slot i = k ->
    (if physical ctx then false else is_occupied ctx base i) = o.
  Proof.
    unfold occupied_slots, Qn_Spec.slot. destruct (physical ctx).
    - intros H <-. injection H as <-. reflexivity.
    - intros H <-. rewrite nth_error_map in H. unfold is_occupied. destruct (nth_error (base_spaces ctx) (base i)) as [b|] eqn:E; [|discriminate].
      cbn in H. injection H as <-. destruct (low b (nth_error_In _ _ E)) as (N0 & Hb). unfold is_pure_occupied.
      apply N.eqb_neq in N0. rewrite N0. cbn [negb andb].
      destruct Hb as [Hb|Hb].
      + rewrite Hb, N.eqb_refl. symmetry. apply N.leb_le. apply land_le, Hb.
      + assert (E1 : (stype b <=? occupied ctx (sqns b))%N = false) by (apply N.leb_gt, Hb). rewrite E1.
        apply N.eqb_neq. intros E2. apply land_le in E2. lia.
  Qed.

  Lemma pair_counts k o : nth_error (occupied_slots ctx) k = Some o -> forall m : list (op * op),
    Forall (fun lr => contractible (fst lr) (snd lr) = true) m ->
    exists p, (0 <= p)%Z /\ number o k (map fst m) = p /\ number (negb o) k (map fst m) = 0%Z /\
              number (negb o) k (map snd m) = p /\ number o k (map snd m) = 0%Z.
  Proof.
    intros Ho. induction 1 as [|[l r] m H _ (p & P0 & P1 & P2 & P3 & P4)]; [exists 0%Z; rewrite !number_nil; auto with zarith|].
    cbn [fst snd] in H. unfold Qn_Spec.contractible in H. apply andb_prop in H. destruct H as (H & Hb). apply andb_prop in H. destruct H as (Ha & Hc).
    apply Nat.eqb_eq in Hb. assert (Hs : slot (oidx r) = slot (oidx l)) by (unfold Qn_Spec.slot; rewrite Hb; reflexivity).
    cbn [map fst snd]. rewrite !number_cons, P1, P2, P3, P4, Hs.
    destruct (Nat.eqb_spec (slot (oidx l)) k) as [E|E]; [|exists p; rewrite !andb_false_r; repeat split; lia].
    assert (Hl : ocre l = o).
    { pose proof (flag_ok _ _ _ Ho E) as F. unfold annihilates in Ha. destruct (physical ctx).
      - subst o. destruct (ocre l); [discriminate|reflexivity].
      - rewrite F in Ha. destruct o; [exact Ha|]. destruct (ocre l); [discriminate|reflexivity]. }
    rewrite Hl in *. exists (1 + p)%Z. destruct o, (ocre r); try discriminate; cbn [Bool.eqb andb negb]; repeat split; lia.
  Qed.

  Lemma combine_step (a b q : qns) (m : list (op * op)) u v :
    conforms a (map fst m ++ u) -> conforms b (map snd m ++ v) ->
    Forall (fun lr => contractible (fst lr) (snd lr) = true) m -> combine ctx a b = Some q -> conforms q (u ++ v).
  Proof.
    intros (La & Sa & Ha) (Lb & Sb & Hb) Hm H. unfold Qn_Model.combine in H. match type of H with (if ?x then _ else _) = _ => destruct x; [|discriminate] end.
    assert (L : length q = length (occupied_slots ctx)) by (eapply slots_length; eauto; rewrite occ_length; auto).
    split; [rewrite L; apply occ_length|]. split.
    - intros o Ho. rewrite L, occ_length. apply in_app_iff in Ho. destruct Ho as [Ho|Ho].
      + rewrite <- La. apply Sa. apply in_app_iff. auto.
      + rewrite <- Lb. apply Sb. apply in_app_iff. auto.
    - intros k c n Hk. destruct (slots_nth _ _ _ _ _ _ H Hk) as (o & x & y & Ho & Hx & Hy & Hs).
      destruct x as [xc xn], y as [yc yn]. apply combine_slot_some in Hs. cbn [fst snd] in Hs. destruct Hs as (-> & ->). cbn [fst snd].
      destruct (Ha _ _ _ Hx) as (A1 & A2). destruct (Hb _ _ _ Hy) as (B1 & B2). rewrite !number_app in *.
      destruct (pair_counts k o Ho m Hm) as (p & P0 & P1 & P2 & P3 & P4).
      pose proof (number_nonneg true k u). pose proof (number_nonneg false k u). pose proof (number_nonneg true k v). pose proof (number_nonneg false k v).
      destruct o; cbn [negb] in *; rewrite P1, P2 in *; rewrite P3, P4 in *; split; lia.
  Qed.

  (** ** A pattern over several operators *)
  Definition proper (m : list ((nat * op) * (nat * op))) : Prop :=
    forall x y, In (x, y) m -> fst x < fst y /\ contractible (snd x) (snd y) = true.

  Lemma zero_conforms : conforms (zero_qns ctx) [].
  Proof.
    split; [unfold zero_qns, nslots; rewrite repeat_length; reflexivity|]. split; [intros o []|].
    intros k c n Hk. apply nth_error_In, repeat_spec in Hk. injection Hk as -> ->. rewrite !number_nil. cbn. lia.
  Qed.

  Lemma tag_ge (ws : list (list op)) r x : In x (tag_nest ws r) -> r <= fst x.
  Proof.
    revert r. induction ws as [|w ws IH]; intros r H; [destruct H|]. cbn [tag_nest] in H. apply in_app_iff in H. destruct H as [H|H].
    - apply in_map_iff in H. destruct H as (o & <- & _). cbn. lia.
    - apply IH in H. lia.
  Qed.

  Lemma filter_none {X} (f : X -> bool) l : (forall x, In x l -> f x = false) -> filter f l = [].
  Proof. induction l as [|x l IH]; intros H; [reflexivity|]. cbn. rewrite H by (left; auto). apply IH. intros; apply H; right; auto. Qed.
  Lemma filter_all {X} (f : X -> bool) l : (forall x, In x l -> f x = true) -> filter f l = l.
  Proof. induction l as [|x l IH]; intros H; [reflexivity|]. cbn. rewrite H by (left; auto). f_equal. apply IH. intros; apply H; right; auto. Qed.

  (** taking the first operator off *)
  Lemma peel (w : list op) ws r m rest :
    Permutation (tag_nest (w :: ws) r) (pair_list m ++ rest) -> proper m ->
    exists m0 m1 rest0 rest1, Permutation m (m0 ++ m1) /\ Permutation rest (rest0 ++ rest1) /\
      Permutation (map (pair r) w) (map fst m0 ++ rest0) /\ Permutation (tag_nest ws (S r)) (pair_list m1 ++ (map snd m0 ++ rest1)).
  Proof.
    intros P Hm. set (f := fun x : nat * op => Nat.eqb (fst x) r).
    assert (Hge : forall x, In x (pair_list m ++ rest) -> r <= fst x).
    { intros x Hx. apply (Permutation_in _ (Permutation_sym P)) in Hx. eapply tag_ge; eauto. }
    assert (Split : forall (X : Type) (g : X -> bool) l, Permutation l (filter g l ++ filter (fun x => negb (g x)) l)).
    { intros X g l. induction l as [|x l IH]; [constructor|]. cbn. destruct (g x); cbn; [constructor; exact IH|].
      rewrite <- Permutation_middle. constructor. exact IH. }
    exists (filter (fun xy => f (fst xy)) m), (filter (fun xy => negb (f (fst xy))) m), (filter f rest), (filter (fun x => negb (f x)) rest).
    split; [apply Split|]. split; [apply Split|].
    assert (Hp : forall g, Permutation (filter g (tag_nest (w :: ws) r)) (filter g (pair_list m) ++ filter g rest)).
    { intros g. rewrite <- filter_app. apply filter_perm, P. }
    assert (Em : filter f (pair_list m) = map fst (filter (fun xy => f (fst xy)) m) /\
                 Permutation (filter (fun x => negb (f x)) (pair_list m)) (pair_list (filter (fun xy => negb (f (fst xy))) m) ++ map snd (filter (fun xy => f (fst xy)) m))).
    { assert (Hg : forall x y, In (x, y) m -> r <= fst x).
      { intros x y Hxy. apply Hge. apply in_app_iff. left. unfold pair_list. apply in_flat_map. exists (x, y). split; [exact Hxy|]. cbn. auto. }
      clear P Hp Hge. revert Hm Hg. induction m as [|[x y] m IH]; intros Hm Hg; [split; constructor|].
      destruct IH as (I1 & I2); [intros a b Hab; apply Hm; right; auto|intros a b Hab; eapply Hg; right; eauto|].
      destruct (Hm x y (or_introl eq_refl)) as (Hlt & _). specialize (Hg x y (or_introl eq_refl)).
      unfold pair_list in *. cbn [flat_map fst snd app filter]. assert (Fy : f y = false) by (apply Nat.eqb_neq; lia). rewrite Fy. cbn [negb].
      destruct (f x) eqn:Fx; cbn [negb map fst snd flat_map app].
      - split; [f_equal; exact I1|]. rewrite <- Permutation_middle. constructor. exact I2.
      - split; [exact I1|]. constructor. constructor. exact I2. }
    destruct Em as (E1 & E2). cbn [tag_nest] in Hp. split.
    - specialize (Hp f). rewrite E1 in Hp. rewrite filter_app in Hp.
      rewrite filter_all in Hp by (intros x Hx; apply in_map_iff in Hx; destruct Hx as (o & <- & _); apply Nat.eqb_refl).
      rewrite (filter_none f (tag_nest ws (S r))), app_nil_r in Hp; [exact Hp|].
      intros x Hx. apply tag_ge in Hx. apply Nat.eqb_neq. lia.
    - specialize (Hp (fun x => negb (f x))). rewrite filter_app in Hp.
      rewrite filter_none in Hp by (intros x Hx; apply in_map_iff in Hx; destruct Hx as (o & <- & _); unfold f; cbn; rewrite Nat.eqb_refl; reflexivity).
      rewrite (filter_all (fun x => negb (f x)) (tag_nest ws (S r))) in Hp.
      + cbn [app] in Hp. rewrite Hp. rewrite E2. rewrite <- app_assoc. reflexivity.
      + intros x Hx. apply tag_ge in Hx. apply negb_true_iff, Nat.eqb_neq. lia.
  Qed.

  Lemma proper_matching (ws : list (list op)) m rest : partial_matching (tagged ws) m rest ->
    (forall x y, In (x, y) m -> fst x <> fst y /\ contractible (snd x) (snd y) = true) -> proper m.
  Proof.
    intros P Hm x y Hxy. destruct (Hm x y Hxy) as (Hne & Hc). split; [|exact Hc]. cut (fst x <= fst y); [lia|].
    pose proof (tag_nest_tags ws 0) as T. fold (tagged ws) in T. generalize dependent (length ws). clear Hm Hne Hc.
    induction P as [|z v m rest P IH|z v1 u v2 m rest P IH]; intros n T; [destruct Hxy| |].
    - apply (IH Hxy n). destruct T as (_ & _ & T). exact T.
    - destruct T as (T0 & T1 & T2). destruct Hxy as [E|Hxy].
      + injection E as <- <-. apply T1. apply in_app_iff. cbn. auto.
      + apply (IH Hxy n). eapply tags_ok_sub; eauto.
  Qed.
End S.
