(** Lemmas about the registry: lookups, the invariant of all histories, the set operations. *)
From Coq Require Import List NArith Bool Arith Lia Sorting.Sorted.
From Verif Require Import Reg_Model Reg_Spec.
Import ListNotations.
Open Scope N_scope.

Lemma key_eqb_eq : forall a b, key_eqb a b = true <-> a = b.
Proof.
  induction a as [|x a IH]; destruct b as [|y b]; cbn; split; intros H; try congruence; try discriminate.
  - apply andb_prop in H as [H1 H2]. apply N.eqb_eq in H1. apply IH in H2. congruence.
  - inversion H; subst. rewrite N.eqb_refl. cbn. apply IH. reflexivity.
Qed.

Lemma key_eqb_refl a : key_eqb a a = true.
Proof. apply key_eqb_eq. reflexivity. Qed.

Lemma key_ltb_irrefl : forall a, key_ltb a a = false.
Proof. induction a as [|x a IH]; cbn; auto. rewrite N.ltb_irrefl, N.eqb_refl, IH. reflexivity. Qed.

Lemma key_ltb_total : forall a b, key_ltb a b = false -> key_ltb b a = false -> a = b.
Proof.
  induction a as [|x a IH]; destruct b as [|y b]; cbn; intros H1 H2; try congruence.
  apply orb_false_elim in H1 as [H1 H3]. apply orb_false_elim in H2 as [H2 H4].
  apply N.ltb_ge in H1. apply N.ltb_ge in H2. assert (x = y) by lia. subst y.
  rewrite N.eqb_refl in *. cbn in *. f_equal. auto.
Qed.

Lemma key_ltb_trans : forall a b c, key_ltb a b = true -> key_ltb b c = true -> key_ltb a c = true.
Proof.
  induction a as [|x a IH]; intros [|y b] [|z c] H1 H2; cbn in *; try congruence.
  apply orb_true_iff in H1. apply orb_true_iff in H2. apply orb_true_iff.
  destruct H1 as [H1|H1]; destruct H2 as [H2|H2].
  - left. apply N.ltb_lt in H1. apply N.ltb_lt in H2. apply N.ltb_lt. lia.
  - apply andb_prop in H2 as [H2 _]. apply N.eqb_eq in H2. subst. left. exact H1.
  - apply andb_prop in H1 as [H1 _]. apply N.eqb_eq in H1. subst. left. exact H2.
  - apply andb_prop in H1 as [E1 H1]. apply andb_prop in H2 as [E2 H2].
    apply N.eqb_eq in E1. apply N.eqb_eq in E2. subst. right. rewrite N.eqb_refl. cbn. eauto.
Qed.

Lemma attr_eqb_iff s t q : attr_eqb s t q = true <-> sty s = t /\ sqn s = q.
Proof. unfold attr_eqb. rewrite andb_true_iff, !N.eqb_eq. tauto. Qed.

Lemma space_eqb_iff a b : space_eqb a b = true <-> sty a = sty b /\ sqn a = sqn b /\ skey a = skey b.
Proof. unfold space_eqb. rewrite andb_true_iff, attr_eqb_iff, key_eqb_eq. tauto. Qed.

Lemma is_null_iff s : is_null s = true <-> sty s = 0 /\ sqn s = 0 /\ skey s = [].
Proof. apply space_eqb_iff. Qed.

Lemma null_null : is_null null = true.
Proof. reflexivity. Qed.

(** ** Lookups *)

Lemma retrieve_attr_some r t q s : retrieve_attr r t q = Some s -> registered r s /\ sty s = t /\ sqn s = q.
Proof.
  intros H. apply find_some in H as [H1 H2]. apply attr_eqb_iff in H2. split; auto.
Qed.

Lemma retrieve_attr_none r t q s : retrieve_attr r t q = None -> registered r s -> ~ (sty s = t /\ sqn s = q).
Proof.
  intros H H1 H2. apply (find_none _ _ H) in H1. apply attr_eqb_iff in H2. congruence.
Qed.

Lemma retrieve_attr_in r s :
  unambiguous r -> registered r s -> retrieve_attr r (sty s) (sqn s) = Some s.
Proof.
  intros W H. destruct (retrieve_attr r (sty s) (sqn s)) as [x|] eqn:E.
  - apply retrieve_attr_some in E as (E1 & E2 & E3). f_equal. destruct (W x s E1 H) as [W1 W2]. auto.
  - exfalso. eapply retrieve_attr_none; eauto.
Qed.

Lemma find_key_some r k s : find_key r k = Some s -> registered r s /\ skey s = k.
Proof. intros H. apply find_some in H as [H1 H2]. apply key_eqb_eq in H2. split; auto. Qed.

Lemma find_key_none r k s : find_key r k = None -> registered r s -> skey s <> k.
Proof. intros H H1 H2. apply (find_none _ _ H) in H1. apply key_eqb_eq in H2. congruence. Qed.

Lemma find_key_in r s : unambiguous r -> registered r s -> find_key r (skey s) = Some s.
Proof.
  intros W H. destruct (find_key r (skey s)) as [x|] eqn:E.
  - apply find_key_some in E as (E1 & E2). f_equal. destruct (W x s E1 H) as [W1 W2]. auto.
  - exfalso. eapply find_key_none; eauto.
Qed.

Lemma retrieve_ret r t q s : retrieve r t q = Ret s -> registered r s /\ sty s = t /\ sqn s = q.
Proof.
  unfold retrieve. destruct (retrieve_attr r t q) eqn:E; intros H; inversion H; subst.
  apply retrieve_attr_some in E. exact E.
Qed.

Lemma find_by_attr_spec r t q :
  let s := find_by_attr r t q in
  (registered r s /\ sty s = t /\ sqn s = q) \/ (s = null /\ retrieve_attr r t q = None).
Proof.
  unfold find_by_attr. destruct (retrieve_attr r t q) eqn:E; cbn.
  - left. apply retrieve_attr_some in E. exact E.
  - right. auto.
Qed.

(** ** The set *)

Definition kle (a b : space) : Prop := key_ltb (skey a) (skey b) = true.
Definition sorted (l : list space) : Prop := StronglySorted kle l.

Lemma set_insert_in s l x :
  (forall y, In y l -> skey y <> skey s) -> In x (set_insert s l) <-> x = s \/ In x l.
Proof.
  induction l as [|y l IH]; intros H; cbn.
  - intuition congruence.
  - destruct (key_ltb (skey s) (skey y)) eqn:E1; [cbn; intuition congruence|].
    destruct (key_ltb (skey y) (skey s)) eqn:E2.
    + cbn. rewrite IH by (intros z Hz; apply H; right; exact Hz). intuition congruence.
    + exfalso. apply (H y); [left; reflexivity|]. symmetry. apply key_ltb_total; auto.
Qed.

Lemma set_insert_incl s l x : In x (set_insert s l) -> x = s \/ In x l.
Proof.
  induction l as [|y l IH]; cbn; intros H.
  - intuition congruence.
  - destruct (key_ltb (skey s) (skey y)); [destruct H as [H|H]; [left; congruence|right; exact H]|].
    destruct (key_ltb (skey y) (skey s)); [|right; exact H].
    destruct H as [H|H]; [right; left; exact H|]. destruct (IH H); [left; auto|right; right; auto].
Qed.

Lemma set_insert_sorted s l : sorted l -> sorted (set_insert s l).
Proof.
  unfold sorted. induction l as [|y l IH]; cbn; intros H.
  - constructor; constructor.
  - inversion H as [|? ? H1 H2]; subst.
    destruct (key_ltb (skey s) (skey y)) eqn:E1.
    + constructor; [exact H|]. constructor; [exact E1|].
      rewrite Forall_forall in *. intros z Hz. eapply key_ltb_trans; [exact E1|apply H2; exact Hz].
    + destruct (key_ltb (skey y) (skey s)) eqn:E2; [|exact H].
      constructor; [apply IH; exact H1|]. rewrite Forall_forall in *. intros z Hz.
      apply set_insert_incl in Hz as [->|Hz]; [exact E2|apply H2; exact Hz].
Qed.

Lemma filter_sorted f l : sorted l -> sorted (filter f l).
Proof.
  unfold sorted. induction l as [|y l IH]; cbn; intros H; [exact H|].
  inversion H as [|? ? H1 H2]; subst. destruct (f y); auto. constructor; auto.
  rewrite Forall_forall in *. intros z Hz. apply filter_In in Hz as [Hz _]. auto.
Qed.

(** ** add, remove, replace *)

Lemma add_ret r s r' :
  add r s = Ret r' ->
  (forall x, registered r x -> skey x <> skey s /\ ~ (sty x = sty s /\ sqn x = sqn s)) /\
  (forall x, registered r' x <-> x = s \/ registered r x) /\
  r' = with_spaces r (set_insert s (spaces r)).
Proof.
  unfold add. destruct (find_key r (skey s)) eqn:E; [discriminate|].
  destruct (existsb _ _) eqn:E2; [discriminate|]. intros H. inversion H; subst.
  assert (HH : forall x, registered r x -> skey x <> skey s /\ ~ (sty x = sty s /\ sqn x = sqn s)).
  { intros x Hx. split; [apply (find_key_none r (skey s) x E Hx)|]. intros HH. apply attr_eqb_iff in HH.
    assert (existsb (fun x => attr_eqb x (sty s) (sqn s)) (spaces r) = true) by (apply existsb_exists; eauto).
    congruence. }
  split; [exact HH|]. split; [|reflexivity]. intros x. unfold registered. cbn.
  apply set_insert_in. intros y Hy. apply HH in Hy. tauto.
Qed.

Lemma add_threw r s :
  add r s = Threw <-> exists x, registered r x /\ (skey x = skey s \/ (sty x = sty s /\ sqn x = sqn s)).
Proof.
  unfold add. destruct (find_key r (skey s)) as [x|] eqn:E.
  - apply find_key_some in E as [E1 E2]. split; intros _; [exists x; auto|reflexivity].
  - destruct (existsb _ _) eqn:E2.
    + apply existsb_exists in E2 as [x [H1 H2]]. apply attr_eqb_iff in H2.
      split; intros _; [exists x; auto|reflexivity].
    + split; [discriminate|]. intros [x [H1 [H2|H2]]].
      * exfalso. eapply find_key_none; eauto.
      * apply attr_eqb_iff in H2.
        assert (existsb (fun x => attr_eqb x (sty s) (sqn s)) (spaces r) = true) by (apply existsb_exists; eauto).
        congruence.
Qed.

Lemma add_not_asserted r s : add r s <> Asserted.
Proof. unfold add. destruct (find_key _ _); [discriminate|]. destruct (existsb _ _); discriminate. Qed.

Lemma add_unambiguous r s r' : unambiguous r -> add r s = Ret r' -> unambiguous r'.
Proof.
  intros W H. apply add_ret in H as (H1 & H2 & _). intros a b Ha Hb. apply H2 in Ha. apply H2 in Hb.
  destruct Ha as [->|Ha]; destruct Hb as [->|Hb].
  - auto.
  - destruct (H1 b Hb) as [H3 H4]. split; [intros E; exfalso; apply H3; auto|].
    intros E1 E2. exfalso. apply H4. auto.
  - destruct (H1 a Ha) as [H3 H4]. split; [intros E; exfalso; apply H3; auto|].
    intros E1 E2. exfalso. apply H4. auto.
  - apply W; auto.
Qed.

Lemma remove_in r s x : registered (remove r s) x <-> registered r x /\ skey x <> skey s.
Proof.
  unfold remove, registered. destruct (find_key r (skey s)) as [y|] eqn:E; cbn.
  - rewrite filter_In, negb_true_iff. split; intros [H1 H2]; split; auto.
    + intros H3. apply key_eqb_eq in H3. congruence.
    + destruct (key_eqb (skey x) (skey s)) eqn:E2; auto. apply key_eqb_eq in E2. congruence.
  - split; [|tauto]. intros H. split; auto. apply (find_key_none _ _ _ E H).
Qed.

Lemma remove_unambiguous r s : unambiguous r -> unambiguous (remove r s).
Proof. intros W a b Ha Hb. apply remove_in in Ha. apply remove_in in Hb. apply W; tauto. Qed.

Lemma add_sorted r s r' : sorted (spaces r) -> add r s = Ret r' -> sorted (spaces r').
Proof. intros H H1. apply add_ret in H1 as (_ & _ & ->). cbn. apply set_insert_sorted. exact H. Qed.

Lemma remove_sorted r s : sorted (spaces r) -> sorted (spaces (remove r s)).
Proof. intros H. unfold remove. destruct (find_key _ _); auto. cbn. apply filter_sorted. exact H. Qed.

Lemma bind_ret {X Y} (m : res X) (f : X -> res Y) y : bind m f = Ret y -> exists x, m = Ret x /\ f x = Ret y.
Proof. destruct m; cbn; intros H; try discriminate. eauto. Qed.

Lemma step_unambiguous r o : unambiguous r -> unambiguous (step r o).
Proof.
  intros W. destruct o as [s|s|s|k c|k c]; cbn [step].
  - destruct (add r s) as [r'| |] eqn:E; cbn; auto. eapply add_unambiguous; eauto.
  - apply remove_unambiguous. exact W.
  - unfold replace. destruct (add (remove r s) s) as [r'| |] eqn:E; cbn; try (apply remove_unambiguous; exact W).
    eapply add_unambiguous; [|exact E]. apply remove_unambiguous. exact W.
  - destruct (add_unIon r k c) as [r'| |] eqn:E; cbn; auto.
    apply bind_ret in E as [a [_ E]]. apply bind_ret in E as [n [_ E]]. eapply add_unambiguous; eauto.
  - destruct (add_intersection r k c) as [r'| |] eqn:E; cbn; auto.
    apply bind_ret in E as [a [_ E]]. apply bind_ret in E as [n [_ E]]. eapply add_unambiguous; eauto.
Qed.

Lemma history_unambiguous l : unambiguous (history l).
Proof.
  unfold history. assert (W : unambiguous empty_reg).
  { intros a b [<-|[]] [<-|[]]. auto. }
  revert W. generalize empty_reg. induction l as [|o l IH]; cbn; intros r W; auto.
  apply IH. apply step_unambiguous. exact W.
Qed.

Lemma step_sorted r o : sorted (spaces r) -> sorted (spaces (step r o)).
Proof.
  intros W. destruct o as [s|s|s|k c|k c]; cbn [step].
  - destruct (add r s) as [r'| |] eqn:E; cbn; auto. eapply add_sorted; eauto.
  - apply remove_sorted. exact W.
  - unfold replace. destruct (add (remove r s) s) as [r'| |] eqn:E; cbn; try (apply remove_sorted; exact W).
    eapply add_sorted; [|exact E]. apply remove_sorted. exact W.
  - destruct (add_unIon r k c) as [r'| |] eqn:E; cbn; auto.
    apply bind_ret in E as [a [_ E]]. apply bind_ret in E as [n [_ E]]. eapply add_sorted; eauto.
  - destruct (add_intersection r k c) as [r'| |] eqn:E; cbn; auto.
    apply bind_ret in E as [a [_ E]]. apply bind_ret in E as [n [_ E]]. eapply add_sorted; eauto.
Qed.

Lemma history_sorted l : sorted (spaces (history l)).
Proof.
  unfold history. assert (W : sorted (spaces empty_reg)) by (repeat constructor).
  revert W. generalize empty_reg. induction l as [|o l IH]; cbn; intros r W; auto.
  apply IH. apply step_sorted. exact W.
Qed.

(** ** Sets of states *)

Lemma land_zero_bits a b : N.land a b = 0 <-> forall k, ~ (N.testbit a k = true /\ N.testbit b k = true).
Proof.
  split.
  - intros H k [H1 H2]. assert (E : N.testbit (N.land a b) k = true) by (rewrite N.land_spec, H1, H2; reflexivity).
    rewrite H, N.bits_0 in E. discriminate.
  - intros H. apply N.bits_inj. intros k. rewrite N.land_spec, N.bits_0.
    destruct (N.testbit a k) eqn:E1; destruct (N.testbit b k) eqn:E2; auto. exfalso. apply (H k). auto.
Qed.

Lemma nonzero_bit a : a <> 0 -> exists k, N.testbit a k = true.
Proof. intros H. exists (N.log2 a). apply N.bit_log2. exact H. Qed.

(** every space with a non-null type contains a state *)
Lemma inhabited s : sty s <> 0 -> exists x, in_space x s.
Proof.
  intros H. apply nonzero_bit in H as [k Hk]. destruct (N.eq_dec (sqn s) 0) as [E|E].
  - exists (k, None). split; auto.
  - apply nonzero_bit in E as [j Hj]. exists (k, Some j). split; auto.
Qed.

Lemma null_type_empty s x : sty s = 0 -> ~ in_space x s.
Proof. intros H [H1 _]. rewrite H, N.bits_0 in H1. discriminate. Qed.

(** spaces with a non-null type are determined by their states *)
Lemma same_states a b :
  sty a <> 0 -> (forall x, in_space x a <-> in_space x b) -> sty a = sty b /\ sqn a = sqn b.
Proof.
  intros H HH. destruct (inhabited a H) as [[i m] Hx].
  assert (Hy := proj1 (HH _) Hx). destruct Hx as [Hx1 Hx2], Hy as [Hy1 Hy2]. cbn in *.
  split.
  - apply N.bits_inj. intros k. destruct (N.testbit (sty a) k) eqn:E1; destruct (N.testbit (sty b) k) eqn:E2; auto.
    + assert (in_space (k, m) b) by (apply HH; split; cbn; auto). destruct H0. cbn in *. congruence.
    + assert (in_space (k, m) a) by (apply HH; split; cbn; auto). destruct H0. cbn in *. congruence.
  - destruct m as [m|].
    + apply N.bits_inj. intros k. destruct (N.testbit (sqn a) k) eqn:E1; destruct (N.testbit (sqn b) k) eqn:E2; auto.
      * assert (in_space (i, Some k) b) by (apply HH; split; cbn; auto). destruct H0. cbn in *. congruence.
      * assert (in_space (i, Some k) a) by (apply HH; split; cbn; auto). destruct H0. cbn in *. congruence.
    + congruence.
Qed.

Lemma inter_states a b s :
  sqn a = sqn b -> sty s = N.land (sty a) (sty b) -> sqn s = sqn a ->
  forall x, in_space x s <-> in_space x a /\ in_space x b.
Proof.
  intros E H1 H2 [i m]. unfold in_space. cbn. rewrite H1, H2, N.land_spec, andb_true_iff.
  destruct m; rewrite <- E; tauto.
Qed.

Lemma union_states a b s :
  sqn a = sqn b -> sty s = N.lor (sty a) (sty b) -> sqn s = sqn a ->
  forall x, in_space x s <-> in_space x a \/ in_space x b.
Proof.
  intros E H1 H2 [i m]. unfold in_space. cbn. rewrite H1, H2, N.lor_spec, orb_true_iff.
  destruct m; rewrite <- E; tauto.
Qed.

Lemma no_common_qn a b :
  N.land (sqn a) (sqn b) = 0 -> sqn a <> sqn b -> forall x, ~ (in_space x a /\ in_space x b).
Proof.
  intros H1 H2 [i m] [[Ha Ha'] [Hb Hb']]. cbn in *. destruct m as [m|].
  - apply (proj1 (land_zero_bits _ _) H1 m). auto.
  - congruence.
Qed.

(** ** intersection *)

Lemma space_eqb_registered r a b :
  unambiguous r -> registered r a -> registered r b -> space_eqb a b = true -> a = b.
Proof. intros W Ha Hb H. apply space_eqb_iff in H as (H1 & H2 & H3). destruct (W a b Ha Hb) as [W1 W2]. auto. Qed.

Lemma space_eqb_sym a b : space_eqb a b = space_eqb b a.
Proof.
  destruct (space_eqb a b) eqn:E1; destruct (space_eqb b a) eqn:E2; auto.
  - apply space_eqb_iff in E1. assert (space_eqb b a = true) by (apply space_eqb_iff; intuition congruence). congruence.
  - apply space_eqb_iff in E2. assert (space_eqb a b = true) by (apply space_eqb_iff; intuition congruence). congruence.
Qed.

Lemma intersection_self r a : intersection r a a = Ret a.
Proof.
  unfold intersection. assert (E : space_eqb a a = true) by (apply space_eqb_iff; auto). rewrite E. reflexivity.
Qed.

(** The result, whenever there is one. *)
Lemma intersection_ret r a b s :
  unambiguous r -> registered r a -> registered r b -> intersection r a b = Ret s ->
  (a = b /\ s = a) \/
  (N.land (sqn a) (sqn b) = 0 /\ sqn a <> sqn b /\ s = null) \/
  ((sqn a = sqn b \/ N.land (sqn a) (sqn b) <> 0) /\
   ((registered r s /\ sty s = N.land (sty a) (sty b) /\ sqn s = sqn a) \/
    (N.land (sty a) (sty b) = 0 /\ s = null /\ retrieve_attr r 0 (sqn a) = None))).
Proof.
  intros W Ha Hb. unfold intersection. destruct (space_eqb a b) eqn:E.
  - intros H. inversion H; subst. left. split; auto. eapply space_eqb_registered; eauto.
  - right. destruct ((N.land (sqn a) (sqn b) =? 0) && negb (sqn a =? sqn b)) eqn:E1.
    + left. inversion H; subst. apply andb_prop in E1 as [E1 E2]. apply N.eqb_eq in E1.
      apply negb_true_iff, N.eqb_neq in E2. auto.
    + right. split.
      { apply andb_false_iff in E1 as [E1|E1].
        - right. apply N.eqb_neq in E1. exact E1.
        - left. apply negb_false_iff, N.eqb_eq in E1. exact E1. }
      cbn zeta in H. destruct (find_by_attr_spec r (N.land (sty a) (sty b)) (sqn a)) as [HH|[HH HN]].
      * destruct (is_null _ && _); [discriminate|]. inversion H; subst. left. exact HH.
      * rewrite HH in H. rewrite null_null in H. cbn [andb] in H.
        destruct (N.land (sty a) (sty b) =? 0) eqn:E2; cbn in H; [|discriminate].
        apply N.eqb_eq in E2. inversion H; subst. right. rewrite E2 in HN. auto.
Qed.

Lemma intersection_threw r a b :
  intersection r a b = Threw ->
  (sqn a = sqn b \/ N.land (sqn a) (sqn b) <> 0) /\
  N.land (sty a) (sty b) <> 0 /\ retrieve_attr r (N.land (sty a) (sty b)) (sqn a) = None.
Proof.
  unfold intersection. destruct (space_eqb a b) eqn:E; [discriminate|].
  destruct ((N.land (sqn a) (sqn b) =? 0) && negb (sqn a =? sqn b)) eqn:E1; [discriminate|].
  cbn zeta. intros H. destruct (is_null _ && _) eqn:E2; [|discriminate].
  apply andb_prop in E2 as [E2 E3]. apply negb_true_iff, N.eqb_neq in E3.
  split; [|split; [exact E3|]].
  - apply andb_false_iff in E1 as [E1|E1].
    + right. apply N.eqb_neq in E1. exact E1.
    + left. apply negb_false_iff, N.eqb_eq in E1. exact E1.
  - destruct (find_by_attr_spec r (N.land (sty a) (sty b)) (sqn a)) as [HH|[HH HN]]; [|exact HN].
    apply is_null_iff in E2. destruct HH as (_ & H1 & _). rewrite H1 in E2. tauto.
Qed.

Lemma intersection_not_asserted r a b : intersection r a b <> Asserted.
Proof.
  unfold intersection. destruct (space_eqb _ _); [discriminate|]. destruct (_ && _); [discriminate|].
  cbn zeta. destruct (_ && _); discriminate.
Qed.

Lemma intersection_comm_same r a b :
  unambiguous r -> registered r a -> registered r b -> sqn a = sqn b ->
  intersection r a b = intersection r b a.
Proof.
  intros W Ha Hb E. unfold intersection. rewrite (space_eqb_sym b a), (N.land_comm (sqn b)), (N.land_comm (sty b)).
  destruct (space_eqb a b) eqn:E1.
  - rewrite (space_eqb_registered r a b W Ha Hb E1). reflexivity.
  - rewrite (N.eqb_sym (sqn b) (sqn a)), <- E. reflexivity.
Qed.
