(** Proofs about symbolic costs. *)
From Coq Require Import List Bool Arith QArith Qcanon Sorted Lia.
From Verif Require Import AsyCost_Model AsyCost_Spec.
Import ListNotations.
Local Open Scope nat_scope.

(** ** monomials *)
Definition key_lt (x y : nat * nat) : Prop := fst x < fst y.
Lemma exp_for_notin m s : ~ In s (map fst m) -> exp_for m s = 0.
Proof.
  induction m as [|[x e] m IH]; cbn; auto. intros H. destruct (Nat.eqb_spec x s); [destruct H; auto|]. apply IH. tauto.
Qed.
Lemma monomial_ok_tail x m : monomial_ok (x :: m) -> monomial_ok m.
Proof. intros [H1 H2]. inversion H1; inversion H2; subst. split; auto. Qed.
Lemma exp_for_lt s e m t : monomial_ok ((s, e) :: m) -> t < s -> exp_for m t = 0.
Proof.
  intros [H1 _] Hlt. apply exp_for_notin. intros Hin. apply in_map_iff in Hin as (y & Hy & Hin). inversion H1 as [|? ? _ Hall]; subst.
  rewrite Forall_forall in Hall. specialize (Hall y Hin). cbn in Hall. lia.
Qed.
Lemma exp_for_self s e m : monomial_ok ((s, e) :: m) -> exp_for m s = 0.
Proof.
  intros [H1 _]. apply exp_for_notin. intros Hin. apply in_map_iff in Hin as (y & Hy & Hin). inversion H1 as [|? ? _ Hall]; subst.
  rewrite Forall_forall in Hall. specialize (Hall y Hin). cbn in Hall. lia.
Qed.
Lemma exp_for_ext m : forall n, monomial_ok m -> monomial_ok n -> (forall s, exp_for m s = exp_for n s) -> m = n.
Proof.
  induction m as [|[s e] m IH]; intros [|[t f] n] Hm Hn He.
  - reflexivity.
  - specialize (He t). cbn in He. rewrite Nat.eqb_refl in He. destruct Hn as [_ Hn]. inversion Hn; subst. cbn in *. congruence.
  - specialize (He s). cbn in He. rewrite Nat.eqb_refl in He. destruct Hm as [_ Hm]. inversion Hm; subst. cbn in *. congruence.
  - assert (Hs : s = t).
    { assert (He0 : e <> 0) by (destruct Hm as [_ Hm]; inversion Hm; auto). assert (Hf0 : f <> 0) by (destruct Hn as [_ Hn]; inversion Hn; auto).
      destruct (lt_eq_lt_dec s t) as [[H|H]|H]; auto; exfalso.
      - specialize (He s). cbn in He. rewrite Nat.eqb_refl in He. rewrite (proj2 (Nat.eqb_neq t s)) in He by lia. rewrite (exp_for_lt t f n s) in He by auto. auto.
      - specialize (He t). cbn in He. rewrite Nat.eqb_refl in He. rewrite (proj2 (Nat.eqb_neq s t)) in He by lia. rewrite (exp_for_lt s e m t) in He by auto. auto. }
    subst t. assert (Hef : e = f) by (specialize (He s); cbn in He; now rewrite Nat.eqb_refl in He). subst f. f_equal.
    apply IH; eauto using monomial_ok_tail. intros r. specialize (He r). cbn in He. destruct (Nat.eqb_spec s r) as [->|]; auto.
    now rewrite (exp_for_self r e m), (exp_for_self r e n).
Qed.
Lemma total_degree_from m n : fold_left (fun n (kv : nat * nat) => n + snd kv) m n = n + degree m.
Proof. revert n. induction m as [|x m IH]; intros n; cbn [fold_left]; [cbn; lia|]. rewrite IH. cbn [degree fold_right]. unfold degree. lia. Qed.
Lemma total_degree_eq m : total_degree m = degree m.
Proof. unfold total_degree. now rewrite total_degree_from. Qed.

(** ** the set of spaces *)
Lemma insert_space_in s l x : In x (insert_space s l) <-> x = s \/ In x l.
Proof.
  induction l as [|y l IH]; cbn [insert_space].
  - cbn. split; intros [H|H]; auto.
  - destruct (Nat.ltb_spec s y).
    + cbn. split; intros [H1|H1]; auto.
    + destruct (Nat.eqb_spec s y) as [<-|].
      * cbn. split; [auto|]. intros [H1|H1]; auto.
      * cbn. rewrite IH. tauto.
Qed.
Lemma insert_space_sorted s l : StronglySorted lt l -> StronglySorted lt (insert_space s l).
Proof.
  induction 1 as [|y l Hl IH Hall]; cbn [insert_space]; [repeat constructor|]. destruct (Nat.ltb_spec s y).
  - constructor; [now constructor|]. constructor; auto. eapply Forall_impl; [|exact Hall]. intros; lia.
  - destruct (Nat.eqb_spec s y); [now constructor|]. constructor; auto. apply Forall_forall. intros x Hx. apply insert_space_in in Hx as [->|Hx]; [lia|].
    rewrite Forall_forall in Hall. auto.
Qed.
Lemma fold_insert_sorted (m : list (nat * nat)) : forall l, StronglySorted lt l -> StronglySorted lt (fold_left (fun l kv => insert_space (fst kv) l) m l).
Proof. induction m as [|x m IH]; intros l Hl; cbn; auto. apply IH. now apply insert_space_sorted. Qed.
Lemma fold_insert_in (m : list (nat * nat)) x : forall l, In x (fold_left (fun l kv => insert_space (fst kv) l) m l) <-> In x l \/ In x (map fst m).
Proof. induction m as [|y m IH]; intros l; cbn [fold_left map]; [cbn; tauto|]. rewrite IH, insert_space_in. cbn. split; [intros [[H|H]|H]|intros [H|[H|H]]]; auto. Qed.
Lemma spaces_sorted m n : StronglySorted lt (spaces m n).
Proof. unfold spaces. apply fold_insert_sorted, fold_insert_sorted. constructor. Qed.
Lemma spaces_in m n s : In s (spaces m n) <-> In s (map fst m) \/ In s (map fst n).
Proof. unfold spaces. rewrite !fold_insert_in. cbn. tauto. Qed.

(** ** the order *)
Lemma first_diff_iff m n l : first_diff m n l = true <->
  exists l1 s l2, l = l1 ++ s :: l2 /\ (forall t, In t l1 -> exp_for m t = exp_for n t) /\ exp_for m s < exp_for n s.
Proof.
  induction l as [|s l IH]; cbn.
  - split; [discriminate|]. intros (l1 & s & l2 & H & _). destruct l1; discriminate.
  - destruct (Nat.eqb_spec (exp_for m s) (exp_for n s)) as [He|He].
    + rewrite IH. split.
      * intros (l1 & t & l2 & -> & H1 & H2). exists (s :: l1), t, l2. split; auto. split; auto. intros u [<-|Hu]; auto.
      * intros (l1 & t & l2 & H & H1 & H2). destruct l1 as [|u l1]; cbn in H; inversion H; subst; [lia|]. exists l1, t, l2. split; auto. split; auto. intros u' Hu. apply H1. now right.
    + split.
      * intros H. apply Nat.ltb_lt in H. exists [], s, l. split; auto. split; auto. intros t [].
      * intros (l1 & t & l2 & H & H1 & H2). apply Nat.ltb_lt. destruct l1 as [|u l1]; cbn in H; inversion H; subst; auto. destruct He. apply H1. now left.
Qed.
Lemma sorted_app_lt (l1 l2 : list nat) : StronglySorted lt (l1 ++ l2) -> forall x y, In x l1 -> In y l2 -> x < y.
Proof.
  induction l1 as [|z l1 IH]; intros H x y Hx Hy; [destruct Hx|]. cbn in H. inversion H as [|? ? Hs Hall]; subst. destruct Hx as [->|Hx]; [|eauto].
  rewrite Forall_forall in Hall. apply Hall. apply in_or_app. now right.
Qed.
Lemma sorted_app_r (l1 l2 : list nat) : StronglySorted lt (l1 ++ l2) -> StronglySorted lt l2.
Proof. induction l1; cbn; auto. intros H. inversion H; auto. Qed.
Lemma first_diff_spec m n : first_diff m n (rev (spaces m n)) = true <-> exists s, exp_for m s < exp_for n s /\ forall t, s < t -> exp_for m t = exp_for n t.
Proof.
  pose proof (spaces_sorted m n) as Hs. pose proof (spaces_in m n) as Hin. rewrite first_diff_iff. split.
  - intros (l1 & s & l2 & H & H1 & H2). exists s. split; auto. intros t Ht.
    assert (Hl : spaces m n = rev l2 ++ [s] ++ rev l1). { rewrite <- (rev_involutive (spaces m n)), H, rev_app_distr. cbn. now rewrite <- app_assoc. }
    destruct (in_dec Nat.eq_dec t (spaces m n)) as [Hi|Hi].
    + rewrite Hl in Hi. apply in_app_iff in Hi as [Hi|[Hi|Hi]].
      * exfalso. rewrite Hl in Hs. assert (t < s) by (apply (sorted_app_lt _ _ Hs); [auto|now left]). lia.
      * lia.
      * apply H1. now apply in_rev.
    + rewrite !exp_for_notin; auto; intros Hx; apply Hi, Hin; auto.
  - intros (s & H1 & H2). assert (Hi : In s (rev (spaces m n))).
    { apply -> in_rev. apply Hin. destruct (in_dec Nat.eq_dec s (map fst n)); auto. rewrite (exp_for_notin n s) in H1 by auto. lia. }
    apply in_split in Hi as (l1 & l2 & Hl). exists l1, s, l2. split; auto. split; auto. intros t Ht. apply H2.
    assert (Hl' : spaces m n = rev l2 ++ [s] ++ rev l1). { rewrite <- (rev_involutive (spaces m n)), Hl, rev_app_distr. cbn. now rewrite <- app_assoc. }
    rewrite Hl' in Hs. apply sorted_app_r in Hs. apply (sorted_app_lt [s] (rev l1) Hs); [now left|]. now apply in_rev in Ht.
Qed.
Lemma entry_lt_spec a b : emax a = false -> emax b = false -> entry_lt a b = true <-> monomial_lt (exps a) (exps b).
Proof.
  intros Ha Hb. unfold entry_lt, monomial_lt. rewrite Ha, Hb, !total_degree_eq. cbn [Bool.eqb negb].
  destruct (Nat.eqb_spec (degree (exps a)) (degree (exps b))) as [He|He]; cbn [negb].
  - rewrite first_diff_spec. intuition lia.
  - rewrite Nat.ltb_lt. intuition lia.
Qed.
Lemma monomial_lt_irrefl m : ~ monomial_lt m m.
Proof. intros [H|(_ & s & H & _)]; lia. Qed.
Lemma monomial_lt_trans a b c : monomial_lt a b -> monomial_lt b c -> monomial_lt a c.
Proof.
  intros [H1|(H1 & s & H2 & H3)] [G1|(G1 & t & G2 & G3)].
  - left. lia. - left. lia. - left. lia.
  - right. split; [lia|]. destruct (lt_eq_lt_dec s t) as [[H|H]|H].
    + exists t. split; [rewrite H3 by auto; auto|]. intros u Hu. rewrite H3, G3 by lia. auto.
    + subst t. exists s. split; [lia|]. intros u Hu. rewrite H3, G3; auto.
    + exists s. split; [rewrite <- G3 by auto; auto|]. intros u Hu. rewrite H3, G3 by lia. auto.
Qed.
Lemma lt_total_from m n (l : list nat) : (forall s, In s l -> exp_for m s = exp_for n s) \/ first_diff m n l = true \/ first_diff n m l = true.
Proof.
  induction l as [|s l IH]; cbn [first_diff In]; [left; intros s []|]. destruct (Nat.eqb_spec (exp_for m s) (exp_for n s)) as [He|He].
  - rewrite He, Nat.eqb_refl. destruct IH as [IH|IH]; auto. left. intros t [<-|Ht]; auto.
  - right. rewrite (proj2 (Nat.eqb_neq (exp_for n s) (exp_for m s))) by auto. rewrite !Nat.ltb_lt. lia.
Qed.
Lemma monomial_lt_total m n : monomial_ok m -> monomial_ok n -> m = n \/ monomial_lt m n \/ monomial_lt n m.
Proof.
  intros Hm Hn. destruct (lt_eq_lt_dec (degree m) (degree n)) as [[H|H]|H]; [right; left; now left| |right; right; now left].
  destruct (lt_total_from m n (rev (spaces m n))) as [He|[He|He]].
  - left. apply exp_for_ext; auto. intros s. destruct (in_dec Nat.eq_dec s (spaces m n)) as [Hi|Hi]; [apply He; now apply -> in_rev|].
    rewrite !exp_for_notin; auto; intros Hx; apply Hi, spaces_in; auto.
  - right; left. right. split; auto. now apply first_diff_spec.
  - right; right. right. split; auto. apply first_diff_iff in He as (l1 & s & l2 & Hl & H1 & H2). exists s. split; auto.
    intros t Ht. pose proof (spaces_sorted m n) as Hs. assert (Hl' : spaces m n = rev l2 ++ [s] ++ rev l1). { rewrite <- (rev_involutive (spaces m n)), Hl, rev_app_distr. cbn. now rewrite <- app_assoc. }
    destruct (in_dec Nat.eq_dec t (spaces m n)) as [Hi|Hi].
    + rewrite Hl' in Hi. apply in_app_iff in Hi as [Hi|[Hi|Hi]].
      * exfalso. rewrite Hl' in Hs. assert (t < s) by (apply (sorted_app_lt _ _ Hs); [auto|now left]). lia.
      * lia.
      * apply H1. now apply in_rev.
    + rewrite !exp_for_notin; auto; intros Hx; apply Hi, spaces_in; auto.
Qed.
Lemma monomial_lt_asym a b : monomial_lt a b -> ~ monomial_lt b a.
Proof. intros H1 H2. apply (monomial_lt_irrefl a). eapply monomial_lt_trans; eauto. Qed.

(** ** addition *)
Lemma Qc_eq_bool_iff x y : Qc_eq_bool x y = true <-> x = y.
Proof. split; [apply Qc_eq_bool_correct|]. intros ->. unfold Qc_eq_bool. now destruct (Qc_eq_dec y y). Qed.
Notation mlt := (fun x y : entry => monomial_lt (exps x) (exps y)).
Definition below (m : list (nat * nat)) (c : cost) : Prop := Forall (fun y => monomial_lt m (exps y)) c.

Lemma entry_lt_true a b : term_ok a -> term_ok b -> entry_lt a b = true -> monomial_lt (exps a) (exps b).
Proof. intros (Ha & _) (Hb & _) H. now apply entry_lt_spec. Qed.
Lemma entry_lt_neither a b : term_ok a -> term_ok b -> entry_lt a b = false -> entry_lt b a = false -> exps a = exps b.
Proof.
  intros (Ha & Ha1 & _) (Hb & Hb1 & _) H1 H2. destruct (monomial_lt_total (exps a) (exps b) Ha1 Hb1) as [H|[H|H]]; auto; apply entry_lt_spec in H; auto; congruence.
Qed.
Lemma below_trans m n c : monomial_lt m n -> below n c -> below m c.
Proof. intros H. apply Forall_impl. intros y Hy. eapply monomial_lt_trans; eauto. Qed.
Lemma add_term_below c d m : monomial_lt m (exps c) -> below m d -> below m (add_term c d).
Proof.
  intros Hc. induction 1 as [|x d Hx Hd IH]; cbn [add_term]; [constructor; [auto|constructor]|]. destruct (entry_lt x c); [constructor; auto|].
  destruct (entry_lt c x); [constructor; [auto|constructor; auto]|]. destruct (Qc_eq_bool _ _); auto. constructor; auto.
Qed.
Lemma add_term_ok c d : term_ok c -> cost_ok d -> cost_ok (add_term c d).
Proof.
  intros Hc [Hd Hs]. induction Hs as [|x d Hs IH Hall]; cbn [add_term]; [split; [constructor; auto|constructor; constructor]|].
  inversion Hd as [|? ? Hx Hd']; subst. specialize (IH Hd'). destruct IH as [I1 I2].
  destruct (entry_lt x c) eqn:H1.
  - apply entry_lt_true in H1; auto. split; constructor; auto. apply add_term_below; auto.
  - destruct (entry_lt c x) eqn:H2.
    + apply entry_lt_true in H2; auto. split; constructor; auto. * constructor; auto. * constructor; auto. eapply below_trans; eauto.
    + destruct (Qc_eq_bool _ _) eqn:Hq; [split; auto|]. split; [|constructor; auto]. constructor; auto.
      destruct Hx as (X1 & X2 & X3 & X4). split; auto. split; auto. split; auto. cbn. intros H. apply Qc_eq_bool_iff in H. congruence.
Qed.
Lemma add_term_value ext c d : term_ok c -> Forall term_ok d -> cost_value ext (add_term c d) = (cost_value ext d + pre c * monomial_value ext (exps c))%Qc.
Proof.
  intros Hc. induction 1 as [|x d Hx Hd IH]; cbn [add_term]; [cbn; ring|]. destruct (entry_lt x c) eqn:H1.
  - cbn [cost_value fold_right]. change (fold_right _ 0%Qc (add_term c d)) with (cost_value ext (add_term c d)). rewrite IH. unfold cost_value. ring.
  - destruct (entry_lt c x) eqn:H2; [cbn [cost_value fold_right]; ring|]. pose proof (entry_lt_neither _ _ Hx Hc H1 H2) as He. destruct (Qc_eq_bool _ _) eqn:Hq.
    + apply Qc_eq_bool_iff in Hq. cbn [cost_value fold_right]. rewrite He. change (fold_right _ 0%Qc d) with (cost_value ext d).
      transitivity ((pre x + pre c) * monomial_value ext (exps c) + cost_value ext d)%Qc; [rewrite Hq; ring|ring].
    + cbn [cost_value fold_right pre exps]. rewrite He. change (fold_right _ 0%Qc d) with (cost_value ext d). ring.
Qed.
Lemma cost_add_ok r : forall l, cost_ok l -> Forall term_ok r -> cost_ok (cost_add l r).
Proof. unfold cost_add. induction r as [|c r IH]; intros l Hl Hr; cbn; auto. inversion Hr; subst. apply IH; auto. now apply add_term_ok. Qed.
Lemma cost_add_value ext r : forall l, cost_ok l -> Forall term_ok r -> cost_value ext (cost_add l r) = (cost_value ext l + cost_value ext r)%Qc.
Proof.
  unfold cost_add. induction r as [|c r IH]; intros l Hl Hr; cbn [fold_left]; [cbn; ring|]. inversion Hr; subst. rewrite IH; auto; [|now apply add_term_ok].
  rewrite add_term_value by (auto; apply Hl). cbn [cost_value fold_right]. unfold cost_value. ring.
Qed.
Lemma cost_scale_ok q c : q <> 0%Qc -> cost_ok c -> cost_ok (cost_scale q c).
Proof.
  intros Hq [H1 H2]. split.
  - apply Forall_map. eapply Forall_impl; [|exact H1]. intros e (E1 & E2 & E3 & E4). split; auto. split; auto. split; auto. cbn. intros H. apply Qcmult_integral in H. tauto.
  - clear H1. induction H2 as [|x c Hc IH Hall]; cbn; constructor; auto. apply Forall_map. exact Hall.
Qed.
Lemma cost_scale_value ext q c : cost_value ext (cost_scale q c) = (q * cost_value ext c)%Qc.
Proof. induction c as [|x c IH]; cbn; [ring|]. change (fold_right _ 0%Qc (map _ c)) with (cost_value ext (cost_scale q c)). rewrite IH. unfold cost_value, monomial_value. ring. Qed.

(** the loop in ops *)
Lemma ops_entry_value ext e : ops_entry ext e = (pre e * monomial_value ext (exps e))%Qc.
Proof.
  unfold ops_entry. f_equal. assert (H : forall m t, fold_left (fun t kv => (t * qpow (qnat (ext (fst kv))) (snd kv))%Qc) m t = (t * monomial_value ext m)%Qc).
  { induction m as [|x m IH]; intros t; cbn [fold_left monomial_value fold_right]; [ring|]. rewrite IH. unfold monomial_value. ring. }
  rewrite H. ring.
Qed.
Lemma ops_from_value ext c : Forall (fun e => emax e = false) c -> forall t, ops_from ext t c = Some (t + cost_value ext c)%Qc.
Proof.
  induction 1 as [|e c He _ IH]; intros t; cbn [ops_from]; [f_equal; cbn; ring|]. rewrite He, IH, ops_entry_value. f_equal. cbn [cost_value fold_right]. unfold cost_value. ring.
Qed.
Lemma cost_ok_finite c : cost_ok c -> Forall (fun e => emax e = false) c.
Proof. intros [H _]. eapply Forall_impl; [|exact H]. intros e (He & _). exact He. Qed.
Lemma ops_value ext c : cost_ok c -> ops ext c = Some (cost_value ext c).
Proof. intros H. unfold ops. rewrite ops_from_value by (now apply cost_ok_finite). f_equal. ring. Qed.

(** ** coefficients determine a cost in normal form *)
Definition coef (m : list (nat * nat)) (c : cost) : Qc := fold_right (fun e t => if exps_eqb (exps e) m then (pre e + t)%Qc else t) 0%Qc c.
Lemma exps_eqb_iff m : forall n, exps_eqb m n = true <-> m = n.
Proof.
  induction m as [|[x y] m IH]; intros [|[x' y'] n]; cbn; try (split; [discriminate|discriminate]); try tauto. rewrite !andb_true_iff, !Nat.eqb_eq, IH. split; [intros [[-> ->] ->]; auto|]. intros H; inversion H; auto.
Qed.
Lemma exps_eqb_refl m : exps_eqb m m = true. Proof. now apply exps_eqb_iff. Qed.
Lemma exps_eqb_neq m n : m <> n -> exps_eqb m n = false. Proof. intros H. destruct (exps_eqb m n) eqn:E; auto. apply exps_eqb_iff in E. congruence. Qed.
Lemma coef_below m c : below m c -> coef m c = 0%Qc.
Proof. induction 1 as [|x c Hx _ IH]; cbn; auto. rewrite exps_eqb_neq; auto. intros H. rewrite H in Hx. now apply monomial_lt_irrefl in Hx. Qed.
Lemma coef_ext c : forall d, cost_ok c -> cost_ok d -> (forall m, coef m c = coef m d) -> c = d.
Proof.
  induction c as [|x c IH]; intros [|y d] [Hc Sc] [Hd Sd] He.
  - reflexivity.
  - exfalso. inversion Hd as [|? ? (_ & _ & _ & Hy) _]; inversion Sd as [|? ? _ Hb]; subst. specialize (He (exps y)). cbn in He. rewrite exps_eqb_refl in He.
    change (fold_right _ 0%Qc d) with (coef (exps y) d) in He. rewrite coef_below in He by exact Hb. apply Hy. rewrite He. ring.
  - exfalso. inversion Hc as [|? ? (_ & _ & _ & Hy) _]; inversion Sc as [|? ? _ Hb]; subst. specialize (He (exps x)). cbn in He. rewrite exps_eqb_refl in He.
    change (fold_right _ 0%Qc c) with (coef (exps x) c) in He. rewrite coef_below in He by exact Hb. apply Hy. rewrite <- He. ring.
  - inversion Hc as [|? ? (X1 & X2 & X3 & X4) Hc']; inversion Sc as [|? ? Sc' Bc]; inversion Hd as [|? ? (Y1 & Y2 & Y3 & Y4) Hd']; inversion Sd as [|? ? Sd' Bd]; subst.
    assert (Hxy : exps x = exps y).
    { destruct (monomial_lt_total (exps x) (exps y) X2 Y2) as [H|[H|H]]; auto; exfalso.
      - specialize (He (exps x)). cbn in He. rewrite exps_eqb_refl in He. rewrite (exps_eqb_neq (exps y)) in He by (intros E; rewrite E in H; now apply monomial_lt_irrefl in H).
        change (fold_right _ 0%Qc c) with (coef (exps x) c) in He. change (fold_right _ 0%Qc d) with (coef (exps x) d) in He.
        rewrite !coef_below in He; [|eapply below_trans; eauto|exact Bc]. apply X4. rewrite <- He. ring.
      - specialize (He (exps y)). cbn in He. rewrite exps_eqb_refl in He. rewrite (exps_eqb_neq (exps x)) in He by (intros E; rewrite E in H; now apply monomial_lt_irrefl in H).
        change (fold_right _ 0%Qc c) with (coef (exps y) c) in He. change (fold_right _ 0%Qc d) with (coef (exps y) d) in He.
        rewrite !coef_below in He; [|exact Bd|eapply below_trans; eauto]. apply Y4. rewrite He. ring. }
    assert (Hp : pre x = pre y).
    { specialize (He (exps x)). cbn in He. rewrite <- Hxy in He. rewrite exps_eqb_refl in He. change (fold_right _ 0%Qc c) with (coef (exps x) c) in He. change (fold_right _ 0%Qc d) with (coef (exps x) d) in He.
      rewrite !coef_below in He; [|rewrite Hxy; exact Bd|exact Bc]. transitivity (pre x + 0)%Qc; [ring|]. rewrite He. ring. }
    f_equal; [destruct x, y; cbn in *; congruence|]. apply IH; [split; auto|split; auto|]. intros m. specialize (He m). cbn in He. rewrite <- Hxy, <- Hp in He.
    change (fold_right _ 0%Qc c) with (coef m c) in He. change (fold_right _ 0%Qc d) with (coef m d) in He. destruct (exps_eqb (exps x) m); auto.
    transitivity (pre x + coef m c - pre x)%Qc; [ring|]. rewrite He. ring.
Qed.
Lemma add_term_coef m c d : term_ok c -> Forall term_ok d -> coef m (add_term c d) = (coef m d + if exps_eqb (exps c) m then pre c else 0)%Qc.
Proof.
  intros Hc. induction 1 as [|x d Hx Hd IH]; cbn [add_term]; [cbn; destruct (exps_eqb _ _); ring|]. destruct (entry_lt x c) eqn:H1.
  - cbn [coef fold_right]. change (fold_right _ 0%Qc (add_term c d)) with (coef m (add_term c d)). rewrite IH. change (fold_right _ 0%Qc d) with (coef m d). destruct (exps_eqb (exps x) m); ring.
  - destruct (entry_lt c x) eqn:H2; [cbn [coef fold_right]; destruct (exps_eqb (exps c) m); ring|]. pose proof (entry_lt_neither _ _ Hx Hc H1 H2) as He. destruct (Qc_eq_bool _ _) eqn:Hq.
    + apply Qc_eq_bool_iff in Hq. cbn [coef fold_right]. rewrite He. change (fold_right _ 0%Qc d) with (coef m d). destruct (exps_eqb _ _); [|ring].
      transitivity ((pre x + pre c) + coef m d)%Qc; [rewrite Hq; ring|ring].
    + cbn [coef fold_right pre exps]. rewrite He. change (fold_right _ 0%Qc d) with (coef m d). destruct (exps_eqb _ _); ring.
Qed.
Lemma cost_add_coef m r : forall l, cost_ok l -> Forall term_ok r -> coef m (cost_add l r) = (coef m l + coef m r)%Qc.
Proof.
  unfold cost_add. induction r as [|c r IH]; intros l Hl Hr; cbn [fold_left]; [cbn; ring|]. inversion Hr; subst. rewrite IH; auto; [|now apply add_term_ok].
  rewrite add_term_coef by (auto; apply Hl). cbn [coef fold_right]. change (fold_right _ 0%Qc r) with (coef m r). destruct (exps_eqb _ _); ring.
Qed.
Lemma cost_scale_coef m q c : coef m (cost_scale q c) = (q * coef m c)%Qc.
Proof. induction c as [|x c IH]; cbn; [ring|]. change (fold_right _ 0%Qc (map _ c)) with (coef m (cost_scale q c)). rewrite IH. change (fold_right _ 0%Qc c) with (coef m c). destruct (exps_eqb _ _); ring. Qed.

(** ** comparison *)
Definition term_lt (a b : entry) : Prop := monomial_lt (exps a) (exps b) \/ (exps a = exps b /\ (pre a < pre b)%Qc).
Lemma Qc_ltb_iff x y : Qc_ltb x y = true <-> (x < y)%Qc.
Proof. unfold Qc_ltb. rewrite Qclt_alt. destruct (x ?= y)%Qc; split; intros; congruence. Qed.
Lemma pairs_lt_cons c1 c2 l b : term_ok c1 -> term_ok c2 ->
  pairs_lt ((c1, c2) :: l) b = true <-> term_lt c1 c2 \/ (c1 = c2 /\ pairs_lt l b = true).
Proof.
  intros H1 H2. pose proof H1 as (M1 & O1 & N1 & P1). pose proof H2 as (M2 & O2 & N2 & P2). cbn [pairs_lt]. unfold term_lt.
  destruct (entry_lt c1 c2) eqn:L; [apply entry_lt_true in L; auto; intuition|].
  assert (Hn : ~ monomial_lt (exps c1) (exps c2)). { intros H. apply entry_lt_spec in H; auto. congruence. }
  unfold entry_eqb. rewrite M1, M2. cbn [Bool.eqb andb]. destruct (exps_eqb (exps c1) (exps c2)) eqn:E.
  - apply exps_eqb_iff in E. destruct (Qc_ltb (pre c1) (pre c2)) eqn:Q1; [apply Qc_ltb_iff in Q1; intuition|].
    assert (Q1' : ~ (pre c1 < pre c2)%Qc) by (rewrite <- Qc_ltb_iff; congruence).
    destruct (Qc_ltb (pre c2) (pre c1)) eqn:Q2.
    + apply Qc_ltb_iff in Q2. split; [discriminate|]. intros [[H|[_ H]]|[-> _]]; [tauto|tauto|]. now apply Qclt_not_eq in Q2.
    + assert (Q2' : ~ (pre c2 < pre c1)%Qc) by (rewrite <- Qc_ltb_iff; congruence).
      assert (Hp : pre c1 = pre c2). { destruct (Qc_dec (pre c1) (pre c2)) as [[H|H]|H]; tauto. }
      split; [intros H; right; split; auto; destruct c1, c2; cbn in *; congruence|]. tauto.
  - split; [discriminate|]. intros [[H|[H _]]|[-> _]]; [tauto| |]; try (rewrite exps_eqb_refl in E; discriminate). apply exps_eqb_iff in H. congruence.
Qed.
Lemma term_lt_irrefl a : ~ term_lt a a.
Proof. intros [H|[_ H]]; [now apply monomial_lt_irrefl in H|]. now apply Qclt_not_eq in H. Qed.
Lemma term_lt_trans a b c : term_lt a b -> term_lt b c -> term_lt a c.
Proof.
  intros [H|[H1 H2]] [G|[G1 G2]].
  - left. eapply monomial_lt_trans; eauto. - left. now rewrite <- G1. - left. now rewrite H1. - right. split; [congruence|]. eapply Qclt_trans; eauto.
Qed.
Lemma term_lt_total a b : term_ok a -> term_ok b -> a = b \/ term_lt a b \/ term_lt b a.
Proof.
  intros (M1 & O1 & _) (M2 & O2 & _). unfold term_lt. destruct (monomial_lt_total _ _ O1 O2) as [H|[H|H]]; auto.
  destruct (Qc_dec (pre a) (pre b)) as [[Hq|Hq]|Hq]; auto. left. destruct a, b; cbn in *; congruence.
Qed.
(** the lists of pairs from the highest down *)
Definition okp (l : list (entry * entry)) : Prop := Forall (fun p => term_ok (fst p) /\ term_ok (snd p)) l.
Definition flip (l : list (entry * entry)) : list (entry * entry) := map (fun p => (snd p, fst p)) l.
Lemma pairs_total l b b' : okp l -> (b = true -> b' = false) -> (Forall (fun p => fst p = snd p) l /\ pairs_lt l b = b /\ pairs_lt (flip l) b' = b') \/ (pairs_lt l b = true /\ pairs_lt (flip l) b' = false) \/ (pairs_lt l b = false /\ pairs_lt (flip l) b' = true).
Proof.
  intros Hl Hb. induction Hl as [|[x y] l [Hx Hy] Hl IH]; [left; auto|]. cbn [fst snd] in *. cbn [flip map fst snd].
  assert (F : forall P b, pairs_lt ((x, y) :: l) b = true <-> P -> True) by auto. clear F.
  destruct (term_lt_total x y Hx Hy) as [<-|[H|H]].
  - assert (E1 : pairs_lt ((x, x) :: l) b = pairs_lt l b).
    { apply eq_true_iff_eq. rewrite pairs_lt_cons by auto. split; auto. intros [H|[_ H]]; auto. now apply term_lt_irrefl in H. }
    assert (E2 : pairs_lt ((x, x) :: flip l) b' = pairs_lt (flip l) b').
    { apply eq_true_iff_eq. rewrite pairs_lt_cons by auto. split; auto. intros [H|[_ H]]; auto. now apply term_lt_irrefl in H. }
    rewrite E1. unfold flip in E2. rewrite E2. destruct IH as [(I1 & I2 & I3)|[(I1 & I2)|(I1 & I2)]]; auto.
  - right; left. split; [apply pairs_lt_cons; auto|]. apply not_true_is_false. intros G. apply pairs_lt_cons in G; auto.
    destruct G as [G|[-> _]]; [|now apply term_lt_irrefl in H]. eapply term_lt_irrefl, term_lt_trans; eauto.
  - right; right. split; [|apply pairs_lt_cons; auto]. apply not_true_is_false. intros G. apply pairs_lt_cons in G; auto.
    destruct G as [G|[-> _]]; [|now apply term_lt_irrefl in H]. eapply term_lt_irrefl, term_lt_trans; eauto.
Qed.
Lemma combine_ok (l : cost) : forall r, Forall term_ok l -> Forall term_ok r -> okp (combine l r).
Proof. induction l as [|x l IH]; intros [|y r] Hl Hr; cbn; try constructor; inversion Hl; inversion Hr; subst; auto. apply IH; auto. Qed.
Lemma combine_flip (l : cost) : forall r : cost, combine r l = flip (combine l r).
Proof. induction l as [|x l IH]; intros [|y r]; cbn; auto. now rewrite IH. Qed.
Lemma okp_rev l : okp l -> okp (rev l). Proof. apply Forall_rev. Qed.
Lemma combine_eq (l : cost) : forall r : cost, length l = length r -> Forall (fun p => fst p = snd p) (combine l r) -> l = r.
Proof. induction l as [|x l IH]; intros [|y r] Hlen H; try discriminate; auto. cbn in H. inversion H; subst. cbn in *. f_equal; auto. Qed.
Lemma cost_trichotomy l r : Forall term_ok l -> Forall term_ok r ->
  (l = r /\ cost_lt l r = false /\ cost_lt r l = false) \/ (l <> r /\ cost_lt l r = true /\ cost_lt r l = false) \/ (l <> r /\ cost_lt l r = false /\ cost_lt r l = true).
Proof.
  intros Hl Hr. unfold cost_lt. rewrite (combine_flip l r). unfold flip. rewrite <- map_rev. fold (flip (rev (combine l r))).
  assert (Hrefl : forall c : cost, Forall term_ok c -> pairs_lt (rev (combine c c)) (length c <? length c) = false).
  { intros c Hc. destruct (pairs_total (rev (combine c c)) (length c <? length c) (length c <? length c)) as [(_ & H & _)|[(H & G)|(H & _)]]; auto.
    - apply okp_rev, combine_ok; auto. - rewrite Nat.ltb_irrefl. discriminate. - rewrite H. apply Nat.ltb_irrefl.
    - unfold flip in G. rewrite map_rev in G. fold (flip (combine c c)) in G. rewrite <- combine_flip in G. congruence. }
  destruct (pairs_total (rev (combine l r)) (length l <? length r) (length r <? length l)) as [(H1 & H2 & H3)|[(H2 & H3)|(H2 & H3)]].
  - apply okp_rev, combine_ok; auto. - rewrite Nat.ltb_lt, Nat.ltb_ge. lia.
  - rewrite H2, H3. destruct (lt_eq_lt_dec (length l) (length r)) as [[H|H]|H].
    + right; left. split; [intros ->; lia|]. rewrite Nat.ltb_lt, Nat.ltb_ge. lia.
    + left. split; [|rewrite !Nat.ltb_ge; lia]. apply combine_eq; auto. apply Forall_rev in H1. now rewrite rev_involutive in H1.
    + right; right. split; [intros ->; lia|]. rewrite Nat.ltb_lt, Nat.ltb_ge. lia.
  - right; left. split; auto. intros ->. rewrite Hrefl in H2 by auto. discriminate.
  - right; right. split; auto. intros ->. specialize (Hrefl r Hr). unfold flip in H3. rewrite map_rev in H3. fold (flip (combine r r)) in H3. rewrite <- combine_flip in H3. congruence.
Qed.

Lemma combine_rev_app (l r : cost) x y : length l = length r -> rev (combine (l ++ [x]) (r ++ [y])) = (x, y) :: rev (combine l r).
Proof.
  intros H. assert (E : combine (l ++ [x]) (r ++ [y]) = combine l r ++ [(x, y)]).
  { revert r H. induction l as [|a l IH]; intros [|b r] H; try discriminate; auto. cbn in *. f_equal. apply IH. lia. }
  now rewrite E, rev_app_distr.
Qed.
Lemma snoc_inv (l : cost) n : length l = S n -> exists l' x, l = l' ++ [x].
Proof. intros H. destruct l as [|x l _] using rev_ind; [discriminate|eauto]. Qed.
Lemma cost_lt_trans_same a : forall b c, length a = length b -> length b = length c -> Forall term_ok a -> Forall term_ok b -> Forall term_ok c ->
  cost_lt a b = true -> cost_lt b c = true -> cost_lt a c = true.
Proof.
  induction a as [|x a IH] using rev_ind; intros b c Hab Hbc Ha Hb Hc H1 H2.
  - destruct b; [|discriminate]. discriminate.
  - destruct (snoc_inv b (length a)) as (b' & y & ->); [rewrite app_length in Hab; cbn in Hab; lia|].
    destruct (snoc_inv c (length a)) as (c' & z & ->); [rewrite !app_length in *; cbn in *; lia|].
    rename b' into b. rename c' into c. assert (Lab : length a = length b) by (rewrite !app_length in Hab; cbn in Hab; lia).
    assert (Lbc : length b = length c) by (rewrite !app_length in Hbc; cbn in Hbc; lia). clear Hab Hbc.
    apply Forall_app in Ha as [Ha Hx]. apply Forall_app in Hb as [Hb Hy]. apply Forall_app in Hc as [Hc Hz]. inversion Hx; inversion Hy; inversion Hz; subst.
    unfold cost_lt in *. rewrite !combine_rev_app in * by lia. rewrite !app_length in *. cbn [length] in *.
    apply pairs_lt_cons in H1; auto. apply pairs_lt_cons in H2; auto. apply pairs_lt_cons; auto.
    replace (length a + 1 <? length b + 1) with (length a <? length b) in H1 by (apply eq_true_iff_eq; rewrite !Nat.ltb_lt; lia).
    replace (length b + 1 <? length c + 1) with (length b <? length c) in H2 by (apply eq_true_iff_eq; rewrite !Nat.ltb_lt; lia).
    replace (length a + 1 <? length c + 1) with (length a <? length c) by (apply eq_true_iff_eq; rewrite !Nat.ltb_lt; lia).
    destruct H1 as [H1|[-> H1]], H2 as [H2|[-> H2]]; auto. + left. eapply term_lt_trans; eauto. + right. split; auto. eapply IH; eauto; lia.
Qed.

Lemma scale_term q e : (0 < q)%Qc -> term_ok e -> term_ok (mkentry (exps e) (pre e * q)%Qc (emax e)).
Proof. intros Hq (H1 & H2 & H3 & H4). split; auto. split; auto. split; auto. cbn. intros H. apply Qcmult_integral in H as [H|H]; auto. subst. now apply Qclt_not_eq in Hq. Qed.
Lemma scale_lt q a b : (0 < q)%Qc -> term_lt (mkentry (exps a) (pre a * q)%Qc (emax a)) (mkentry (exps b) (pre b * q)%Qc (emax b)) <-> term_lt a b.
Proof.
  intros Hq. unfold term_lt. cbn. assert (H : (pre a * q < pre b * q)%Qc <-> (pre a < pre b)%Qc); [|tauto]. split.
  - intros H. destruct (Qc_dec (pre a) (pre b)) as [[G|G]|G]; auto; exfalso.
    + apply (Qcmult_lt_compat_r _ _ q) in G; auto. eapply Qclt_not_eq; [eapply Qclt_trans; [exact H|exact G]|reflexivity].
    + rewrite G in H. now apply Qclt_not_eq in H.
  - intros H. now apply Qcmult_lt_compat_r.
Qed.
Lemma pairs_lt_scale q l b : (0 < q)%Qc -> okp l ->
  pairs_lt (map (fun p => (mkentry (exps (fst p)) (pre (fst p) * q)%Qc (emax (fst p)), mkentry (exps (snd p)) (pre (snd p) * q)%Qc (emax (snd p)))) l) b = pairs_lt l b.
Proof.
  intros Hq. induction 1 as [|[x y] l [Hx Hy] Hl IH]; auto. cbn [fst snd] in *. cbn [map fst snd]. apply eq_true_iff_eq.
  rewrite !pairs_lt_cons by auto using scale_term. rewrite scale_lt, IH by auto. split; intros [H|[H1 H2]]; auto; right; split; auto.
  - pose proof (f_equal exps H1) as E1. pose proof (f_equal pre H1) as E2. pose proof (f_equal emax H1) as E3. cbn [exps pre emax] in E1, E2, E3. assert (Ep : pre x = pre y).
    { assert (Hz : ((pre x - pre y) * q = 0)%Qc) by (transitivity (pre x * q - pre y * q)%Qc; [ring|rewrite E2; ring]).
      apply Qcmult_integral in Hz as [Hz|Hz]; [|subst q; now apply Qclt_not_eq in Hq]. transitivity (pre x - pre y + pre y)%Qc; [ring|rewrite Hz; ring]. }
    destruct x, y; cbn in *; congruence.
  - now subst.
Qed.
Lemma combine_map2 {A B} (f : A -> B) (l : list A) : forall r, combine (map f l) (map f r) = map (fun p => (f (fst p), f (snd p))) (combine l r).
Proof. induction l as [|x l IH]; intros [|y r]; cbn; auto. now rewrite IH. Qed.
Lemma cost_lt_scale q a b : (0 < q)%Qc -> Forall term_ok a -> Forall term_ok b -> cost_lt (cost_scale q a) (cost_scale q b) = cost_lt a b.
Proof.
  intros Hq Ha Hb. unfold cost_lt, cost_scale. rewrite combine_map2, <- map_rev, !map_length. apply pairs_lt_scale; auto. now apply okp_rev, combine_ok.
Qed.
