(** C23, C24: symbolic costs. *)
From Coq Require Import List Bool Arith QArith Qcanon Sorted Lia.
From Verif Require Import AsyCost_Model AsyCost_Spec AsyCost_Proofs.
Import ListNotations.
Local Open Scope Qc_scope.

(** ** C23: arithmetic *)
(** A cost made from a list of exponents is in normal form and has the value of the monomial times
    the prefactor. A monomial without spaces is dropped, whatever its prefactor: constant costs are
    zero. *)
Theorem C23_constructor ext m q : StronglySorted (fun x y => fst x < fst y)%nat m ->
  cost_ok (mk_cost m q) /\
  ops ext (mk_cost m q) = Some (if forallb (fun kv => Nat.eqb (snd kv) 0) m then 0 else q * monomial_value ext m).
Proof.
  intros Hs. set (m' := filter (fun kv => negb (Nat.eqb (snd kv) 0)) m).
  assert (Hm : monomial_value ext m' = monomial_value ext m).
  { unfold m'. clear. induction m as [|[s e] m IH]; [reflexivity|]. cbn [filter snd]. destruct (Nat.eqb_spec e 0) as [->|]; cbn [negb monomial_value fold_right fst snd].
    - cbn [qpow]. unfold monomial_value in IH. rewrite IH. ring. - unfold monomial_value in IH. now rewrite IH. }
  assert (Hok : monomial_ok m').
  { split.
    - unfold m'. clear -Hs. induction Hs as [|x m Hs IH Hall]; cbn [filter]; [constructor|]. destruct (negb _); auto. constructor; auto.
      apply Forall_forall. intros y Hy. apply filter_In in Hy as [Hy _]. rewrite Forall_forall in Hall. auto.
    - apply Forall_forall. intros y Hy. apply filter_In in Hy as [_ Hy]. intros H. rewrite H in Hy. discriminate. }
  assert (He : forallb (fun kv => Nat.eqb (snd kv) 0) m = match m' with [] => true | _ => false end).
  { unfold m'. clear. induction m as [|[s e] m IH]; [reflexivity|]. cbn [forallb filter snd]. now destruct (Nat.eqb e 0). }
  unfold mk_cost, mk_entry. fold m'. rewrite He. destruct (Qc_eq_bool q 0) eqn:Hq.
  - apply Qc_eq_bool_iff in Hq. subst q. cbn [orb]. replace (cost_of_entry _) with (@nil entry) by reflexivity.
    split; [split; constructor|]. transitivity (Some (Q2Qc 0)); [reflexivity|]. apply f_equal. clearbody m'. destruct m'; [reflexivity|]. ring.
  - cbn [orb]. destruct m' as [|x m''] eqn:Em.
    + replace (cost_of_entry _) with (@nil entry) by reflexivity. split; [split; constructor|]. reflexivity.
    + unfold cost_of_entry. cbn [entry_zero emax exps pre negb andb].
      assert (Hc : cost_ok [mkentry (x :: m'') q false]).
      { split; [|repeat constructor]. constructor; [|constructor]. split; [reflexivity|]. split; [exact Hok|]. split; [discriminate|]. cbn. intros H. apply Qc_eq_bool_iff in H. congruence. }
      split; auto. rewrite ops_value by auto. f_equal. cbn [cost_value fold_right pre exps]. rewrite Hm. ring.
Qed.

Theorem C23_add ext a b : cost_ok a -> cost_ok b ->
  cost_ok (cost_add a b) /\ exists x y, ops ext a = Some x /\ ops ext b = Some y /\ ops ext (cost_add a b) = Some (x + y).
Proof.
  intros Ha Hb. assert (Hc : cost_ok (cost_add a b)) by (apply cost_add_ok; [auto|apply Hb]). split; auto.
  exists (cost_value ext a), (cost_value ext b). rewrite !ops_value by auto. rewrite cost_add_value by (auto; apply Hb). auto.
Qed.
Lemma minus_one_ne : (- (1))%Qc <> 0. Proof. discriminate. Qed.
Theorem C23_sub ext a b : cost_ok a -> cost_ok b ->
  cost_ok (cost_sub a b) /\ exists x y, ops ext a = Some x /\ ops ext b = Some y /\ ops ext (cost_sub a b) = Some (x - y).
Proof.
  intros Ha Hb. pose proof (cost_scale_ok _ b minus_one_ne Hb) as Hs. destruct (C23_add ext a _ Ha Hs) as (H & x & y & H1 & H2 & H3). split; auto.
  exists x, (cost_value ext b). rewrite (ops_value ext b Hb). split; auto. split; auto. unfold cost_sub. rewrite H3. f_equal. rewrite ops_value in H2 by auto. rewrite cost_scale_value in H2. inversion H2. ring.
Qed.
Theorem C23_scale ext q a : cost_ok a ->
  (q <> 0 -> cost_ok (cost_scale q a)) /\ exists x, ops ext a = Some x /\ ops ext (cost_scale q a) = Some (q * x).
Proof.
  intros Ha. split; [intros; now apply cost_scale_ok|]. exists (cost_value ext a). split; [now apply ops_value|].
  unfold ops. rewrite ops_from_value. - rewrite cost_scale_value. f_equal. ring. - apply Forall_map. now apply cost_ok_finite.
Qed.
Theorem C23_div ext q a : cost_ok a -> q <> 0 -> cost_ok (cost_div a q) /\ exists x, ops ext a = Some x /\ ops ext (cost_div a q) = Some (x / q).
Proof.
  intros Ha Hq. destruct (C23_scale ext (1 / q) a Ha) as (H1 & x & H2 & H3). split.
  - apply H1. intros H. assert (H0 : (1 / q) * q = 0) by (rewrite H; ring). unfold Qcdiv in H0. rewrite Qcmult_1_l, Qcmult_comm, Qcmult_inv_r in H0 by auto. discriminate.
  - exists x. split; auto. unfold cost_div. rewrite H3. f_equal. unfold Qcdiv. ring.
Qed.
(** Costs in normal form with the same coefficients are the same, so the algebraic laws hold on
    the nose. *)
Theorem C23_add_comm a b : cost_ok a -> cost_ok b -> cost_add a b = cost_add b a.
Proof.
  intros Ha Hb. apply coef_ext; try (apply cost_add_ok; [auto|]; [apply Ha || apply Hb]); try (apply cost_add_ok; auto; apply Ha). intros m. rewrite !cost_add_coef; auto; try (apply Ha); try (apply Hb). ring.
Qed.
Theorem C23_add_assoc a b c : cost_ok a -> cost_ok b -> cost_ok c -> cost_add (cost_add a b) c = cost_add a (cost_add b c).
Proof.
  intros Ha Hb Hc. assert (Hab : cost_ok (cost_add a b)) by (apply cost_add_ok; [auto|apply Hb]). assert (Hbc : cost_ok (cost_add b c)) by (apply cost_add_ok; [auto|apply Hc]).
  apply coef_ext; [apply cost_add_ok; [auto|apply Hc]|apply cost_add_ok; [auto|apply Hbc]|]. intros m.
  rewrite !cost_add_coef; auto; try (apply Hc); try (apply Hb); try (apply Hbc). ring.
Qed.
Theorem C23_sub_self a : cost_ok a -> cost_sub a a = zero_cost.
Proof.
  intros Ha. pose proof (cost_scale_ok _ a minus_one_ne Ha) as Hs. apply coef_ext; [apply cost_add_ok; [auto|apply Hs]|split; constructor|]. intros m.
  unfold cost_sub. rewrite cost_add_coef by (auto; apply Hs). rewrite cost_scale_coef. cbn. ring.
Qed.

(** ** C24: comparison *)
(** For costs in normal form exactly one of [<], [==] and [>] holds, [==] is equality, and the
    other operators follow. *)
Theorem C24_trichotomy a b : cost_ok a -> cost_ok b ->
  (cost_eqb a b = true <-> a = b) /\ (cost_gt a b = cost_lt b a) /\
  (cost_lt a b = true -> cost_lt b a = false) /\ cost_lt a a = false /\
  (a = b \/ cost_lt a b = true \/ cost_lt b a = true) /\
  (cost_le a b = negb (cost_lt b a)) /\ (cost_ge a b = negb (cost_lt a b)).
Proof.
  intros Ha Hb. unfold cost_le, cost_ge, cost_gt, cost_eqb.
  assert (Hr : cost_lt a a = false) by (destruct (cost_trichotomy a a) as [(_ & H & _)|[(H & _)|(H & _)]]; auto; try apply Ha; congruence).
  destruct (cost_trichotomy a b) as [(-> & H1 & H2)|[(Hn & H1 & H2)|(Hn & H1 & H2)]]; [apply Ha|apply Hb| | |].
  - rewrite Hr, Nat.eqb_refl. cbn. repeat split; auto.
  - rewrite H1, H2, Hr. cbn. rewrite !andb_false_r. cbn. repeat split; auto; try discriminate; try (intros; congruence).
  - rewrite H1, H2, Hr. cbn. rewrite !andb_false_r. cbn. repeat split; auto; try discriminate; try (intros; congruence).
Qed.
(** Among costs with the same number of terms [<] is transitive. Missing: costs with different
    numbers of terms, where it is not (below), and monotonicity under addition, which fails. *)
Theorem C24_transitive_partial a b c : cost_ok a -> cost_ok b -> cost_ok c -> length a = length b -> length b = length c ->
  cost_lt a b = true -> cost_lt b c = true -> cost_lt a c = true.
Proof. intros [Ha _] [Hb _] [Hc _]. intros. eapply (cost_lt_trans_same a b c); eauto. Qed.
(** scaling by a positive number does not change the order *)
Theorem C24_scale q a b : 0 < q -> cost_ok a -> cost_ok b -> cost_lt (cost_scale q a) (cost_scale q b) = cost_lt a b.
Proof. intros Hq [Ha _] [Hb _]. now apply cost_lt_scale. Qed.

Module CostExample.
  (** space 0 is occupied, space 1 unoccupied *)
  Definition o1 : cost := mk_cost [(0, 1)]%nat 1.
  Definition o2 : cost := mk_cost [(0, 2)]%nat 1.
  Definition o3 : cost := mk_cost [(0, 3)]%nat 1.
  Definition v4 : cost := mk_cost [(1, 4)]%nat 1.
  Definition half_o2v4 : cost := mk_cost [(0, 2); (1, 4)]%nat (Q2Qc (1 # 2)).
  Lemma two_sorted (x y : nat * nat) : (fst x < fst y)%nat -> StronglySorted (fun x y => fst x < fst y)%nat [x; y].
  Proof. intros H. repeat constructor; auto. Qed.
  Lemma one_sorted (x : nat * nat) : StronglySorted (fun x y => fst x < fst y)%nat [x]. Proof. repeat constructor. Qed.
  Example oks : cost_ok o1 /\ cost_ok o2 /\ cost_ok o3 /\ cost_ok v4 /\ cost_ok half_o2v4.
  Proof. repeat match goal with |- _ /\ _ => split; [match goal with |- cost_ok _ => apply (C23_constructor (fun _ => 0%nat)); apply one_sorted end|] end. apply (C23_constructor (fun _ => 0%nat)), two_sorted. cbn. lia. Qed.
  Example sum_ok : cost_ok (cost_add half_o2v4 o1) /\ length (cost_add half_o2v4 o1) = 2%nat /\ cost_lt o1 half_o2v4 = true.
  Proof. split; [apply C23_add; [exact (fun _ => 0%nat)|apply oks|apply oks]|]. split; reflexivity. Qed.
  Example value_at : ops (fun s => if Nat.eqb s 0 then 3 else 2)%nat (cost_add half_o2v4 o1) = Some (Q2Qc (75 # 1)). Proof. vm_compute. f_equal; now apply Qc_is_canon. Qed.
  (** terms cancel and are erased *)
  Example cancel : cost_sub (cost_add half_o2v4 o1) half_o2v4 = o1. Proof. vm_compute. repeat f_equal. Qed.

  (** ** Counterexamples *)
  (** multiplying by zero leaves terms with prefactor zero: the result is not equal to zero *)
  Theorem C23_scale_zero_refuted : exists a, cost_ok a /\ ~ cost_ok (cost_scale 0 a) /\ cost_eqb (cost_scale 0 a) zero_cost = false /\ forall ext, ops ext (cost_scale 0 a) = Some 0.
  Proof.
    exists o1. split; [apply oks|]. split; [|split].
    - intros [H _]. inversion H as [|? ? (_ & _ & _ & Hp) _]. apply Hp. now apply Qc_is_canon.
    - reflexivity.
    - intros ext. destruct (C23_scale ext 0 o1) as (_ & x & _ & H); [apply oks|]. rewrite H. f_equal. ring.
  Qed.
  (** a constant cost vanishes *)
  Theorem C23_constant_refuted : forall q, mk_cost [] q = zero_cost.
  Proof. intros q. unfold mk_cost, mk_entry. cbn [filter]. rewrite orb_true_r. reflexivity. Qed.
  (** subtracting the infinite cost gives an infinite cost, and twice subtracting from itself is zero *)
  Theorem C23_max_refuted : (forall ext, ops ext (cost_sub o1 max_cost) = None) /\ cost_sub max_cost max_cost = zero_cost.
  Proof. split; [reflexivity|]. reflexivity. Qed.
  (** adding a positive cost makes a cost smaller: O + V^4 < V^4 *)
  Theorem C24_monotone_refuted : exists a b, cost_ok a /\ cost_ok b /\ (forall ext, (forall s, (0 < ext s)%nat) -> exists x, ops ext b = Some x /\ 0 < x) /\ cost_lt (cost_add a b) a = true.
  Proof.
    exists v4, o1. split; [apply oks|]. split; [apply oks|]. split; [|reflexivity]. intros ext Hext. destruct (C23_constructor ext [(0, 1)]%nat 1 (one_sorted _)) as [_ H].
    cbn [forallb snd Nat.eqb andb] in H. exists (1 * monomial_value ext [(0, 1)]%nat). split; [exact H|]. replace (1 * monomial_value ext [(0, 1)]%nat) with (qnat (ext 0%nat)) by (cbn; ring).
    unfold qnat, Qclt. cbn [this Q2Qc]. rewrite !Qred_correct. specialize (Hext 0%nat). change 0%Q with (inject_Z 0). rewrite <- Zlt_Qlt. lia.
  Qed.
  (** [<] has a cycle: O + V^4 < O^2 < O^2 + O^3 < O + V^4 *)
  Theorem C24_cycle_refuted : exists a b c, cost_ok a /\ cost_ok b /\ cost_ok c /\ cost_lt a b = true /\ cost_lt b c = true /\ cost_lt c a = true.
  Proof.
    exists (cost_add o1 v4), o2, (cost_add o2 o3). split; [apply C23_add; [exact (fun _ => 0%nat)|apply oks|apply oks]|]. split; [apply oks|]. split; [apply C23_add; [exact (fun _ => 0%nat)|apply oks|apply oks]|].
    repeat split; reflexivity.
  Qed.
End CostExample.
Print Assumptions C23_constructor.
Print Assumptions C23_sub.
Print Assumptions C23_add_assoc.
Print Assumptions C24_trichotomy.
Print Assumptions C24_transitive_partial.
Print Assumptions CostExample.C24_cycle_refuted.
