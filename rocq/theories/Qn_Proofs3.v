(** What the operators of mbpt::op declare, and that the arithmetic is always defined. *)
From Coq Require Import List NArith ZArith Bool Arith Lia Permutation.
From Verif Require Import Wick_Model Wick_Spec Qn_Model Qn_Spec Qn_Proofs1 Qn_Proofs2.
Import ListNotations.

Lemma base_bit t b : is_base t = true -> N.land t b = b -> b <> 0%N -> b = t.
Proof.
  intros H Hb N0. unfold is_base in H. apply andb_prop in H. destruct H as (Ht & H). apply negb_true_iff, N.eqb_neq in Ht. apply N.eqb_eq in H.
  assert (E : t = (2 ^ N.log2 t)%N).
  { destruct (N.log2_spec t) as (L1 & L2); [lia|]. destruct (N.eq_dec t (2 ^ N.log2 t)) as [E|E]; [exact E|]. exfalso.
    assert (L3 : N.log2 (N.pred t) = N.log2 t) by (apply N.log2_unique; [lia|split; lia]).
    assert (B1 : N.testbit t (N.log2 t) = true) by (apply N.bit_log2; lia).
    assert (B2 : N.testbit (N.pred t) (N.log2 t) = true) by (rewrite <- L3; apply N.bit_log2; assert (0 < 2 ^ N.log2 t)%N by (apply N.neq_0_lt_0, N.pow_nonzero; discriminate); lia).
    assert (B3 : N.testbit (N.land t (N.pred t)) (N.log2 t) = true) by (rewrite N.land_spec, B1, B2; reflexivity).
    rewrite H, N.bits_0 in B3. discriminate. }
  set (n := N.log2 t) in *.
  assert (Bits : forall i, N.testbit b i = true -> i = n).
  { intros i Hi. rewrite <- Hb, E, N.land_spec in Hi. apply andb_prop in Hi. destruct Hi as (Hi & _). rewrite N.pow2_bits_eqb in Hi. apply N.eqb_eq in Hi. auto. }
  rewrite E. apply N.bits_inj. intros i. rewrite N.pow2_bits_eqb.
  destruct (N.testbit b i) eqn:Bi.
  - apply Bits in Bi. subst i. symmetry. apply N.eqb_refl.
  - destruct (N.eqb_spec n i) as [<-|]; [|reflexivity]. exfalso.
    assert (Bl : N.testbit b (N.log2 b) = true) by (apply N.bit_log2; exact N0). pose proof (Bits _ Bl) as El. rewrite El in Bl. congruence.
Qed.

Section S.
  Variable ctx : context.
  Context {I : Type}.
  Variable base : I -> nat.
  Notation op := (op I).
  Notation slot := (slot ctx base).
  Notation number := (number ctx base).
  Notation conforms := (conforms ctx base).
  Notation declared := (declared ctx base).
  Notation len := (if physical ctx then 1 else length (base_spaces ctx)).

  (** ** Definedness *)
  Definition nonneg_upper (x : interval * interval) : Prop := (0 <= snd (fst x))%Z /\ (0 <= snd (snd x))%Z.
  Lemma slot_defined o a b : nonneg_upper a -> nonneg_upper b -> exists z, combine_slot o a b = Some z.
  Proof.
    intros (A1 & A2) (B1 & B2). unfold combine_slot, upto, nonnegative, isub, iadd, lower, upper. destruct a as [[a1 a2] [a3 a4]], b as [[b1 b2] [b3 b4]]. cbn [fst snd] in *.
    destruct o.
    - rewrite (proj2 (Z.leb_le 0 (Z.min b4 a2))) by lia. cbn [fst snd].
      rewrite (proj2 (Z.leb_le 0 (b2 + a2 - 0))) by lia. rewrite (proj2 (Z.leb_le 0 (b4 + a4 - 0))) by lia. eauto.
    - rewrite (proj2 (Z.leb_le 0 (Z.min b2 a4))) by lia. cbn [fst snd].
      rewrite (proj2 (Z.leb_le 0 (b2 + a2 - 0))) by lia. rewrite (proj2 (Z.leb_le 0 (b4 + a4 - 0))) by lia. eauto.
  Qed.
  Lemma slots_defined occ : forall a b, Forall nonneg_upper a -> Forall nonneg_upper b -> exists q, combine_slots occ a b = Some q.
  Proof.
    induction occ as [|o occ IH]; intros a b Ha Hb; [cbn; eauto|]. destruct Ha as [|x a Hx Ha]; [cbn; eauto|]. destruct Hb as [|y b Hy Hb]; [cbn; eauto|].
    cbn. destruct (slot_defined o x y Hx Hy) as (z & ->). destruct (IH a b Ha Hb) as (q & ->). eauto.
  Qed.
  Lemma combine_defined a b : length a = len -> length b = len -> Forall nonneg_upper a -> Forall nonneg_upper b ->
    exists q, combine ctx a b = Some q.
  Proof. intros La Lb Ha Hb. unfold combine. rewrite La, Lb, Nat.eqb_refl. apply slots_defined; auto. Qed.

  Lemma combine_natural a b q : length a = len -> length b = len -> natural_qns a -> natural_qns b -> combine ctx a b = Some q ->
    length q = len /\ natural_qns q.
  Proof.
    intros La Lb Ha Hb H. unfold combine in H. rewrite La, Lb, Nat.eqb_refl in H.
    assert (L : length q = len) by (rewrite <- occ_length; eapply slots_length; eauto; rewrite occ_length; auto).
    split; [exact L|]. apply Forall_forall. intros [c n] Hin. apply In_nth_error in Hin. destruct Hin as (k & Hk).
    destruct (slots_nth _ _ _ _ _ _ H Hk) as (o & x & y & _ & Hx & Hy & Hs). apply combine_slot_some in Hs. cbn zeta in Hs. destruct Hs as (-> & ->).
    apply nth_error_In in Hx, Hy. pose proof (proj1 (Forall_forall _ _) Ha _ Hx) as ((X1 & X2) & (X3 & X4)). pose proof (proj1 (Forall_forall _ _) Hb _ Hy) as ((Y1 & Y2) & (Y3 & Y4)).
    clear - X1 X2 X3 X4 Y1 Y2 Y3 Y4. destruct x as [[x1 x2] [x3 x4]], y as [[y1 y2] [y3 y4]]. unfold natural. destruct o; cbn [fst snd] in *; lia.
  Qed.

  Lemma natural_upper q : natural_qns q -> Forall nonneg_upper q.
  Proof. intros H. eapply Forall_impl; [|exact H]. intros [[x1 x2] [x3 x4]] ((H1 & H2) & (H3 & H4)). cbn [fst snd] in *. split; cbn [fst snd]; lia. Qed.
  Lemma zero_natural : natural_qns (zero_qns ctx).
  Proof. apply Forall_forall. intros x Hx. apply repeat_spec in Hx. subst x. unfold natural. cbn. lia. Qed.

  Definition qns_ok (q : qns) : Prop := length q = len /\ natural_qns q.
  Definition operator_ok (o : operator) : Prop := match o with Plain q => qns_ok q | Adjointed d => qns_ok d end.
  Lemma adjoint_ok q : qns_ok q -> qns_ok (adjoint_qns q).
  Proof.
    intros (L & N). split; [unfold adjoint_qns; rewrite map_length; exact L|]. apply Forall_forall. intros x Hx. apply in_map_iff in Hx. destruct Hx as (y & <- & Hy).
    destruct (proj1 (Forall_forall _ _) N _ Hy) as (N1 & N2). split; [exact N2|exact N1].
  Qed.
  Lemma zero_ok : qns_ok (zero_qns ctx).
  Proof. split; [apply zero_length|apply zero_natural]. Qed.
  Lemma zero_add q : length q = len -> qns_add (zero_qns ctx) q = q.
  Proof.
    unfold zero_qns, nslots. intros <-. unfold qns_add. induction q as [|[[a b] [c d]] q IH]; [reflexivity|]. cbn [length repeat List.combine map]. f_equal; exact IH.
  Qed.
  Lemma add_ok a b : qns_ok a -> qns_ok b -> qns_ok (qns_add a b).
  Proof.
    intros (La & Na) (Lb & Nb). split; [unfold qns_add; rewrite map_length, combine_length; rewrite La, Lb; apply Nat.min_id|].
    apply Forall_forall. intros z Hz. apply in_map_iff in Hz. destruct Hz as ([x y] & <- & Hxy). pose proof (in_combine_l _ _ _ _ Hxy) as Hx. pose proof (in_combine_r _ _ _ _ Hxy) as Hy.
    pose proof (proj1 (Forall_forall _ _) Na _ Hx) as ((X1 & X2) & (X3 & X4)). pose proof (proj1 (Forall_forall _ _) Nb _ Hy) as ((Y1 & Y2) & (Y3 & Y4)).
    clear - X1 X2 X3 X4 Y1 Y2 Y3 Y4. destruct x as [[x1 x2] [x3 x4]], y as [[y1 y2] [y3 y4]]. unfold natural, iadd, lower, upper. cbn [fst snd] in *. lia.
  Qed.
  Lemma action_ok o s : operator_ok o -> qns_ok s -> exists q, qn_action ctx o s = Some q /\ qns_ok q.
  Proof.
    intros Ho Hs. destruct o as [q|d]; cbn in *.
    - destruct (combine_defined q s) as (x & E); try apply Ho; try apply Hs; try apply natural_upper; try apply Ho; try apply Hs.
      exists x. split; [exact E|]. eapply combine_natural; [apply Ho|apply Hs|apply Ho|apply Hs|exact E].
    - eexists. split; [reflexivity|]. apply add_ok; [exact Hs|apply adjoint_ok, Ho].
  Qed.
  Lemma apply_ok o s : operator_ok o -> qns_ok s -> exists q, apply ctx o s = Some q /\ qns_ok q.
  Proof.
    intros Ho Hs. unfold apply. destruct (is_vacuum ctx s); [apply action_ok; auto|].
    destruct (action_ok o _ Ho zero_ok) as (d & -> & Hd). destruct (combine_defined d s) as (x & E); try apply natural_upper; try apply Hd; try apply Hs.
    exists x. split; [exact E|]. eapply combine_natural; [apply Hd|apply Hs|apply Hd|apply Hs|exact E].
  Qed.
  Lemma apply_all_ok ops : Forall operator_ok ops -> exists q, apply_to_vac ctx ops = Some q /\ qns_ok q.
  Proof.
    induction 1 as [|o ops Ho _ (q & E & Hq)]; [exists (zero_qns ctx); split; [reflexivity|apply zero_ok]|].
    cbn. rewrite E. apply apply_ok; auto.
  Qed.
  Lemma change_defined ops target source : Forall operator_ok ops -> qns_ok source -> exists b, can_change_qns ctx ops target source = Some b.
  Proof.
    intros Ho Hs. unfold can_change_qns. destruct (apply_all_ok ops Ho) as (q & -> & Hq).
    destruct (combine_defined q source) as (x & ->); try apply natural_upper; try apply Hq; try apply Hs. eauto.
  Qed.
  Lemma commutes_defined o o' : operator_ok o -> operator_ok o' -> exists b, commutes_with ctx o o' = Some b.
  Proof.
    intros Ho Ho'. unfold commutes_with. destruct (apply_ok o _ Ho zero_ok) as (d & -> & Hd). destruct (apply_ok o' _ Ho' zero_ok) as (d' & -> & Hd').
    destruct (combine_defined d d') as (x & ->); try apply natural_upper; try apply Hd; try apply Hd'.
    destruct (combine_defined d' d) as (y & ->); try apply natural_upper; try apply Hd; try apply Hd'. eauto.
  Qed.

  (** builders are well-formed *)
  Lemma bounds_natural d k : natural (bounds d k).
  Proof. unfold natural, bounds, rank, rank_upto. destruct d; cbn; lia. Qed.
  Lemma upto_natural k : natural (rank_upto k). Proof. apply (bounds_natural false). Qed.
  Lemma mapped_ok (f : space -> interval * interval) : physical ctx = false -> (forall b, natural (fst (f b)) /\ natural (snd (f b))) -> qns_ok (map f (base_spaces ctx)).
  Proof.
    intros P H. split; [rewrite map_length, P; reflexivity|]. apply Forall_forall. intros x Hx. apply in_map_iff in Hx. destruct Hx as (b & <- & _). apply H.
  Qed.
  Lemma single_ok a b : physical ctx = true -> natural a -> natural b -> qns_ok [(a, b)].
  Proof. intros P Ha Hb. split; [rewrite P; reflexivity|]. repeat constructor; apply Ha || apply Hb. Qed.
  Lemma zz : natural (0, 0)%Z. Proof. unfold natural. cbn. lia. Qed.
  Ltac pick := intros; repeat match goal with |- context [if ?x then _ else _] => destruct x end; cbn [fst snd];
    split; first [apply zz | apply bounds_natural | apply upto_natural].
  Lemma excitation_ok k q : qns_ok (excitation_type_qns ctx k q).
  Proof. unfold excitation_type_qns. destruct (physical ctx) eqn:P; [apply single_ok; auto; apply upto_natural|]. apply mapped_ok; auto. pick. Qed.
  Lemma deexcitation_ok k q : qns_ok (deexcitation_type_qns ctx k q).
  Proof. unfold deexcitation_type_qns. destruct (physical ctx) eqn:P; [apply single_ok; auto; apply upto_natural|]. apply mapped_ok; auto. pick. Qed.
  Lemma interval_excitation_ok k q : qns_ok (interval_excitation_type_qns ctx k q).
  Proof. unfold interval_excitation_type_qns. destruct (physical ctx) eqn:P; [apply single_ok; auto; apply upto_natural|]. apply mapped_ok; auto. pick. Qed.
  Lemma interval_deexcitation_ok k q : qns_ok (interval_deexcitation_type_qns ctx k q).
  Proof. unfold interval_deexcitation_type_qns. destruct (physical ctx) eqn:P; [apply single_ok; auto; apply upto_natural|]. apply mapped_ok; auto. pick. Qed.
  Lemma generic_excitation_ok np nh sp sh q : qns_ok (generic_excitation_qns ctx np nh sp sh q).
  Proof. unfold generic_excitation_qns. destruct (physical ctx) eqn:P; [apply single_ok; auto; apply upto_natural|]. apply mapped_ok; auto. pick. Qed.
  Lemma generic_deexcitation_ok np nh sp sh q : qns_ok (generic_deexcitation_qns ctx np nh sp sh q).
  Proof. unfold generic_deexcitation_qns. destruct (physical ctx) eqn:P; [apply single_ok; auto; apply upto_natural|]. apply mapped_ok; auto. pick. Qed.
  Lemma general_ok k : qns_ok (general_type_qns ctx k).
  Proof.
    split; [apply repeat_length|]. apply Forall_forall. intros x Hx. apply repeat_spec in Hx. subst x. split; apply upto_natural.
  Qed.

  (** ** Contents *)
  Lemma plain_declared q (w : list op) : conforms q w -> declared (Plain q) w.
  Proof.
    intros (L & S & H). assert (U : Forall nonneg_upper q).
    { apply Forall_forall. intros [c n] Hin. apply In_nth_error in Hin. destruct Hin as (k & Hk). destruct (H _ _ _ Hk) as (H1 & H2).
      pose proof (number_nonneg ctx base true k w). pose proof (number_nonneg ctx base false k w). split; cbn [fst snd]; lia. }
    destruct (combine_defined q (zero_qns ctx)) as (d & E); [exact L|apply zero_length|exact U|apply natural_upper, zero_natural|].
    exists d. split.
    - unfold apply, qn_action. rewrite E. destruct (is_vacuum ctx (zero_qns ctx)) eqn:Ev; [reflexivity|]. exfalso.
      unfold is_vacuum in Ev. assert (T : forall a : qns, qns_equal a a = true).
      { induction a as [|[[a1 a2] [a3 a4]] a IH]; [reflexivity|]. unfold qns_equal in *. cbn [List.combine forallb fst snd]. rewrite IH.
        unfold pair_equal, iequal. rewrite !Z.eqb_refl. reflexivity. }
      rewrite T in Ev. discriminate.
    - unfold combine in E. rewrite L, zero_length, Nat.eqb_refl in E.
      assert (Ld : length d = len) by (rewrite <- occ_length; eapply slots_length; eauto; rewrite occ_length; auto; apply zero_length).
      split; [exact Ld|]. split; [intros o Ho; rewrite Ld, <- L; apply S, Ho|].
      intros k c n Hk. destruct (slots_nth _ _ _ _ _ _ E Hk) as (o & x & y & _ & Hx & Hy & Hs). apply combine_slot_some in Hs. cbn zeta in Hs. destruct Hs as (-> & ->).
      apply nth_error_In, repeat_spec in Hy. subst y. destruct x as [xc xn]. destruct (H _ _ _ Hx) as (H1 & H2). cbn [fst snd] in *.
      pose proof (number_nonneg ctx base true k w). pose proof (number_nonneg ctx base false k w).
      destruct o; cbn [fst snd]; split; lia.
  Qed.

  Lemma adjointed_declared q (w : list op) : conforms (adjoint_qns q) w -> declared (Adjointed q) w.
  Proof.
    intros H. exists (adjoint_qns q). split; [|exact H]. unfold apply, qn_action. rewrite zero_add by apply H.
    destruct (is_vacuum ctx (zero_qns ctx)) eqn:Ev; [reflexivity|]. exfalso.
    unfold is_vacuum in Ev. assert (T : forall a : qns, qns_equal a a = true).
    { induction a as [|[[a1 a2] [a3 a4]] a IH]; [reflexivity|]. unfold qns_equal in *. cbn [List.combine forallb fst snd]. rewrite IH.
      unfold pair_equal, iequal. rewrite !Z.eqb_refl. reflexivity. }
    rewrite T in Ev. discriminate.
  Qed.

  Definition count (k : nat) (l : list I) : nat := length (filter (fun i => Nat.eqb (slot i) k) l).
  Lemma number_split ci ni k : number true k (map (fun i => mkop i true) ci ++ map (fun i => mkop i false) ni) = Z.of_nat (count k ci) /\
    number false k (map (fun i => mkop i true) ci ++ map (fun i => mkop i false) ni) = Z.of_nat (count k ni).
  Proof.
    assert (A : forall c l, number c k (map (fun i => mkop i c) l) = Z.of_nat (count k l)).
    { intros c l. unfold Qn_Spec.number, count. f_equal. induction l as [|i l IH]; [reflexivity|]. cbn [map filter oidx ocre]. rewrite Bool.eqb_reflx. cbn [andb].
      destruct (Nat.eqb (slot i) k); cbn [length]; lia. }
    assert (B : forall c l, number c k (map (fun i => mkop i (negb c)) l) = 0%Z).
    { intros c l. unfold Qn_Spec.number. induction l as [|i l IH]; [reflexivity|]. cbn [map filter oidx ocre]. destruct c; exact IH. }
    rewrite !number_app. rewrite (A true), (A false). rewrite (B true), (B false). lia.
  Qed.

  Lemma count_le k l : count k l <= length l.
  Proof. unfold count. induction l as [|i l IH]; [reflexivity|]. cbn. destruct (Nat.eqb (slot i) k); cbn; lia. Qed.

  Lemma f2_repeat {X Y} (P : X -> Y -> Prop) x k l : Forall2 P (repeat x k) l -> length l = k /\ Forall (P x) l.
  Proof.
    revert l. induction k as [|k IH]; intros l H; inversion H; subst; [split; [reflexivity|constructor]|].
    destruct (IH _ H4) as (E & F). split; [cbn; lia|constructor; auto].
  Qed.

  Lemma in_space_slot s i : in_space ctx base s i -> slot i < len.
  Proof.
    intros (b & Hb & _). unfold Qn_Spec.slot. destruct (physical ctx); [lia|]. apply nth_error_Some. rewrite Hb. discriminate.
  Qed.

  Lemma count_physical k l : physical ctx = true -> count k l = if Nat.eqb 0 k then length l else 0.
  Proof.
    intros P. unfold count, Qn_Spec.slot. rewrite P. induction l as [|i l IH]; [destruct (Nat.eqb 0 k); reflexivity|]. cbn [filter].
    destruct (Nat.eqb 0 k); cbn [length]; lia.
  Qed.

  Hypothesis plain : plain_spaces ctx.

  Lemma count_space (def : bool) s k l j b : physical ctx = false -> (def = true -> is_base s = true) -> length l = k -> Forall (in_space ctx base s) l ->
    nth_error (base_spaces ctx) j = Some b ->
    (fst (if includes s (stype b) then bounds def k else (0, 0)%Z) <= Z.of_nat (count j l) <= snd (if includes s (stype b) then bounds def k else (0, 0)%Z))%Z.
  Proof.
    intros P Hd L H Hj. destruct plain as (ND & Hq).
    assert (Nb : stype b <> 0%N) by (apply (proj1 (Forall_forall _ _) Hq b), (nth_error_In _ _ Hj)).
    destruct (includes s (stype b)) eqn:E; unfold includes in E.
    - apply N.eqb_eq in E. pose proof (count_le j l). unfold bounds. destruct def; cbn [rank rank_upto fst snd]; [|lia].
      assert (C : count j l = length l); [|lia].
      specialize (Hd eq_refl). pose proof (base_bit _ _ Hd E Nb) as Eb.
      clear L. induction H as [|i l Hi H IH]; [reflexivity|]. unfold count in *. cbn [filter].
      destruct Hi as (b' & Hb' & Hs). assert (Nb' : stype b' <> 0%N) by (apply (proj1 (Forall_forall _ _) Hq b'), (nth_error_In _ _ Hb')).
      pose proof (base_bit _ _ Hd Hs Nb') as Eb'.
      assert (base i = j).
      { apply (proj1 (NoDup_nth_error _) ND).
        - rewrite map_length. apply nth_error_Some. rewrite Hb'. discriminate.
        - rewrite !nth_error_map, Hb', Hj. cbn. congruence. }
      unfold Qn_Spec.slot at 1. rewrite P, H1, Nat.eqb_refl. cbn [length]. f_equal. apply IH. pose proof (count_le j l) as Hle. unfold count in Hle. exact Hle.
    - cbn [fst snd]. assert (C : count j l = 0); [|lia]. apply N.eqb_neq in E. clear L. induction H as [|i l Hi H IH]; [reflexivity|].
      unfold count in *. cbn [filter]. destruct Hi as (b' & Hb' & Hs). unfold Qn_Spec.slot at 1. rewrite P. destruct (Nat.eqb_spec (base i) j) as [Eb|_]; [|exact IH].
      subst j. rewrite Hb' in Hj. injection Hj as ->. contradiction.
  Qed.

  (** one lemma for all excitation-like operators *)
  Lemma space_conforms (dc dn : bool) sc sn nc nn (w : list op) (q : qns) :
    (dc = true -> is_base sc = true) -> (dn = true -> is_base sn = true) ->
    (physical ctx = true -> exists kc kn, q = [(rank_upto kc, rank_upto kn)] /\ nc <= kc /\ nn <= kn) ->
    (physical ctx = false -> q = map (fun b => if negb (Nat.eqb (sqns b) any) then ((0, 0), (0, 0))%Z else
      (if includes sc (stype b) then bounds dc nc else (0, 0)%Z, if includes sn (stype b) then bounds dn nn else (0, 0)%Z)) (base_spaces ctx)) ->
    made_of ctx base (repeat sc nc) (repeat sn nn) w -> conforms q w.
  Proof.
    intros Hdc Hdn Hp Hs (ci & ni & Hc & Hn & ->). apply f2_repeat in Hc, Hn. destruct Hc as (Lc & Hc), Hn as (Ln & Hn).
    assert (Lq : length q = len).
    { destruct (physical ctx); [destruct (Hp eq_refl) as (? & ? & -> & _); reflexivity|rewrite (Hs eq_refl); apply map_length]. }
    split; [exact Lq|]. split.
    - intros o Ho. rewrite Lq. apply in_app_iff in Ho. destruct Ho as [Ho|Ho]; apply in_map_iff in Ho; destruct Ho as (i & <- & Hi); cbn [oidx].
      + eapply in_space_slot, (proj1 (Forall_forall _ _) Hc), Hi.
      + eapply in_space_slot, (proj1 (Forall_forall _ _) Hn), Hi.
    - intros k c n Hk. destruct (number_split ci ni k) as (-> & ->). destruct (physical ctx) eqn:P.
      + destruct (Hp eq_refl) as (kc & kn & -> & K1 & K2). destruct k as [|k]; [|destruct k; discriminate]. injection Hk as <- <-.
        pose proof (count_le 0 ci). pose proof (count_le 0 ni). cbn. lia.
      + rewrite (Hs eq_refl) in Hk. rewrite nth_error_map in Hk. destruct (nth_error (base_spaces ctx) k) as [b|] eqn:Eb; [|discriminate].
        cbn [option_map] in Hk. assert (Q : sqns b = any) by (apply (proj1 (Forall_forall _ _) (proj2 plain) b), (nth_error_In _ _ Eb)).
        rewrite Q, Nat.eqb_refl in Hk. cbn [negb] in Hk. injection Hk as <- <-. split; eapply count_space; eauto.
  Qed.

  Lemma general_conforms k (w : list op) : general_term ctx base k w -> conforms (general_type_qns ctx k) w.
  Proof.
    intros (ci & ni & Lc & Ln & Sc & Sn & ->).
    assert (Sl : forall i, somewhere ctx base i -> slot i < len) by (intros i Hi; unfold Qn_Spec.slot; destruct (physical ctx); [lia|exact Hi]).
    split; [apply repeat_length|]. split.
    - intros o Ho. unfold general_type_qns. rewrite repeat_length. apply in_app_iff in Ho. destruct Ho as [Ho|Ho]; apply in_map_iff in Ho; destruct Ho as (i & <- & Hi); cbn [oidx]; apply Sl.
      + apply (proj1 (Forall_forall _ _) Sc), Hi.
      + apply (proj1 (Forall_forall _ _) Sn), Hi.
    - intros j c n Hk. apply nth_error_In, repeat_spec in Hk. injection Hk as -> ->. destruct (number_split ci ni j) as (-> & ->).
      pose proof (count_le j ci). pose proof (count_le j ni). cbn. lia.
  Qed.

  Lemma excitation_conforms k (w : list op) : made_of ctx base (repeat (particle ctx any) k) (repeat (hole ctx any) k) w -> conforms (excitation_type_qns ctx k any) w.
  Proof.
    apply space_conforms with (dc := is_base (particle ctx any)) (dn := is_base (hole ctx any)); auto; intros P; unfold excitation_type_qns; rewrite P; [exists k, k; auto|reflexivity].
  Qed.
  Lemma deexcitation_conforms k (w : list op) : made_of ctx base (repeat (hole ctx any) k) (repeat (particle ctx any) k) w -> conforms (deexcitation_type_qns ctx k any) w.
  Proof.
    apply space_conforms with (dc := is_base (hole ctx any)) (dn := is_base (particle ctx any)); auto; intros P; unfold deexcitation_type_qns; rewrite P; [exists k, k; auto|reflexivity].
  Qed.
  Lemma generic_excitation_conforms np nh sp sh (w : list op) : (physical ctx = false \/ np = nh) ->
    (is_base (particle ctx any) = true -> is_base sp = true) -> (is_base (hole ctx any) = true -> is_base sh = true) ->
    made_of ctx base (repeat sp np) (repeat sh nh) w -> conforms (generic_excitation_qns ctx np nh sp sh any) w.
  Proof.
    intros Hp H1 H2. apply space_conforms with (dc := is_base (particle ctx any)) (dn := is_base (hole ctx any)); auto; intros P; unfold generic_excitation_qns; rewrite P; [|reflexivity].
    destruct Hp as [Hp| ->]; [congruence|]. exists nh, nh; auto.
  Qed.
  Lemma generic_deexcitation_conforms np nh sp sh (w : list op) : (physical ctx = false \/ np = nh) ->
    (is_base (particle ctx any) = true -> is_base sp = true) -> (is_base (hole ctx any) = true -> is_base sh = true) ->
    made_of ctx base (repeat sh nh) (repeat sp np) w -> conforms (generic_deexcitation_qns ctx np nh sp sh any) w.
  Proof.
    intros Hp H1 H2. apply space_conforms with (dc := is_base (hole ctx any)) (dn := is_base (particle ctx any)); auto; intros P; unfold generic_deexcitation_qns; rewrite P; [|reflexivity].
    destruct Hp as [Hp| ->]; [congruence|]. exists nh, nh; auto.
  Qed.
End S.
