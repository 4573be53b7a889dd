(** C69: canonicalization of products exchanges only factors that commute; when the commutation
    tests are sound, and where they are not. *)
From Coq Require Import List NArith ZArith Bool Arith Lia Permutation.
From Verif Require Import Alg_Model Wick_Model Wick_Spec Wick_Ring Wick_Proofs1 Wick_Proofs11 Qn_Model Qn_Spec Qn_Proofs1 Qn_Proofs2 Qn_Proofs3 Qn_Example Qn_Props Com_Model Com_Proofs.
Import ListNotations.

(** ** The order of the factors *)
Section Order.
  Context {F : Type}.
  Variable scalar : F -> bool.
  Variable sort_scalars : list F -> list F.
  Variables commute less : F -> F -> bool.
  Hypothesis sorts : forall l, Permutation l (sort_scalars l).

  (** C69: the factors are reordered (for every commutation test, and every comparison in which no
      two factors are each less than the other): scalars first, then the others, with no two
      neighbours left that commute and are in the wrong order. *)
  Theorem C69_order factors : (forall x y, less x y = true -> less y x = false) ->
    exists rest, canonical_order scalar sort_scalars commute less factors = Some (sort_scalars (filter scalar factors) ++ rest) /\
      Permutation factors (sort_scalars (filter scalar factors) ++ rest) /\ Forall (fun f => scalar f = false) rest /\
      forall i x y, nth_error rest i = Some x -> nth_error rest (S i) = Some y -> ~ (commute y x = true /\ less y x = true).
  Proof.
    intros A. unfold canonical_order. set (fs := filter (fun f => negb (scalar f)) factors).
    assert (Pf : Permutation factors (sort_scalars (filter scalar factors) ++ fs)).
    { rewrite <- sorts. unfold fs. clear. induction factors as [|x l IH]; [reflexivity|]. cbn. destruct (scalar x); cbn; [constructor; exact IH|].
      rewrite <- Permutation_middle. constructor. exact IH. }
    assert (Ff : Forall (fun f => scalar f = false) fs).
    { apply Forall_forall. intros x Hx. apply filter_In in Hx. destruct (scalar x); [destruct Hx; discriminate|reflexivity]. }
    assert (C : forall x y, exchange commute less x y = true -> less x y = true) by (unfold exchange; intros x y; destruct (commute x y); [auto|discriminate]).
    destruct fs as [|f fs'] eqn:E.
    - exists []. rewrite app_nil_r in *. split; [reflexivity|]. split; [exact Pf|]. split; [constructor|]. intros [|i] x y H; discriminate.
    - rewrite <- E in *. destruct (sort_defined _ _ C A fs) as ([r n] & Hr). exists r. rewrite E in Hr |- *. rewrite Hr, <- E in *. cbn [option_map fst].
      assert (Pr : Permutation fs r) by (eapply (loop_perm _ _ C A); unfold bubble_sort in Hr; exact Hr).
      split; [reflexivity|]. split; [eapply Permutation_trans; [exact Pf|apply Permutation_app_head, Pr]|]. split; [eapply Permutation_Forall; eauto|].
      unfold bubble_sort in Hr. apply loop_settled in Hr. clear - Hr. induction Hr; intros i a b Ha Hb; [destruct i; discriminate|destruct i; discriminate|].
      destruct i as [|i]; [|eapply IHHr; eauto]. injection Ha as <-. injection Hb as <-. intros (H1 & H2). unfold exchange in H. rewrite H1, H2 in H. discriminate.
  Qed.

  (** C69: if the test is sound for the factors at hand the value is kept. *)
  Theorem C69_value {R : ring} (val : F -> car R) factors result :
    (forall x, In x factors -> scalar x = true -> central (val x)) ->
    (forall x y, In x factors -> In y factors -> scalar x = false -> scalar y = false -> commute x y = true -> less x y = true ->
      (val x * val y = val y * val x)%op) ->
    canonical_order scalar sort_scalars commute less factors = Some result -> rprod (map val result) = rprod (map val factors).
  Proof.
    intros Hs Hc H. rewrite (split_value val scalar factors Hs). unfold canonical_order in H. set (fs := filter (fun f => negb (scalar f)) factors) in *.
    assert (Es : rprod (map val (sort_scalars (filter scalar factors))) = rprod (map val (filter scalar factors))).
    { symmetry. apply central_perm; [|apply sorts]. apply Forall_forall. intros x Hx. apply filter_In in Hx. apply Hs; apply Hx. }
    destruct fs as [|f fs'] eqn:E.
    - injection H as <-. cbn. rewrite rmul_1_r. exact Es.
    - rewrite <- E in *. destruct (bubble_sort (exchange commute less) fs) as [[r n]|] eqn:Hr; [|discriminate]. injection H as <-. cbn [fst]. rewrite map_app, rprod_app, Es. f_equal.
      unfold bubble_sort in Hr.
      apply (loop_value val _ _ (fun x => In x factors /\ scalar x = false) fs r n) in Hr; [exact Hr| |].
      + intros a b (Ha & Sa) (Hb & Sb) X. unfold exchange in X. destruct (commute a b) eqn:Cab; [|discriminate]. apply Hc; auto.
      + apply Forall_forall. intros x Hx. apply filter_In in Hx. destruct (scalar x); [destruct Hx; discriminate|split; [apply Hx|reflexivity]].
  Qed.
End Order.

(** C69: the test for compound expressions is sound if the one for atoms is. *)
Theorem C69_trees {A : Type} {R : ring} (cnumber : A -> bool) (atoms : A -> A -> bool) (aval : A -> car R) t u v w :
  (forall a b, atoms a b = true -> (aval a * aval b = aval b * aval a)%op) -> (forall a, cnumber a = true -> central (aval a)) ->
  commutes cnumber atoms t u = true -> denotes aval t v -> denotes aval u w -> (v * w = w * v)%op.
Proof.
  intros Ha Hn. apply (commutes_sound cnumber atoms aval) with (n := tsize t); auto.
  intros a b H. destruct (cnumber a) eqn:Ca; [apply Hn, Ca|]. destruct (cnumber b) eqn:Cb; [symmetry; apply Hn, Cb|]. apply Ha, H.
Qed.

(** ** Normal operators *)
Section Normal.
  Context {I : Type} {R : ring}.
  Variable fermi : bool.
  Variables plus minus : op I -> car R.
  Variable contr : op I -> op I -> car R.
  Variable can : op I -> op I -> bool.
  Notation N := (normal fermi plus minus).
  (** C69: two normal-ordered products that have no contractions in either order commute, unless both
      have an odd number of fermions. *)
  Theorem C69_normal this that : canonical fermi plus minus contr -> (forall l r, can l r = false -> contr l r = r0 R) ->
    nop_commutes can this that = true -> nop_commutes can that this = true ->
    fermi = false \/ Nat.even (length this) = true \/ Nat.even (length that) = true ->
    (N this * N that = N that * N this)%op.
  Proof.
    intros CCR Hz H1 H2 He.
    assert (G : forall u v, nop_commutes can u v = true -> forall l r, In l u -> In r v -> can l r = false).
    { intros u v H l r Hl Hr. unfold nop_commutes in H. rewrite forallb_forall in H. specialize (H _ Hl). rewrite forallb_forall in H. specialize (H _ Hr). destruct (can l r); [discriminate|reflexivity]. }
    eapply (normal_commute fermi plus minus contr CCR can); eauto.
  Qed.
End Normal.

(** ** Many-body operators *)
Section Operators.
  Variable ctx : context.
  Context {I : Type} {R : ring}.
  Variable base : I -> nat.
  Variable fermi : bool.
  Variables plus minus : op I -> car R.
  Variable contr : op I -> op I -> car R.
  Variable V : car R -> car R.
  Notation N := (normal fermi plus minus).
  Notation terms := (list (car R * list (op I))).
  Definition change (o : operator) (d : qns) : Prop := apply ctx o (zero_qns ctx) = Some d.
  (** the operator declares a definite change *)
  Definition is_definite (o : operator) : Prop := exists d, change o d /\ definite d.
  Definition well_formed (o : operator) : Prop := exists d, change o d /\ natural_qns d.
  (** the terms of an operator keep what it declares; for fermions they have an even number of operators *)
  Definition implements (o : operator) (ts : terms) : Prop :=
    Forall (fun t => central (fst t) /\ keeps_promise ctx base o (snd t) /\ (fermi = false \/ Nat.even (length (snd t)) = true)) ts.

  Lemma sum_commute (xs ys : list (car R)) : (forall x y, In x xs -> In y ys -> (x * y = y * x)%op) -> (rsum xs * rsum ys = rsum ys * rsum xs)%op.
  Proof.
    intros H. apply commute_sum. apply Forall_forall. intros y Hy. symmetry. apply commute_sum. apply Forall_forall. intros x Hx. symmetry. apply H; auto.
  Qed.

  (** C69: operators that commutes_with finds to commute do, if one of them declares a definite change. *)
  Theorem C69_operators o o' ts ts' : occupied_lowest ctx -> vacuum_of ctx base fermi plus minus contr V ->
    well_formed o -> well_formed o' -> implements o ts -> implements o' ts' -> is_definite o \/ is_definite o' ->
    commutes_with ctx o o' = Some true ->
    (operator_value fermi plus minus ts * operator_value fermi plus minus ts' = operator_value fermi plus minus ts' * operator_value fermi plus minus ts)%op.
  Proof.
    intros low (CCR & _ & Hz) (d & Ed & Nd) (d' & Ed' & Nd') Ht Ht' Hdef Hc. unfold commutes_with in Hc. unfold change in Ed, Ed'. rewrite Ed, Ed' in Hc.
    destruct (combine ctx d d') as [x|] eqn:Ex; [|discriminate]. destruct (combine ctx d' d) as [y|] eqn:Ey; [|discriminate]. injection Hc as Hc.
    assert (Hdef' : definite d \/ definite d') by (destruct Hdef as [(e & E & D)|(e & E & D)]; unfold change in E; [left|right]; congruence).
    apply sum_commute. intros a b Ha Hb. apply in_map_iff in Ha, Hb. destruct Ha as ((c & w) & <- & Hw), Hb as ((c' & w') & <- & Hw'). cbn [fst snd].
    pose proof (proj1 (Forall_forall _ _) Ht _ Hw) as (Cc & (e & E & Ce) & Ev). pose proof (proj1 (Forall_forall _ _) Ht' _ Hw') as (Cc' & (e' & E' & Ce') & Ev').
    cbn [fst snd] in *. rewrite Ed in E. injection E as <-. rewrite Ed' in E'. injection E' as <-.
    assert (K : (N w * N w' = N w' * N w)%op).
    { eapply (normal_commute fermi plus minus contr CCR (contractible ctx base)); [exact Hz| | |].
      - intros l r Hl Hr. exact (proj1 (definite_apart ctx base low d d' x y w w' Nd Nd' Ce Ce' Hdef' Ex Ey Hc l r Hl Hr)).
      - intros l r Hl Hr. exact (proj2 (definite_apart ctx base low d d' x y w w' Nd Nd' Ce Ce' Hdef' Ex Ey Hc r l Hr Hl)).
      - destruct Ev; auto. }
    rewrite <- !(rmul_assoc R c), <- !(rmul_assoc R c'). rewrite (rmul_assoc R (N w)), <- (Cc' (N w)), <- (rmul_assoc R c'), K.
    rewrite (rmul_assoc R (N w') c), <- (Cc (N w')), <- (rmul_assoc R c (N w')). rewrite !rmul_assoc. rewrite (Cc c'). reflexivity.
  Qed.

  (** ** Products of operators *)
  Variable L : Type.
  Variable label_eqb : L -> L -> bool.
  Variable label_less : L -> L -> bool.
  Variable cardinal : list L.
  Hypothesis label_eqb_ok : forall a b, label_eqb a b = true <-> a = b.
  Hypothesis label_less_asym : forall a b, label_less a b = true -> label_less b a = false.
  Notation mop := (mop L).
  Notation less := (mop_less ctx L label_eqb label_less cardinal).

  Lemma interval_less_asym a b : interval_less a b = true -> interval_less b a = false.
  Proof.
    unfold interval_less, lower, upper. destruct a as [a1 a2], b as [b1 b2]. cbn [fst snd]. destruct (Z.eqb_spec a1 b1), (Z.eqb_spec b1 a1); try congruence; rewrite ?Z.ltb_lt, ?Z.ltb_ge; lia.
  Qed.
  Lemma intervals_less_asym : forall a b, intervals_less a b = true -> intervals_less b a = false.
  Proof.
    induction a as [|x a IH]; intros [|y b] H; cbn in *; try discriminate; try reflexivity. destruct (interval_less x y) eqn:E.
    - rewrite (interval_less_asym _ _ E). reflexivity.
    - destruct (interval_less y x) eqn:E'; [discriminate|]. apply IH, H.
  Qed.
  Lemma label_eqb_sym a b : label_eqb a b = label_eqb b a.
  Proof.
    assert (G : forall a b, label_eqb a b = true -> label_eqb b a = true) by (intros x y H; apply label_eqb_ok in H; subst; apply label_eqb_ok; reflexivity).
    destruct (label_eqb a b) eqn:E; [symmetry; apply G, E|]. destruct (label_eqb b a) eqn:E'; [|reflexivity]. apply G in E'. congruence.
  Qed.
  Lemma rank_asym x y : less_than_rank_of ctx L x y = true -> less_than_rank_of ctx L y x = false.
  Proof.
    unfold less_than_rank_of. destruct (apply ctx (maction x) (zero_qns ctx)), (apply ctx (maction y) (zero_qns ctx)); try discriminate. apply intervals_less_asym.
  Qed.
  (** The comparison of operators never puts each of two operators before the other. *)
  Theorem C69_asymmetric x y : less x y = true -> less y x = false.
  Proof.
    unfold mop_less. rewrite (label_eqb_sym (mlabel y)). destruct (label_eqb (mlabel x) (mlabel y)); [apply rank_asym|].
    destruct (position L label_eqb (mlabel x) cardinal) as [p|], (position L label_eqb (mlabel y) cardinal) as [q|]; auto; try discriminate.
    rewrite (Nat.eqb_sym q). destruct (Nat.eqb_spec p q); [apply rank_asym|]. rewrite Nat.ltb_lt, Nat.ltb_ge. lia.
  Qed.

  Lemma pass_map {X Y} (f : X -> Y) comp l : forall x, bubble_pass comp (f x) (map f l) = let '(r, k) := bubble_pass (fun a b => comp (f a) (f b)) x l in (map f r, k).
  Proof.
    induction l as [|y l IH]; intros x; [reflexivity|]. cbn [map bubble_pass]. destruct (comp (f y) (f x)).
    - rewrite IH. destruct (bubble_pass _ x l). reflexivity.
    - rewrite IH. destruct (bubble_pass _ y l). reflexivity.
  Qed.
  Lemma loop_map {X Y} (f : X -> Y) comp n : forall l, bubble_loop comp n (map f l) = option_map (fun r => (map f (fst r), snd r)) (bubble_loop (fun a b => comp (f a) (f b)) n l).
  Proof.
    induction n as [|n IH]; intros l; [reflexivity|]. destruct l as [|x l]; [reflexivity|]. cbn [map bubble_loop]. rewrite pass_map. destruct (bubble_pass _ x l) as [r k].
    destruct (Nat.eqb k 0); [reflexivity|]. rewrite IH. destruct (bubble_loop _ n r) as [[? ?]|]; reflexivity.
  Qed.

  (** C69: canonicalization of a product of operators keeps its value, if of each two operators that
      it exchanges one declares a definite change. *)
  Theorem C69_product (fs : list (mop * terms)) : occupied_lowest ctx -> vacuum_of ctx base fermi plus minus contr V ->
    (forall x, In x fs -> well_formed (maction (fst x)) /\ implements (maction (fst x)) (snd x)) ->
    (forall x y, In x fs -> In y fs -> mop_commutes ctx L (fst x) (fst y) = true -> less (fst x) (fst y) = true ->
      is_definite (maction (fst x)) \/ is_definite (maction (fst y))) ->
    exists gs, operator_order ctx L label_eqb label_less cardinal (map fst fs) = Some (map fst gs) /\ Permutation fs gs /\
      rprod (map (fun x => operator_value fermi plus minus (snd x)) gs) = rprod (map (fun x => operator_value fermi plus minus (snd x)) fs).
  Proof.
    intros low Hv Hi Hd.
    set (com := fun x y : mop * terms => mop_commutes ctx L (fst x) (fst y)). set (les := fun x y : mop * terms => less (fst x) (fst y)).
    destruct (C69_order (fun _ => false) (fun l => l) com les (fun l => Permutation_refl l) fs) as (gs & Hg & P & _ & _).
    { intros x y. apply C69_asymmetric. }
    assert (Ef : filter (fun _ : mop * terms => false) fs = []) by (clear; induction fs; auto). rewrite Ef in Hg, P. cbn [app] in Hg, P.
    exists gs. split; [|split; [exact P|]].
    - unfold operator_order, canonical_order in *. rewrite Ef in Hg.
      assert (E1 : forall X (l : list X), filter (fun _ => negb false) l = l) by (clear; induction l as [|a l IH]; [reflexivity|cbn; f_equal; exact IH]).
      assert (E2 : forall X (l : list X), filter (fun _ => false) l = []) by (clear; induction l; auto). rewrite E1 in *. rewrite E2.
      destruct fs as [|f fs']; [injection Hg as <-; reflexivity|]. cbn [map]. change (fst f :: map fst fs') with (map fst (f :: fs')). unfold bubble_sort in *. rewrite map_length, loop_map.
      match type of Hg with option_map _ ?a = _ => change (option_map (fun r => [] ++ fst r) (option_map (fun r => (map fst (fst r), snd r)) a) = Some (map fst gs)); destruct a as [[r n]|]; [|discriminate] end.
      injection Hg as <-. reflexivity.
    - eapply (C69_value (fun _ => false) (fun l => l) com les (fun l => Permutation_refl l)); [| |exact Hg]; [discriminate|].
      intros x y Hx Hy _ _ Hc Hl. destruct (Hi x Hx) as (W & T), (Hi y Hy) as (W' & T'). unfold com, mop_commutes in Hc.
      destruct (commutes_with ctx (maction (fst x)) (maction (fst y))) as [[|]|] eqn:Ec; try discriminate.
      eapply (C69_operators (maction (fst x)) (maction (fst y))); eauto. apply Hd; auto. unfold mop_commutes. rewrite Ec. reflexivity.
  Qed.
End Operators.

(** Excitation and deexcitation operators declare definite changes if the particle and the hole space
    of the registry are different base spaces. *)
Section Definite.
  Variable ctx : context.
  Hypothesis nonphysical : physical ctx = false.
  Hypothesis bases : is_base (particle ctx any) = true /\ is_base (hole ctx any) = true /\ particle ctx any <> hole ctx any.
  Hypothesis nonempty : Forall (fun b => stype b <> 0%N) (base_spaces ctx).

  Lemma zero_slots : forall (occ : list bool) (q : qns), length q = length occ -> natural_qns q -> combine_slots occ q (repeat ((0, 0), (0, 0))%Z (length occ)) = Some q.
  Proof.
    induction occ as [|o occ IH]; intros [|[[a b] [c d]] q] Hl Hn; try discriminate; [reflexivity|]. cbn [length repeat combine_slots]. inversion Hn as [|? ? (H1 & H2) Hn']; subst.
    rewrite IH by (auto; cbn in Hl; lia). unfold natural in H1, H2. cbn [fst snd] in H1, H2.
    assert (Es : combine_slot o ((a, b), (c, d))%Z ((0, 0), (0, 0))%Z = Some ((a, b), (c, d))); [|unfold interval in *; rewrite Es; reflexivity].
    unfold combine_slot, upto, nonnegative, isub, iadd, lower, upper. cbn [fst snd].
    replace (Z.min 0 b) with 0%Z by lia. replace (Z.min 0 d) with 0%Z by lia.
    destruct o; cbn [Z.leb Z.compare fst snd]; rewrite !Z.sub_0_r, !Z.add_0_l; (destruct (Z.leb_spec 0 b); [|lia]); (destruct (Z.leb_spec 0 d); [|lia]); rewrite !Z.max_r by lia; reflexivity.
  Qed.
  Lemma plain_change q : qns_ok ctx q -> change ctx (Plain q) q.
  Proof.
    intros (Hl & Hn). unfold change, apply, qn_action. assert (Ev : is_vacuum ctx (zero_qns ctx) = true).
    { unfold is_vacuum, zero_qns. induction (nslots ctx) as [|n IH]; [reflexivity|]. unfold qns_equal in *. cbn. exact IH. }
    rewrite Ev. unfold combine. rewrite Hl. unfold zero_qns at 1. rewrite repeat_length. unfold nslots at 1. rewrite nonphysical in *. rewrite Nat.eqb_refl.
    unfold zero_qns, nslots. rewrite nonphysical. pose proof (occ_length ctx) as Ho. rewrite nonphysical in Ho. rewrite <- Ho. apply zero_slots; [congruence|exact Hn].
  Qed.
  Lemma one_kind b : In b (base_spaces ctx) -> includes (particle ctx any) (stype b) = true -> includes (hole ctx any) (stype b) = true -> False.
  Proof.
    intros Hb H1 H2. unfold includes in H1, H2. apply N.eqb_eq in H1, H2. pose proof (proj1 (Forall_forall _ _) nonempty _ Hb) as Nb.
    pose proof (base_bit _ _ (proj1 bases) H1 Nb). pose proof (base_bit _ _ (proj1 (proj2 bases)) H2 Nb). apply (proj2 (proj2 bases)). congruence.
  Qed.
  Lemma definite_map (f : space -> interval * interval) kc kn (swap : bool) : (forall b, In b (base_spaces ctx) -> f b = ((0, 0), (0, 0))%Z \/
      f b = (if includes (if swap then hole ctx any else particle ctx any) (stype b) then bounds true kc else (0, 0)%Z,
             if includes (if swap then particle ctx any else hole ctx any) (stype b) then bounds true kn else (0, 0)%Z)) -> definite (map f (base_spaces ctx)).
  Proof.
    intros H. apply Forall_forall. intros x Hx. apply in_map_iff in Hx. destruct Hx as (b & <- & Hb). destruct (H b Hb) as [->| ->]; [cbn; auto|].
    pose proof (one_kind b Hb) as K. destruct swap, (includes (particle ctx any) (stype b)) eqn:E1, (includes (hole ctx any) (stype b)) eqn:E2;
      unfold bounds, rank; cbn [fst snd]; try (exfalso; apply K; congruence); repeat split; auto.
  Qed.
  (** C69: t, lambda, A, S, r and l on the particle and hole spaces declare definite changes. *)
  Theorem C69_definite o : (exists k, o = op_t ctx k \/ o = op_lambda ctx k) \/ (exists np nh, op_A ctx np nh = Some o) \/ (exists k, op_S ctx k = Some o) \/
      (exists na nc, o = op_r ctx na nc (particle ctx any) (hole ctx any) \/ o = op_l ctx na nc (hole ctx any) (particle ctx any)) ->
    is_definite ctx o /\ well_formed ctx o.
  Proof.
    destruct bases as (B1 & B2 & _). intros H.
    assert (Hq : exists q, o = Plain q /\ qns_ok ctx q /\ definite q).
    { assert (X1 : forall k, qns_ok ctx (excitation_type_qns ctx k any) /\ definite (excitation_type_qns ctx k any)).
      { intros k. split; [apply excitation_ok|]. unfold excitation_type_qns. rewrite nonphysical, B1, B2. apply (definite_map _ k k false). intros b _. destruct (negb (Nat.eqb (sqns b) any)); auto. }
      assert (X2 : forall k, qns_ok ctx (deexcitation_type_qns ctx k any) /\ definite (deexcitation_type_qns ctx k any)).
      { intros k. split; [apply deexcitation_ok|]. unfold deexcitation_type_qns. rewrite nonphysical, B1, B2. apply (definite_map _ k k true). intros b _. destruct (negb (Nat.eqb (sqns b) any)); auto. }
      assert (X3 : forall np nh, let q := generic_excitation_qns ctx np nh (particle ctx any) (hole ctx any) any in qns_ok ctx q /\ definite q).
      { intros np nh. split; [apply generic_excitation_ok|]. unfold generic_excitation_qns. rewrite nonphysical, B1, B2. apply (definite_map _ np nh false). intros b _. destruct (negb (Nat.eqb (sqns b) any)); auto. }
      assert (X4 : forall np nh, let q := generic_deexcitation_qns ctx np nh (particle ctx any) (hole ctx any) any in qns_ok ctx q /\ definite q).
      { intros np nh. split; [apply generic_deexcitation_ok|]. unfold generic_deexcitation_qns. rewrite nonphysical, B1, B2. apply (definite_map _ nh np true). intros b _. destruct (negb (Nat.eqb (sqns b) any)); auto. }
      cbv zeta in X3, X4. destruct H as [(k & [->| ->])|[(np & nh & E)|[(k & E)|(na & nc & [->| ->])]]]; try (eexists; split; [reflexivity|]; auto; fail).
      - unfold op_A in E. destruct ((nh =? 0) && (np =? 0))%Z; [discriminate|]. destruct (negb (nh =? 0) && negb (np =? 0) && _)%Z; [discriminate|]. injection E as <-.
        eexists. split; [reflexivity|]. destruct ((np <? 0) || (nh <? 0))%Z; auto.
      - unfold op_S in E. destruct (k =? 0)%Z; [discriminate|]. injection E as <-. eexists. split; [reflexivity|]. destruct (k <? 0)%Z; auto. }
    destruct Hq as (q & -> & Hq & Hd). split; exists q; (split; [apply plain_change, Hq|]); [exact Hd|apply Hq].
  Qed.
End Definite.

(** ** Examples and findings *)
Module ComExample.
  Import QnExample.
  (** labels, in the order of the cardinal labels: L, lambda, h, t, R *)
  Definition lL := 0. Definition llambda := 1. Definition lh := 2. Definition lt := 3. Definition lR := 4.
  Definition labels := [lL; llambda; lh; lt; lR].
  Definition order ctx := operator_order ctx nat Nat.eqb Nat.ltb labels.
  Definition value4 := operator_value true plus4 minus4.

  Lemma even_terms ctx (base : nat -> nat) o (ts : list (car R4 * list (op nat))) : Forall (fun t => central (fst t) /\ keeps_promise ctx base o (snd t)) ts -> Forall (fun t => Nat.even (length (snd t)) = true) ts ->
    implements ctx base true o ts.
  Proof. intros H1 H2. unfold implements. rewrite Forall_forall in *. intros t Ht. destruct (H1 _ Ht). auto. Qed.

  (** R h R t is ordered to R h t R. *)
  Definition mR := mkmop lR (op_r sr 1 1 (particle sr any) (hole sr any)).
  Definition mt := mkmop lt (op_t sr 1).
  Definition mh := mkmop lh (op_general sr 1).
  Definition factors : list (mop nat * list (car R4 * list (op nat))) := [(mR, t_terms); (mh, f_terms); (mR, t_terms); (mt, t_terms)].
  Lemma sr_definite k : is_definite sr (op_t sr k) /\ well_formed sr (op_t sr k).
  Proof. apply C69_definite; [reflexivity|repeat split; discriminate|repeat constructor; discriminate|]. left. eauto. Qed.
  Lemma sr_r_definite : is_definite sr (maction mR) /\ well_formed sr (maction mR).
  Proof. apply C69_definite; [reflexivity|repeat split; discriminate|repeat constructor; discriminate|]. right. right. right. exists 1, 1. left. reflexivity. Qed.
  Lemma sr_general : well_formed sr (op_general sr 1).
  Proof. eexists. split; [vm_compute; reflexivity|]. repeat constructor; cbn; discriminate. Qed.
  Lemma r_excites : Forall (fun t => central (fst t) /\ keeps_promise sr sr_base (maction mR) (snd t)) t_terms.
  Proof.
    destruct (C68_contents sr sr_base (proj2 sr_ok)) as (_ & _ & _ & _ & _ & Hr & _). constructor; [|constructor]. split; [exact central_one|]. apply Hr; [left; reflexivity|].
    exists [1], [0]. repeat split; repeat constructor; eexists; split; reflexivity.
  Qed.
  Example order_example : exists gs, order sr (map fst factors) = Some (map fst gs) /\ map fst gs = [mR; mh; mt; mR] /\
    rprod (map (fun x => value4 (snd x)) gs) = rprod (map (fun x => value4 (snd x)) factors) /\
    (value4 f_terms * value4 t_terms <> value4 t_terms * value4 f_terms)%op.
  Proof.
    destruct (C69_product sr sr_base true plus4 minus4 contr4 V4 nat Nat.eqb Nat.ltb labels) with (fs := factors) as (gs & H1 & _ & H3).
    - intros x y. apply Nat.eqb_eq.
    - intros x y. rewrite Nat.ltb_lt, Nat.ltb_ge. lia.
    - exact (proj1 sr_ok).
    - exact vacuum4.
    - intros x [<-|[<-|[<-|[<-|[]]]]]; cbn [fst snd maction]; split.
      + apply sr_r_definite.
      + apply even_terms; [exact r_excites|repeat constructor].
      + exact sr_general.
      + apply even_terms; [exact f_general|repeat constructor].
      + apply sr_r_definite.
      + apply even_terms; [exact r_excites|repeat constructor].
      + apply sr_definite.
      + apply even_terms; [exact t_excites|repeat constructor].
    - intros x y Hx Hy Hc Hl.
      destruct Hx as [<-|[<-|[<-|[<-|[]]]]]; try (left; first [apply sr_r_definite|apply sr_definite]); destruct Hy as [<-|[<-|[<-|[<-|[]]]]]; try (right; first [apply sr_r_definite|apply sr_definite]);
        vm_compute in Hl; discriminate.
    - exists gs. split; [exact H1|]. split; [|split; [exact H3|vm_compute; discriminate]].
      assert (E : order sr (map fst factors) = Some [mR; mh; mt; mR]) by (vm_compute; reflexivity). unfold order in E. rewrite E in H1. injection H1 as H1. symmetry. exact H1.
  Qed.

  (** Finding: two general operators are always found to commute, so their product is sorted by label
      although they do not commute. *)
  Definition mg := mkmop 9 (op_general sr 1).
  Definition up_terms := [(one, [c 1; a 0])].
  Definition down_terms := [(one, [c 0; a 1])].
  Lemma general1 i j : central (fst (one, [c i; a j])) /\ keeps_promise sr sr_base (op_general sr 1) (snd (one, [c i; a j])).
  Proof.
    destruct (C68_contents sr sr_base (proj2 sr_ok)) as (_ & _ & Hg & _).
    assert (S : forall i, somewhere sr sr_base i) by (intros [|k]; unfold somewhere, sr_base; cbn; lia).
    split; [exact central_one|]. apply Hg. exists [i], [j]. repeat split; auto.
  Qed.
  Theorem C69_general_refuted : implements sr sr_base true (maction mg) up_terms /\ implements sr sr_base true (maction mh) down_terms /\
    order sr [mg; mh] = Some [mh; mg] /\ (value4 up_terms * value4 down_terms <> value4 down_terms * value4 up_terms)%op.
  Proof.
    split; [apply even_terms; repeat constructor; apply general1|]. split; [apply even_terms; repeat constructor; apply general1|].
    split; vm_compute; [reflexivity|discriminate].
  Qed.

  (** Finding: with a particle and a hole space that share active orbitals, excitation and
      deexcitation operators are found to commute: t lambda becomes lambda t. *)
  Definition mr : context := mkcontext false (map (fun t => mkspace t any) [1; 2; 4]%N) (fun _ => 1%N) (fun _ => 6%N) (fun _ => 3%N).
  Definition mr_base (i : nat) : nat := if is_hole i then 0 else 2.
  Lemma mr_plain : plain_spaces mr.
  Proof. split; [repeat constructor; cbn; intuition discriminate|]. repeat constructor; cbn; discriminate. Qed.
  Theorem C69_active_refuted : implements mr mr_base true (op_t mr 1) up_terms /\ implements mr mr_base true (op_lambda mr 1) down_terms /\
    order mr [mkmop lt (op_t mr 1); mkmop llambda (op_lambda mr 1)] = Some [mkmop llambda (op_lambda mr 1); mkmop lt (op_t mr 1)] /\
    (value4 up_terms * value4 down_terms <> value4 down_terms * value4 up_terms)%op.
  Proof.
    destruct (C68_contents mr mr_base mr_plain) as (Ht & Hl & _).
    split; [|split; [|split; vm_compute; [reflexivity|discriminate]]]; (apply even_terms; [|repeat constructor]); constructor; [|constructor| |constructor]; (split; [exact central_one|]).
    - apply Ht. exists [1], [0]. repeat split; repeat constructor; eexists; split; reflexivity.
    - apply Hl. exists [0], [1]. repeat split; repeat constructor; eexists; split; reflexivity.
  Qed.

  (** Finding: the test for normal operators looks for contractions in one order only, and does not
      look at the statistics. *)
  Theorem C69_normal_refuted :
    let t := [c 1; a 0] in let l := [c 0; a 1] in let N := normal true plus4 minus4 in
    nop_commutes can4 t l = true /\ (N t * N l <> N l * N t)%op /\ nop_commutes can4 l t = false /\
    nop_commutes can4 [c 1] [a 0] = true /\ nop_commutes can4 [a 0] [c 1] = true /\ (N [c 1] * N [a 0] <> N [a 0] * N [c 1])%op.
  Proof. repeat split; try (vm_compute; reflexivity); vm_compute; discriminate. Qed.
  Example normal_example : let N := normal true plus4 minus4 in nop_commutes can4 [c 1; a 0] [a 0] = true /\ nop_commutes can4 [a 0] [c 1; a 0] = true /\ (N [c 1; a 0] * N [a 0] = N [a 0] * N [c 1; a 0])%op.
  Proof.
    cbv zeta. split; [reflexivity|]. split; [reflexivity|].
    assert (Z4 : forall l r, can4 l r = false -> contr4 l r = r0 R4) by (intros l r H; unfold contr4; rewrite H; reflexivity).
    apply (C69_normal true plus4 minus4 contr4 can4 [c 1; a 0] [a 0] relations4 Z4 eq_refl eq_refl). right. left. reflexivity.
  Qed.

  (** Finding: the canonical order is not unique. R (from o to g) and L (back) do not commute, t (from
      i to a) commutes with both: R t L and R L t are the same product and stay different. *)
  Theorem C69_unique_refuted :
    let R := mkmop lR (op_r f12 1 1 8 1) in let L := mkmop lL (op_l f12 1 1 1 8) in let t := mkmop lt (op_t f12 1) in
    is_definite f12 (maction t) /\ mop_commutes f12 nat t L = true /\ mop_commutes f12 nat L t = true /\
    order f12 [R; t; L] = Some [t; R; L] /\ order f12 [R; L; t] = Some [R; L; t].
  Proof.
    cbv zeta. split; [apply C69_definite; [reflexivity|repeat split; discriminate|repeat constructor; discriminate|left; exists 1; left; reflexivity]|].
    split; [vm_compute; reflexivity|]. split; [vm_compute; reflexivity|]. split; [vm_compute; reflexivity|]. vm_compute. reflexivity.
  Qed.
  (** trees *)
  Example trees_example : let t := Compound [Atom 1; Compound [Atom 3; Atom 4]] in commutes (fun x => Nat.eqb x 4) Nat.eqb t (Compound [Atom 4; Atom 4]) = true /\
    commutes (fun x => Nat.eqb x 4) Nat.eqb t (Atom 1) = false /\ commutes (fun x => Nat.eqb x 4) Nat.eqb (Compound [Atom 1; Atom 4]) (Compound [Atom 1; Atom 1]) = true.
  Proof. repeat split; reflexivity. Qed.
End ComExample.

Print Assumptions C69_order.
Print Assumptions C69_value.
Print Assumptions C69_trees.
Print Assumptions C69_normal.
Print Assumptions C69_operators.
Print Assumptions C69_product.
Print Assumptions C69_asymmetric.
Print Assumptions C69_definite.
Print Assumptions ComExample.C69_general_refuted.
Print Assumptions ComExample.C69_active_refuted.
Print Assumptions ComExample.C69_normal_refuted.
Print Assumptions ComExample.C69_unique_refuted.
