(** * Operator-level expectation values *)
From Coq Require Import List Arith Bool Lia Ring ZArith.
From Verif Require Import Vac_Model Vac_Spec Vac_Proofs.
Import ListNotations.

(** C150: the pairs of positions passed on for required and for avoided connections are exactly the pairs
    of operators, the left one first, whose labels are one of the given pairs; positions count the operators
    of the product, whatever other factors stand between them. *)
Theorem C150_connections {Lab Op Nop Atom} (lab_eqb : Lab -> Lab -> bool) (label : Op -> Lab) :
  (forall a b, lab_eqb a b = true <-> a = b) -> forall (fs : list (fac Op Nop Atom)) pairs,
  exactly (lower_label_pairs lab_eqb (fst (positions lab_eqb label 0 fs [] true)) pairs) (paired label pairs fs).
Proof. intros LE fs pairs. apply lowered_exactly. exact LE. Qed.

(** Factors that are no operators do not matter. *)
Theorem C150_other_factors {Lab Op Nop Atom} (lab_eqb : Lab -> Lab -> bool) (label : Op -> Lab) :
  (forall a b, lab_eqb a b = true <-> a = b) -> forall (fs : list (fac Op Nop Atom)) pairs i j,
  In (i, j) (lower_label_pairs lab_eqb (fst (positions lab_eqb label 0 fs [] true)) pairs) <->
  In (i, j) (lower_label_pairs lab_eqb (fst (positions lab_eqb label 0
               (filter (fun f => match f with FOther _ => false | _ => true end) fs) [] true)) pairs).
Proof.
  intros LE fs pairs i j. rewrite (lowered_exactly lab_eqb label LE fs pairs true i j).
  rewrite (lowered_exactly lab_eqb label LE _ pairs true i j). unfold paired.
  assert (E : operators label (filter (fun f : fac Op Nop Atom => match f with FOther _ => false | _ => true end) fs) = operators label fs).
  { unfold operators. induction fs as [|f fs IH]; cbn; [reflexivity|]. destruct f; cbn; rewrite ?IH; reflexivity. }
  rewrite E. reflexivity.
Qed.

Section Value.
  Context {Lab Op Nop Atom K : Type} (lab_eqb : Lab -> Lab -> bool) (label : Op -> Lab).
  Context (k0 k1 : K) (kadd kmul ksub : K -> K -> K) (kopp : K -> K).
  Context (RT : ring_theory k0 k1 kadd kmul ksub kopp eq).
  Add Ring Kring36 : RT.
  Notation fac := (fac Op Nop Atom).
  Notation vex := (vex Op Nop Atom K).
  Context (expand_simplified : vex -> vex)
          (tev : K -> list fac -> list (nat * nat) -> list (nat * nat) -> K)
          (can_change : list fac -> bool) (W : list fac -> K) (connect avoid : list (Lab * Lab)).
  Hypothesis LE : forall a b, lab_eqb a b = true <-> a = b.
  (** The tensor level computes [W] when given exactly the right connections. *)
  Hypothesis HT : forall c fs C A, exactly C (paired label connect fs) -> exactly A (paired label avoid fs) -> tev c fs C A = kmul c (W fs).
  (** The empty product has the value one; a normal-ordered operator, and operators that cannot connect
      the vacuum with itself, have the value zero. *)
  Hypothesis H1 : W [] = k1.
  Hypothesis HO : forall o, W [FOp o] = k0.
  Hypothesis HS : forall fs, forallb (fun f => match f with FOp _ => true | _ => false end) fs = true -> can_change fs = false -> W fs = k0.
  (** Expanding gives products without sums and keeps the value. *)
  Hypothesis HX : forall e, expanded (expand_simplified e) /\ value k0 k1 kadd kmul W (expand_simplified e) = value k0 k1 kadd kmul W e.

  Notation val := (value k0 k1 kadd kmul W).
  Notation ev := (expectation_value lab_eqb label k0 kadd expand_simplified tev can_change).

  Lemma ksum_app l m : ksum k0 kadd (l ++ m) = kadd (ksum k0 kadd l) (ksum k0 kadd m).
  Proof. unfold ksum. induction l as [|x l IH]; cbn [app fold_right]; [ring|]. rewrite IH. ring. Qed.

  Lemma val_sum l : val (VSum l) = ksum k0 kadd (map val l).
  Proof.
    unfold value. cbn [terms]. induction l as [|x l IH]; cbn [flat_map map]; [reflexivity|].
    rewrite map_app, ksum_app, IH. reflexivity.
  Qed.

  Lemma plain_terms (fs : list (fac + list vex)) : forall l c a, plain fs = Some l ->
    fold_left (tmul kmul) (map (fun x => match x with inl f => [(k1, [f])] | inr l => flat_map (terms k1 kmul) l end) fs) [(c, a)] = [(c, a ++ l)].
  Proof.
    induction fs as [|x fs IH]; intros l c a H; cbn [plain] in H.
    - injection H as <-. cbn. rewrite app_nil_r. reflexivity.
    - destruct x as [f|s]; [|discriminate]. destruct (plain fs) as [l'|]; [|discriminate]. injection H as <-.
      cbn [map fold_left]. unfold tmul at 2. cbn [flat_map map app fst snd].
      replace (kmul c k1) with c by ring. rewrite (IH l' c (a ++ [f]) eq_refl), <- app_assoc. reflexivity.
  Qed.

  Lemma val_plain c (fs : list (fac + list vex)) l : plain fs = Some l -> val (VProd c fs) = kmul c (W l).
  Proof. intros H. unfold value. cbn [terms]. rewrite (plain_terms fs l c [] H). cbn. ring. Qed.

  Lemma product_ok screen c l : vac_av_product lab_eqb label k0 tev can_change connect avoid screen c l = kmul c (W l).
  Proof.
    unfold vac_av_product. cbv zeta. destruct (snd (positions lab_eqb label 0 l [] true) && screen && negb (can_change l)) eqn:E.
    - apply andb_prop in E. destruct E as [E1 E2]. apply andb_prop in E1. destruct E1 as [E1 _].
      rewrite ops_only_spec in E1. cbn [andb] in E1. rewrite (HS l E1) by (destruct (can_change l); [discriminate|reflexivity]). ring.
    - apply HT; apply lowered_exactly; exact LE.
  Qed.

  Definition sum_ev (n : nat) (screen : bool) := fix go (l : list vex) : vout K :=
    match l with
    | [] => VOk k0
    | x :: l' => match ev n connect avoid screen x, go l' with
                 | VOk a, VOk b => VOk (kadd a b)
                 | VThrow, _ => VThrow
                 | VFuel, _ => VFuel
                 | _, r => r
                 end
    end.
  Lemma ev_sum n screen l : ev (S n) connect avoid screen (VSum l) = sum_ev n screen l.
  Proof. reflexivity. Qed.
  Lemma sum_ok n screen l : (forall e, In e l -> ev n connect avoid screen e = VOk (val e)) -> sum_ev n screen l = VOk (val (VSum l)).
  Proof.
    intros H. rewrite val_sum. induction l as [|x l IH]; [reflexivity|].
    change (sum_ev n screen (x :: l)) with (match ev n connect avoid screen x, sum_ev n screen l with
                 | VOk a, VOk b => VOk (kadd a b) | VThrow, _ => VThrow | VFuel, _ => VFuel | _, r => r end).
    rewrite (H x (or_introl eq_refl)), IH by (intros e He; apply H; right; exact He). reflexivity.
  Qed.

  Lemma depth_in e l : In e l -> depth e <= fold_right max 0 (map (@depth Op Nop Atom K) l).
  Proof. induction l as [|x l IH]; cbn; [tauto|]. intros [->|H]; [lia|]. specialize (IH H). lia. Qed.
  Lemma and_in (P : vex -> Prop) e l : fold_right and True (map P l) -> In e l -> P e.
  Proof. induction l as [|x l IH]; cbn; [tauto|]. intros [A B] [->|H]; auto. Qed.

  Lemma fac_ok n screen f : match f with FOp _ => True | _ => False end -> ev (S n) connect avoid screen (VFac f) = VOk (val (VFac f)).
  Proof. destruct f; try tauto. intros _. cbn. unfold value. cbn. rewrite HO. f_equal. ring. Qed.
  Lemma scalar_ok n screen c : ev (S n) connect avoid screen (VScalar c) = VOk (val (VScalar c)).
  Proof. cbn. unfold value. cbn. rewrite H1. f_equal. ring. Qed.

  Lemma expanded_ok screen n : forall e, depth e <= n -> expanded e -> ev n connect avoid screen e = VOk (val e).
  Proof.
    induction n as [|n IH]; intros e D X; [destruct e; cbn in D; lia|].
    destruct e as [c|f|c fs|l].
    - apply scalar_ok.
    - apply fac_ok. destruct f; exact X.
    - cbn [expectation_value]. cbn [expanded] in X. destruct (plain fs) as [l|] eqn:P; [|congruence].
      rewrite product_ok, (val_plain c fs l P). reflexivity.
    - rewrite ev_sum. apply sum_ok. intros e He. apply IH.
      + cbn [depth] in D. pose proof (depth_in e l He). lia.
      + cbn [expanded] in X. apply (and_in _ e l X He).
  Qed.

  Lemma supported_ok screen d : forall e, depth e <= d -> supported e ->
    exists N, forall n, N <= n -> ev n connect avoid screen e = VOk (val e).
  Proof.
    induction d as [|d IH]; intros e D X; [destruct e; cbn in D; lia|].
    destruct e as [c|f|c fs|l].
    - exists 1. intros [|n] H; [lia|]. apply scalar_ok.
    - exists 1. intros [|n] H; [lia|]. apply fac_ok. destruct f; exact X.
    - destruct (plain fs) as [l|] eqn:P.
      + exists 1. intros [|n] H; [lia|]. cbn [expectation_value]. rewrite P, product_ok, (val_plain c fs l P). reflexivity.
      + destruct (HX (VProd c fs)) as [HX1 HX2]. exists (S (depth (expand_simplified (VProd c fs)))). intros [|n] H; [lia|].
        cbn [expectation_value]. rewrite P. rewrite <- HX2. apply expanded_ok; [lia|exact HX1].
    - assert (Q : exists N, forall n, N <= n -> forall e, In e l -> ev n connect avoid screen e = VOk (val e)).
      { cbn [depth] in D. cbn [supported] in X.
        assert (DD : forall e, In e l -> depth e <= d) by (intros e He; pose proof (depth_in e l He); lia).
        assert (XX : forall e, In e l -> supported e) by (intros e He; apply (and_in _ e l X He)).
        clear D X. induction l as [|x l IHl]; [exists 0; intros n _ e []|].
        destruct IHl as [N1 Q1]; [intros; apply DD; right; assumption|intros; apply XX; right; assumption|].
        destruct (IH x (DD x (or_introl eq_refl)) (XX x (or_introl eq_refl))) as [N2 Q2].
        exists (max N1 N2). intros n Hn e [->|He]; [apply Q2; lia|apply Q1; [lia|exact He]]. }
      destruct Q as [N Q]. exists (S N). intros [|n] H; [lia|]. rewrite ev_sum. apply sum_ok. intros e He. apply Q; [lia|exact He].
  Qed.

  (** C151: the expectation value of every supported expression is computed, and is the sum over the terms
      of the expression multiplied out of the scalar times the expectation value of the factors. It is the
      same with and without screening. *)
  Theorem C151_value : forall screen (e : vex), supported e ->
    exists N, forall n, N <= n -> ev n connect avoid screen e = VOk (val e).
  Proof. intros screen e X. apply (supported_ok screen (depth e) e (le_n _) X). Qed.

  Theorem C151_screening : forall e : vex, supported e ->
    exists N, forall n, N <= n -> ev n connect avoid true e = ev n connect avoid false e.
  Proof.
    intros e X. destruct (C151_value true e X) as [N1 A]. destruct (C151_value false e X) as [N2 B].
    exists (max N1 N2). intros n H. rewrite A, B by lia. reflexivity.
  Qed.
End Value.

Module VacExamples.
  (** Labels are numbers, 1 for the Hamiltonian and 2 for the cluster operator. *)
  Definition fs : list (fac nat unit unit) := [FOther tt; FOp 1; FNop tt; FOp 2; FOther tt; FOp 2].
  Example connections : lower_label_pairs Nat.eqb (fst (positions Nat.eqb (fun o => o) 0 fs [] true)) [(1, 2); (2, 1); (2, 2)]
                        = [(0, 2); (0, 3); (2, 3)].
  Proof. reflexivity. Qed.

  (** The hypotheses of C151 can be met: integers; only the pair of a 1 and a 2 has a value, three;
      an expansion that gives no sums: the sum of the values as one scalar. *)

  Definition W (l : list (fac nat unit unit)) : Z :=
    match l with [] => 1%Z | [FOp 1; FOp 2] => 3%Z | _ => 0%Z end.
  Definition val0 := value (Op := nat) (Nop := unit) (Atom := unit) 0%Z 1%Z Z.add Z.mul W.
  Theorem hypotheses_met :
    (forall o, W [FOp o] = 0%Z) /\
    (forall l, forallb (fun f => match f with FOp _ => true | _ => false end) l = true -> (match l with [FOp 1; FOp 2] => true | [] => true | _ => false end) = false -> W l = 0%Z) /\
    (forall e, expanded (VScalar (val0 e) : vex nat unit unit Z) /\ val0 (VScalar (val0 e)) = val0 e).
  Proof.
    split; [|split].
    - intros o. destruct o as [|[|o]]; reflexivity.
    - intros l _ H. unfold W. destruct l as [|[o|n|a] l]; try reflexivity; try discriminate.
      destruct o as [|[|o]]; try reflexivity. destruct l as [|[o|n|a] l]; try reflexivity.
      destruct o as [|[|[|o]]]; try reflexivity. destruct l; [discriminate|reflexivity].
    - intros e. split; [exact Logic.I|]. unfold val0 at 1, value. cbn -[val0]. ring.
  Qed.
End VacExamples.
