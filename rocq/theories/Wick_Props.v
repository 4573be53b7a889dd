(** Final statements about the Wick engine (C32-C37, C50). *)
From Coq Require Import List NArith ZArith Bool Arith Lia Permutation.
From Verif Require Import Wick_Model Wick_Spec Wick_Proofs1 Wick_Proofs2 Wick_Proofs3 Wick_Proofs4 Wick_Proofs5 Wick_Proofs6 Wick_Proofs7 Wick_Proofs8 Wick_Proofs9 Wick_Proofs10 Wick_Proofs11.
Import ListNotations.

Lemma rev_combine {X Y} (a : list X) (b : list Y) : length a = length b -> rev (combine (rev a) (rev b)) = combine a b.
Proof.
  revert b. induction a as [|x a IH]; intros [|y b] H; try discriminate; [reflexivity|]. cbn in H. cbn [rev combine].
  assert (Hc : forall (u : list X) (v : list Y) x y, length u = length v -> combine (u ++ [x]) (v ++ [y]) = combine u v ++ [(x, y)]).
  { clear. induction u as [|p u IH]; intros [|q v] x y H; try discriminate; [reflexivity|]. cbn in *. rewrite IH by lia. reflexivity. }
  rewrite Hc by (rewrite !rev_length; lia). rewrite rev_app_distr. cbn. rewrite IH by lia. reflexivity.
Qed.

Lemma partners_columns {I} (input : list (list (op I))) : Forall number_conserving input -> input_partner_indices input = flat_map columns input.
Proof.
  induction 1 as [|nop input H _ IH]; [reflexivity|]. unfold input_partner_indices in *. cbn [flat_map]. rewrite IH. f_equal.
  unfold partners_of, columns, creators, annihilators. rewrite !map_rev.
  rewrite rev_combine; [reflexivity|]. rewrite rev_length, !map_length. exact H.
Qed.

Lemma links_eq {I} (m : list ((nat * op I) * (nat * op I))) : links m = map link (map untag m).
Proof. unfold links. rewrite map_map. apply map_ext. intros [x y]. reflexivity. Qed.

Section Engine.
  Context {I F : Type}.
  Variable ieqb : I -> I -> bool.
  Hypothesis ieqb_spec : forall i j, ieqb i j = true <-> i = j.
  Variable fermi : bool.
  Variable is_qpann : op I -> bool.
  Variable can_contract : op I -> op I -> bool.
  Variable contract : op I -> op I -> list F.
  Notation compute := (compute ieqb fermi is_qpann can_contract contract).

  (** ** C32, C33: the sum of the terms is the vacuum expectation value / the product. *)
  Section Values.
    Hypothesis contract_nonempty : forall l r, can_contract l r = true -> contract l r <> [].
    Context {R : ring}.
    Variables plus minus : op I -> car R.
    Variable contr : op I -> op I -> car R.
    Variable fval : F -> car R.
    (** The operator algebra: canonical (anti)commutation relations; the factors made by contract()
        have the value of the contraction, which is 0 where can_contract() says no. *)
    Hypothesis relations : canonical fermi plus minus contr.
    Hypothesis contract_value : forall l r, can_contract l r = true -> factors_value fval (contract l r) = contr l r.
    Hypothesis no_contraction : forall l r, can_contract l r = false -> contr l r = r0 R.

    Theorem C32_wick_full (qpann_ok : forall l r, can_contract l r = true -> is_qpann l = true) nconn partners (input : list (list (op I))) prefactor depth V :
      NoDup (concat input) -> concat input <> [] -> opsize input < depth -> expectation plus minus V ->
      exists ts, compute true false false [] [] nconn partners input prefactor depth = Ok (ts, 0) /\
        rsum (map (term_value fermi plus minus fval) ts) =
        (factors_value fval prefactor * V (rprod (map (normal fermi plus minus) input)))%op.
    Proof. intros Hn Hne Hd HV. eapply full_value; eauto. Qed.

    Theorem C33_wick_partial partners (input : list (list (op I))) prefactor depth :
      NoDup (concat input) -> concat input <> [] -> opsize input < depth ->
      exists ts, compute false false false [] [] 0 partners input prefactor depth = Ok (ts, 0) /\
        rsum (map (term_value fermi plus minus fval) ts) =
        (factors_value fval prefactor * rprod (map (normal fermi plus minus) input))%op.
    Proof. intros Hn Hne Hd. eapply partial_value; eauto. Qed.

    (** The operators inside the terms of C33 are normal ordered: see C36_partial_patterns. *)

    (** ** C34: the operator identity behind normalize. *)
    Theorem C34_normalize_value n pairs phase ca : normalize ieqb fermi n pairs = (phase, ca) ->
      zscale phase (normal fermi plus minus (normal_operator ca)) = normal fermi plus minus (concat n).
    Proof. eapply normal_value; eauto. Qed.
  End Values.

  Theorem C34_normalize_sign n pairs phase cres anns : normalize ieqb fermi n pairs = (phase, (cres, anns)) ->
    Forall (fun o => ocre o = true) cres /\ Forall (fun o => ocre o = false) anns /\
    Permutation (concat n) (cres ++ rev anns) /\
    exists k, rearranged k (concat n) (cres ++ rev anns) /\ phase = sign fermi k.
  Proof.
    intros H. pose proof (normalize_sign ieqb fermi n pairs) as Hs. rewrite H in Hs. destruct Hs as (k & H1 & H2 & H3 & H4).
    split; [exact H3|]. split; [exact H4|]. split; [apply (re_permutation _ _ _ H2)|]. exists k. split; [exact H2|exact H1].
  Qed.

  (** ** C35: requested pairs end in one column. The columns of the result are counted from the
      right ends of the two rows, as the operator constructor does. *)
  Theorem C35_normalize_columns n pairs c a phase cres anns :
    normalize ieqb fermi n pairs = (phase, (cres, anns)) ->
    NoDup (map fst pairs) -> NoDup (map snd pairs) ->
    NoDup (map oidx (filter (fun o => ocre o) (concat n))) -> NoDup (map oidx (filter (fun o => negb (ocre o)) (concat n))) ->
    In (c, a) pairs -> In (mkop c true) (concat n) -> In (mkop a false) (concat n) ->
    exists j, nth_error (rev cres) j = Some (mkop c true) /\ nth_error (rev anns) j = Some (mkop a false).
  Proof.
    intros H H1 H2 H3 H4 H5 H6 H7. pose proof (normalize_columns ieqb ieqb_spec fermi n pairs c a H1 H2 H3 H4 H5 H6 H7) as Hc.
    rewrite H in Hc. exact Hc.
  Qed.

  (** ** C36, C37, C50: the patterns *)
  Hypothesis contract_nonempty : forall l r, can_contract l r = true -> contract l r <> [].
  Hypothesis qpann_ok : forall l r, can_contract l r = true -> is_qpann l = true.
  Hypothesis opposite : forall l r, can_contract l r = true -> ocre l <> ocre r.

  (** C50, and the general statement about full contractions. [req], [av]: the pairs given to
      set_nop_connections and set_nop_avoided_connections. *)
  Theorem C50_connections (spinfree : bool) req av target avoided nconn (input : list (list (op I))) prefactor depth :
    connection_masks (length input) req = Some target -> connection_masks (length input) av = Some avoided -> length input <= 32 ->
    (forall i j, In (i, j) req -> nth i input [] <> [] \/ nth j input [] <> []) ->
    NoDup (concat input) -> concat input <> [] -> opsize input < depth -> (spinfree = true -> Forall number_conserving input) ->
    exists patt,
      compute true false spinfree target avoided nconn (input_partner_indices input) input prefactor depth =
        Ok (map (fun mz => mkt (snd mz) (prefactor ++ pattern_factors contract (fst mz)) []) patt, 0) /\
      compute true true spinfree target avoided nconn (input_partner_indices input) input prefactor depth = Ok ([], length patt) /\
      NoDup (map fst patt) /\
      (forall m, In m (map fst patt) <-> full_matching (tagged input) m /\ admissible can_contract m /\
         (forall i j, In (i, j) av -> ~ joined m i j) /\ (forall i j, In (i, j) req -> joined m i j)) /\
      (forall m z, In (m, z) patt -> exists k, rearranged k (tagged input) (pair_list m) /\
         z = (sign fermi k * (if spinfree then Z.of_nat (spin_labellings ieqb (flat_map columns input) (links m)) else 1))%Z).
  Proof.
    intros H1 H2 H3 H4 H5 H6 H7 H8.
    destruct (full_patterns ieqb ieqb_spec fermi is_qpann can_contract contract contract_nonempty qpann_ok opposite
      spinfree req av target avoided nconn input prefactor depth H1 H2 H3 H4 H5 H6 H7 H8) as (patt & A & B & C & D & E).
    exists patt. split; [exact A|]. split; [exact B|]. split; [exact C|]. split; [exact D|].
    intros m z Hin. destruct (E m z Hin) as (k & K1 & K2). exists k. split; [exact K1|]. rewrite K2. f_equal.
    destruct spinfree; [|reflexivity]. rewrite <- (partners_columns input (H8 eq_refl)), links_eq. reflexivity.
  Qed.

  Theorem C36_partial_patterns (spinfree : bool) (input : list (list (op I))) prefactor depth :
    NoDup (concat input) -> concat input <> [] -> opsize input < depth -> (spinfree = true -> Forall number_conserving input) ->
    exists patt,
      compute false false spinfree [] [] 0 (input_partner_indices input) input prefactor depth =
        Ok (map (fun mz => mkt (fst (snd mz)) (prefactor ++ pattern_factors contract (fst mz)) (snd (snd mz))) patt, 0) /\
      compute false true spinfree [] [] 0 (input_partner_indices input) input prefactor depth = Ok ([], length patt) /\
      NoDup (map fst patt) /\
      (forall m, In m (map fst patt) <-> (exists rest, partial_matching (tagged input) m rest) /\ admissible can_contract m) /\
      (forall m z o, In (m, (z, o)) patt ->
         (exists k w, rearranged k (concat input) (map snd (pair_list m) ++ o) /\ z = (sign fermi k * w)%Z /\
            if spinfree then (w * 2 ^ Z.of_nat (length (flat_map columns input) - length m))%Z = Z.of_nat (spin_labellings ieqb (flat_map columns input) (links m))
            else w = 1%Z) /\
         (exists c a, o = c ++ a /\ Forall (fun x => ocre x = true) c /\ Forall (fun x => ocre x = false) a)).
  Proof.
    intros H5 H6 H7 H8.
    destruct (partial_patterns ieqb ieqb_spec fermi is_qpann can_contract contract contract_nonempty opposite
      spinfree input prefactor depth H5 H6 H7 H8) as (patt & A & B & C & D & E).
    exists patt. split; [exact A|]. split; [exact B|]. split; [exact C|]. split; [exact D|].
    intros m z o Hin. destruct (E m z o Hin) as ((k & w & K1 & K2 & K3) & K4). split; [|exact K4]. exists k, w. split; [exact K1|]. split; [exact K2|].
    destruct spinfree; [|exact K3]. rewrite <- (partners_columns input (H8 eq_refl)), links_eq. exact K3.
  Qed.

  (** C36 in the words of the property. *)
  Theorem C36_count_full req av target avoided nconn (spinfree : bool) (input : list (list (op I))) prefactor depth :
    connection_masks (length input) req = Some target -> connection_masks (length input) av = Some avoided -> length input <= 32 ->
    (forall i j, In (i, j) req -> nth i input [] <> [] \/ nth j input [] <> []) ->
    NoDup (concat input) -> concat input <> [] -> opsize input < depth -> (spinfree = true -> Forall number_conserving input) ->
    exists ts, compute true false spinfree target avoided nconn (input_partner_indices input) input prefactor depth = Ok (ts, 0) /\
      compute true true spinfree target avoided nconn (input_partner_indices input) input prefactor depth = Ok ([], length ts).
  Proof.
    intros H1 H2 H3 H4 H5 H6 H7 H8. destruct (C50_connections spinfree req av target avoided nconn input prefactor depth H1 H2 H3 H4 H5 H6 H7 H8) as (patt & A & B & _).
    eexists. split; [exact A|]. rewrite B, map_length. reflexivity.
  Qed.

  Theorem C36_count_partial (spinfree : bool) target avoided nconn partners (input : list (list (op I))) prefactor depth :
    NoDup (concat input) -> concat input <> [] -> opsize input < depth ->
    exists ts, compute false false spinfree target avoided nconn partners input prefactor depth = Ok (ts, 0) /\
      compute false true spinfree target avoided nconn partners input prefactor depth = Ok ([], length ts).
  Proof.
    intros H5 H6 H7.
    destruct (compute_partial ieqb ieqb_spec fermi is_qpann can_contract contract contract_nonempty false false spinfree target avoided nconn partners input prefactor H5 H6 depth eq_refl H7) as (os & A & B).
    pose proof (compute_partial ieqb ieqb_spec fermi is_qpann can_contract contract contract_nonempty false true spinfree target avoided nconn partners input prefactor H5 H6 depth eq_refl H7) as Hc. cbn iota in Hc.
    eexists. split; [exact B|]. rewrite Hc. f_equal. f_equal. assert (El : forall {X Y} (P : X -> Y -> Prop) a b, Forall2 P a b -> length a = length b) by (induction 1; cbn; congruence).
    apply El in A. rewrite app_length, A. f_equal.
    destruct (Nat.eqb nconn 0); [|reflexivity]. destruct (normalize ieqb fermi input partners) as [ph ca]. reflexivity.
  Qed.

  (** ** C37: the loop factor of a complete pattern counts the spin labellings of the columns that
      the contractions allow, whatever the order of the contractions, and no line is left open. *)
  Theorem C37_loops (input : list (list (op I))) m m' :
    NoDup (concat input) -> Forall number_conserving input -> full_matching (tagged input) m ->
    (forall x y, In (x, y) m -> ocre (snd x) <> ocre (snd y)) -> Permutation m m' ->
    exists nc, make_target_partner_indices ieqb (input_partner_indices input) (map (fun xy => (snd (fst xy), snd (snd xy))) m') = ([], nc) /\
      spin_labellings ieqb (flat_map columns input) (links m) = 2 ^ nc.
  Proof.
    intros Hn Hb Hm Ho Hp.
    assert (Eu : forall m : list ((nat * op I) * (nat * op I)), map (fun xy => (snd (fst xy), snd (snd xy))) m = map untag m) by (intros; apply map_ext; intros [x y]; reflexivity).
    rewrite Eu, <- (partners_columns input Hb), links_eq.
    assert (Hw : forall a b, Permutation a b -> forall cols, spin_labellings ieqb cols a = spin_labellings ieqb cols b).
    { intros a b Hab cols. unfold spin_labellings. f_equal. apply filter_ext'. intros lab. clear - Hab. induction Hab; cbn; try congruence.
      destruct (same_spin ieqb lab x), (same_spin ieqb lab y); reflexivity. }
    destruct (pattern_loops_perm ieqb ieqb_spec input m m' Hn Hb Hm Ho Hp) as (nc & E1 & E2).
    exists nc. split; [exact E1|]. rewrite <- E2. apply Hw. apply Permutation_map. apply Permutation_map. exact Hp.
  Qed.
End Engine.

(** * Non-vacuity: one fermion mode, operators as 2x2 integer matrices. *)
Module Example1.
  Definition mat := (Z * Z * Z * Z)%type.
  Definition madd (x y : mat) : mat := let '(a, b, c, d) := x in let '(a', b', c', d') := y in (a + a', b + b', c + c', d + d')%Z.
  Definition mmul (x y : mat) : mat := let '(a, b, c, d) := x in let '(a', b', c', d') := y in (a * a' + b * c', a * b' + b * d', c * a' + d * c', c * b' + d * d')%Z.
  Definition mopp (x : mat) : mat := let '(a, b, c, d) := x in (- a, - b, - c, - d)%Z.
  Ltac mring := intros; repeat match goal with x : mat |- _ => destruct x as [[[? ?] ?] ?] end; cbn [madd mmul mopp]; repeat (f_equal; try ring).
  Definition R : ring.
  Proof.
    refine (mkring mat (0, 0, 0, 0)%Z (1, 0, 0, 1)%Z madd mmul mopp _ _ _ _ _ _ _ _ _).
    all: mring.
  Defined.

  (** states |0>, |1>; a = |0><1|, a^dag = |1><0|. Every label stands for the one mode. *)
  Definition plus (o : op nat) : car R := if ocre o then (0, 0, 1, 0)%Z else (0, 0, 0, 0)%Z.
  Definition minus (o : op nat) : car R := if ocre o then (0, 0, 0, 0)%Z else (0, 1, 0, 0)%Z.
  Definition can (l r : op nat) : bool := negb (ocre l) && ocre r.
  Definition contr (l r : op nat) : car R := if can l r then (1, 0, 0, 1)%Z else (0, 0, 0, 0)%Z.
  Definition con (l r : op nat) : list (nat * nat) := [(oidx l, oidx r)].
  Definition fval (f : nat * nat) : car R := (1, 0, 0, 1)%Z.
  Definition V (x : car R) : car R := let '(a, _, _, _) := x in (a, 0, 0, a)%Z.
  Definition qpann (o : op nat) : bool := negb (ocre o).

  Lemma pair4 (a b c d a' b' c' d' : Z) : a = a' -> b = b' -> c = c' -> d = d' -> (a, b, c, d) = (a', b', c', d').
  Proof. congruence. Qed.
  Lemma relations : canonical true plus minus contr.
  Proof.
    split; [|split; [|split]].
    - intros [i [|]] [j [|]]; reflexivity.
    - intros [i [|]] [j [|]]; reflexivity.
    - intros [i [|]] [j [|]]; reflexivity.
    - intros l r [[[a b] c] d]. unfold contr. destruct (can l r); unfold rmul; cbn [R mmul]; apply pair4; ring.
  Qed.
  Lemma V_ok : expectation (R := R) plus minus V.
  Proof.
    split; [|split; [|split; [|split]]].
    - intros [[[a b] c] d] [[[a' b'] c'] d']. reflexivity.
    - intros c x Hc. pose proof (Hc (0, 1, 0, 0)%Z) as H1. pose proof (Hc (0, 0, 1, 0)%Z) as H2.
      destruct c as [[[a b] c] d], x as [[[a' b'] c'] d']. unfold rmul in H1, H2. cbn [R mmul] in H1, H2.
      assert (P4 : forall a b c d a' b' c' d' : Z, (a, b, c, d) = (a', b', c', d') -> a = a' /\ b = b' /\ c = c' /\ d = d') by (intros; repeat split; congruence).
      apply P4 in H1, H2.
      assert (b = 0)%Z by lia. assert (c = 0)%Z by lia. assert (d = a)%Z by lia. subst. unfold rmul, V; cbn [R mmul]; apply pair4; ring.
    - reflexivity.
    - intros [i [|]] [[[a b] c] d]; reflexivity.
    - intros [i [|]] [[[a b] c] d]; unfold minus; cbn [ocre]; unfold rmul, V, r0; cbn [R mmul]; apply pair4; ring.
  Qed.

  Definition c (i : nat) := mkop i true.
  Definition a (i : nat) := mkop i false.
  (** <0| a0 a1 . (a^dag2 a^dag3 a4) . a^dag5 |0> *)
  Definition input := [[a 0; a 1]; [c 2; c 3; a 4]; [c 5]].

  Lemma hypotheses : (forall l r, can l r = true -> con l r <> []) /\ (forall l r, can l r = true -> qpann l = true) /\
    (forall l r, can l r = true -> ocre l <> ocre r) /\ (forall l r, can l r = true -> factors_value fval (con l r) = contr l r) /\
    (forall l r, can l r = false -> contr l r = r0 R) /\ NoDup (concat input) /\ concat input <> [].
  Proof.
    split; [|split; [|split; [|split; [|split; [|split]]]]].
    - discriminate.
    - intros [i [|]] [j [|]]; cbn; congruence.
    - intros [i [|]] [j [|]]; cbn; congruence.
    - intros [i [|]] [j [|]] H; cbn in *; congruence || reflexivity.
    - intros l r H. unfold contr. rewrite H. reflexivity.
    - repeat constructor; cbn; intuition discriminate.
    - discriminate.
  Qed.

  (** C32, C50 on this input: two patterns, of opposite sign. *)
  Example full_example : compute Nat.eqb true qpann can con true false false [] [] 0 (input_partner_indices input) input [] 10 =
    Ok ([mkt (-1) [(0, 2); (1, 3); (4, 5)] []; mkt 1 [(0, 3); (1, 2); (4, 5)] []], 0).
  Proof. vm_compute. reflexivity. Qed.
  (** required connection of operators 0 and 2 : none of the patterns; of 0 and 1: both *)
  Example required_example :
    (exists t, connection_masks 3 [(0, 2)] = Some t /\ compute Nat.eqb true qpann can con true false false t [] 1 (input_partner_indices input) input [] 10 = Ok ([], 0)) /\
    (exists t, connection_masks 3 [(1, 0)] = Some t /\ compute Nat.eqb true qpann can con true true false t [] 1 (input_partner_indices input) input [] 10 = Ok ([], 2)).
  Proof. split; eexists; (split; [reflexivity|]); vm_compute; reflexivity. Qed.

  (** C33, C36 *)
  Example partial_example : compute Nat.eqb true qpann can con false false false [] [] 0 [] [[a 0]; [c 1; a 2]] [] 10 =
    Ok ([mkt 1 [(0, 1)] [a 2]; mkt 1 [] [c 1; a 2; a 0]], 0).
  Proof. vm_compute. reflexivity. Qed.

  (** C37: spin-free, a Fermi vacuum in which hole and particle labels are even and odd. E(0,1)E(1',0')
      gives one loop; the factor is 2. *)
  Definition hp_can (l r : op nat) : bool := xorb (ocre l) (Nat.odd (oidx l)) && negb (Bool.eqb (ocre l) (ocre r)) && Bool.eqb (Nat.odd (oidx l)) (Nat.odd (oidx r)).
  Definition hp_ann (o : op nat) : bool := xorb (ocre o) (Nat.odd (oidx o)).
  Definition hp_input := [[c 0; c 2; a 1; a 3]; [c 5; c 7; a 6; a 4]].
  Example loops_example : compute Nat.eqb true hp_ann hp_can con true false true [] [] 0 (input_partner_indices hp_input) hp_input [] 10 =
    Ok ([mkt 4 [(0, 6); (2, 4); (1, 5); (3, 7)] []; mkt (-2) [(0, 6); (2, 4); (1, 7); (3, 5)] [];
         mkt (-2) [(0, 4); (2, 6); (1, 5); (3, 7)] []; mkt 4 [(0, 4); (2, 6); (1, 7); (3, 5)] []], 0).
  Proof. vm_compute. reflexivity. Qed.
  Example loops_hypotheses : (forall l r, hp_can l r = true -> hp_ann l = true) /\ (forall l r, hp_can l r = true -> ocre l <> ocre r) /\
    Forall number_conserving hp_input /\ NoDup (concat hp_input) /\ columns (hd [] hp_input) = [(0, 3); (2, 1)].
  Proof.
    split; [|split; [|split; [|split]]].
    - intros l r H. unfold hp_can in H. rewrite !andb_true_iff in H. apply H.
    - intros l r H. unfold hp_can in H. rewrite !andb_true_iff, negb_true_iff in H. destruct H as ((_ & H) & _). intros E. rewrite E, Bool.eqb_reflx in H. discriminate.
    - repeat constructor.
    - repeat constructor; cbn; intuition discriminate.
    - reflexivity.
  Qed.

  (** C34, C35 *)
  Example normalize_example : normalize Nat.eqb true [[c 0; a 1]; [c 2; a 3]] [(0, 3); (2, 1)] = ((-1)%Z, ([c 0; c 2], [a 3; a 1])).
  Proof. vm_compute. reflexivity. Qed.
End Example1.

(** ** Findings about set_nop_connections (full contractions are covered by C50_connections) *)
Import Example1.

(** With full_contractions(false) terms are appended before the required connections are made:
    here operators 0 and 1 must be connected, yet a term with the single contraction of a(2) (in
    operator 1) and a^dag(4) (in operator 2) is produced. *)
Theorem C50_partial_mode_refuted : exists target ts,
  connection_masks 3 [(0, 1)] = Some target /\
  compute Nat.eqb true qpann can con false false false target [] (nconnections_total_of true [(0, 1)]) []
    [[a 0; a 1]; [a 2; c 3]; [c 4]] [] 10 = Ok (ts, 0) /\
  In (mkt (-1) [(2, 4)] [c 3; a 0; a 1]) ts.
Proof. eexists. eexists. split; [reflexivity|]. split; [vm_compute; reflexivity|]. cbn. tauto. Qed.

(** Called on a WickTheorem made from an operator sequence, the number of required connections
    stays 0, so the contraction-free term is appended as well. *)
Theorem C50_contraction_free_refuted : exists target ts,
  connection_masks 2 [(0, 1)] = Some target /\
  compute Nat.eqb true qpann can con false false false target [] (nconnections_total_of false [(0, 1)]) []
    [[a 0]; [c 1]] [] 10 = Ok (ts, 0) /\ In (mkt (-1) [] [c 1; a 0]) ts.
Proof. eexists. eexists. split; [reflexivity|]. split; [vm_compute; reflexivity|]. cbn. tauto. Qed.

(** A required connection between two normal operators without elementary operators is not
    checked. *)
Theorem C50_empty_operators_refuted : exists target ts t,
  connection_masks 4 [(1, 2)] = Some target /\
  compute Nat.eqb true qpann can con true false false target [] 1 [] [[a 0]; []; []; [c 1]] [] 10 = Ok (ts, 0) /\
  In t ts.
Proof. eexists. eexists. eexists. split; [reflexivity|]. split; [vm_compute; reflexivity|]. left. reflexivity. Qed.

(** An elementary operator that occurs twice trips the check for duplicate contractions. *)
Theorem C32_repeated_operator_refuted :
  compute Nat.eqb true qpann can con true false false [] [] 0 [] [[a 0]; [c 1]; [a 0]; [c 1]] [] 10 = Asserted.
Proof. vm_compute. reflexivity. Qed.

Print Assumptions C32_wick_full.
Print Assumptions C33_wick_partial.
Print Assumptions C34_normalize_value.
Print Assumptions C34_normalize_sign.
Print Assumptions C35_normalize_columns.
Print Assumptions C36_partial_patterns.
Print Assumptions C36_count_full.
Print Assumptions C36_count_partial.
Print Assumptions C37_loops.
Print Assumptions C50_connections.
Print Assumptions C50_partial_mode_refuted.
Print Assumptions C50_contraction_free_refuted.
Print Assumptions C50_empty_operators_refuted.
Print Assumptions C32_repeated_operator_refuted.
