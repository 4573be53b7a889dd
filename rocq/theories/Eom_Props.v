(** * Theorems about the equations of motion *)
From Coq Require Import List Arith Bool ZArith Lia.
From Verif Require Import Ccm_Model Eom_Model Eom_Spec.
Import ListNotations.
Open Scope Z_scope.

Definition rung (d e : Z) (k : nat) : Z * Z := (Z.of_nat k + d, Z.of_nat k + e).
Definition rungs (d e : Z) (m : nat) : list (Z * Z) :=
  map (rung d e) (rev (if (d =? 0) && (e =? 0) then seq 1 m else seq 0 (S m))).

Lemma ladder_rungs d e : 0 <= d -> 0 <= e -> d = 0 \/ e = 0 ->
  forall m f, (m < f)%nat -> ladder f (Z.of_nat m + d) (Z.of_nat m + e) = Some (rungs d e m).
Proof.
  intros Hd He H0 m. induction m as [|m IH]; intros f Hf; (destruct f as [|f]; [lia|]); cbn [ladder].
  - replace (Z.of_nat 0 + d) with d by lia. replace (Z.of_nat 0 + e) with e by lia.
    replace ((0 <=? d) && (0 <=? e)) with true by (symmetry; apply andb_true_iff; split; apply Z.leb_le; lia).
    unfold rungs, rung. destruct ((d =? 0) && (e =? 0)) eqn:E; cbn; [reflexivity|].
    replace ((d =? 0) || (e =? 0)) with true by (symmetry; apply orb_true_iff; rewrite !Z.eqb_eq; lia). reflexivity.
  - replace ((0 <=? Z.of_nat (S m) + d) && (0 <=? Z.of_nat (S m) + e)) with true
      by (symmetry; apply andb_true_iff; split; apply Z.leb_le; lia).
    replace (Z.of_nat (S m) + d =? 0) with false by (symmetry; apply Z.eqb_neq; lia).
    replace (Z.of_nat (S m) + e =? 0) with false by (symmetry; apply Z.eqb_neq; lia).
    cbn [andb orb].
    replace (Z.of_nat (S m) + d - 1) with (Z.of_nat m + d) by lia.
    replace (Z.of_nat (S m) + e - 1) with (Z.of_nat m + e) by lia.
    rewrite IH by lia. unfold rungs. destruct ((d =? 0) && (e =? 0)).
    + rewrite (seq_S m 1), rev_app_distr. reflexivity.
    + rewrite (seq_S (S m) 0), rev_app_distr. reflexivity.
Qed.

Lemma ladder_eq np nh : 0 <= np -> 0 <= nh ->
  ladder (fuel_of np nh) np nh = Some (rungs (np - Z.min np nh) (nh - Z.min np nh) (Z.to_nat (Z.min np nh))).
Proof.
  intros Hp Hh. rewrite <- ladder_rungs with (f := fuel_of np nh) by (unfold fuel_of; lia).
  f_equal; lia.
Qed.

Lemma in_rungs d e m x : 0 <= d -> 0 <= e -> d = 0 \/ e = 0 ->
  (In x (rungs d e m) <-> exists k, (k <= m)%nat /\ x = rung d e k /\ x <> (0, 0)).
Proof.
  intros Hd He H0. unfold rungs. rewrite in_map_iff. setoid_rewrite <- in_rev.
  destruct ((d =? 0) && (e =? 0)) eqn:E.
  - apply andb_true_iff in E. rewrite !Z.eqb_eq in E. destruct E; subst.
    split.
    + intros (k & Ek & I). apply in_seq in I. exists k. subst x. repeat split; [lia|].
      unfold rung. intros [= ? ?]. lia.
    + intros (k & Hk & Ex & N). exists k. split; [auto|]. apply in_seq.
      assert (k <> 0)%nat by (intros ->; apply N; rewrite Ex; reflexivity). lia.
  - split.
    + intros (k & Ek & I). apply in_seq in I. exists k. subst x. repeat split; [lia|].
      unfold rung. intros [= ? ?]. apply andb_false_iff in E. rewrite !Z.eqb_neq in E. lia.
    + intros (k & Hk & Ex & N). exists k. split; [auto|]. apply in_seq. lia.
Qed.

Lemma rung_inj d e j k : rung d e j = rung d e k -> j = k.
Proof. unfold rung. intros [= ? ?]. lia. Qed.

Lemma nodup_map_inj {A B} (f : A -> B) l : (forall x y, f x = f y -> x = y) -> NoDup l -> NoDup (map f l).
Proof.
  intros Hf. induction 1 as [|x l Hx _ IH]; cbn; constructor; auto.
  rewrite in_map_iff. intros (y & E & I). apply Hf in E. subst. auto.
Qed.

Lemma sectors_rungs np nh : 0 <= np -> 0 <= nh ->
  sectors np nh (rungs (np - Z.min np nh) (nh - Z.min np nh) (Z.to_nat (Z.min np nh))).
Proof.
  intros Hp Hh. split.
  - unfold rungs. apply nodup_map_inj; [intros; eapply rung_inj; eauto|].
    apply NoDup_rev. destruct (_ && _); apply seq_NoDup.
  - intros p h. rewrite in_rungs by lia. unfold sector, rung. split.
    + intros (k & Hk & [= -> ->] & N). repeat split; try lia. exact N.
    + intros (H1 & H2 & H3 & N). exists (Z.to_nat (Z.min p h)). repeat split; [lia| |exact N]. f_equal; lia.
Qed.

Lemma sectors_swap np nh l : sectors nh np l -> sectors np nh (map (fun x => (snd x, fst x)) l).
Proof.
  intros [N I]. split.
  - apply nodup_map_inj; [|exact N]. intros [a b] [c d]. cbn. intros [= -> ->]. reflexivity.
  - intros p h. rewrite in_map_iff. split.
    + intros ([a b] & [= <- <-] & H). apply I in H. unfold sector in *. cbn in *.
      destruct H as (H1 & H2 & H3 & H4). repeat split; try lia. intros [= -> ->]. apply H4. reflexivity.
    + intros H. exists (h, p). split; [reflexivity|]. apply I. unfold sector in *.
      destruct H as (H1 & H2 & H3 & H4). repeat split; try lia. intros [= -> ->]. apply H4. reflexivity.
Qed.

Lemma comps_sectors (left : bool) np nh : 0 <= np -> 0 <= nh ->
  exists c, (if left then L np nh else R np nh) = Some c /\ sectors np nh c.
Proof.
  intros Hp Hh. destruct left; unfold L, R.
  - rewrite ladder_eq by auto. eexists; split; [reflexivity|]. apply sectors_rungs; auto.
  - rewrite ladder_eq by auto. eexists; split; [reflexivity|]. apply sectors_swap, sectors_rungs; auto.
Qed.

Lemma find_some_unique {K} (r : list (nat * K)) k v :
  In (k, v) r -> (forall v', In (k, v') r -> v' = v) -> find (fun x => (fst x =? k)%nat) r = Some (k, v).
Proof.
  induction r as [|[j w] r IH]; intros I U; [destruct I|]. cbn. destruct (Nat.eqb_spec j k) as [->|N].
  - rewrite (U w) by (left; reflexivity). reflexivity.
  - apply IH; [destruct I as [[= ? ?]|]; [contradiction|assumption]|]. intros; apply U; right; assumption.
Qed.

Section Props.
  Context {K : Type} (av : list (Z * Z) -> Z -> Z -> K).

  (** C159: there is one equation for every sector of the operator, and the operator has all its sectors. Element [k]
      is the projection on the sector with [k] pairs above the lowest one. *)
  Theorem C159_equations (left unitary spinfree : bool) np nh :
    0 <= np -> 0 <= nh -> (np, nh) <> (0, 0) ->
    (left = true -> unitary = false) -> (spinfree = true -> np = nh) ->
    exists comps v, eom av left unitary spinfree np nh = EOk v /\
      sectors np nh comps /\
      Z.of_nat (length v) = Z.min np nh + 1 /\
      (forall p h, sector np nh p h -> nth_error v (Z.to_nat (Z.min p h)) = Some (Some (av comps p h))) /\
      (forall k, (k < length v)%nat ->
         (forall p h, sector np nh p h -> Z.min p h <> Z.of_nat k) -> nth_error v k = Some None).
  Proof.
    intros Hp Hh N0 HL HS. destruct (comps_sectors left np nh Hp Hh) as (c & Ec & Sc).
    unfold eom. rewrite Ec, ladder_eq by auto. pose proof (sectors_rungs np nh Hp Hh) as SR.
    set (l := rungs _ _ _) in *. clearbody l.
    replace (left && unitary) with false by (destruct left; cbn; [rewrite HL; auto|reflexivity]).
    replace ((0 <? np) || (0 <? nh)) with true.
    2:{ symmetry. apply orb_true_iff. rewrite !Z.ltb_lt. destruct (Z.eq_dec np 0), (Z.eq_dec nh 0); try lia.
        subst. exfalso; apply N0; reflexivity. }
    replace (negb (np =? nh) && spinfree) with false.
    2:{ destruct spinfree; [rewrite HS, Z.eqb_refl by auto|rewrite andb_false_r]; reflexivity. }
    cbn [negb]. destruct Sc as [Nc Ic]. destruct SR as [Nl Il].
    assert (T : sector np nh np nh) by (unfold sector; repeat split; auto; lia).
    destruct c as [|c0 c']; [apply Ic in T; destruct T|]. set (c := c0 :: c') in *. clearbody c.
    set (n := Z.to_nat (Z.min np nh + 1)).
    set (r := map _ l).
    assert (Ir : forall k v, In (k, v) r <-> exists p h, sector np nh p h /\ k = Z.to_nat (Z.min p h) /\ v = av c p h).
    { intros k v. unfold r. rewrite in_map_iff. split.
      - intros ([p h] & [= <- <-] & I). exists p, h. split; [apply Il; exact I|split; reflexivity].
      - intros (p & h & S0 & -> & ->). exists (p, h). split; [reflexivity|apply Il; exact S0]. }
    replace (forallb _ r) with true.
    2:{ symmetry. apply forallb_forall. intros [k v] I. apply Ir in I. destruct I as (p & h & S0 & -> & _).
        cbn. apply Nat.ltb_lt. unfold sector in S0. unfold n. lia. }
    assert (Ln : length (vector n r) = n) by (unfold vector; rewrite map_length, seq_length; reflexivity).
    assert (Hn : forall k, (k < n)%nat -> nth_error (vector n r) k =
              Some (match find (fun x => (fst x =? k)%nat) r with Some x => Some (snd x) | None => None end)).
    { intros k Hk. unfold vector. apply (map_nth_error (fun p => match find (fun x => (fst x =? p)%nat) r with Some x => Some (snd x) | None => None end)).
      rewrite nth_error_nth' with (d := O) by (rewrite seq_length; exact Hk). rewrite seq_nth by exact Hk. reflexivity. }
    exists c, (vector n r). split; [reflexivity|]. split; [split; [exact Nc|exact Ic]|].
    split; [|split].
    - rewrite Ln. unfold n. lia.
    - intros p h S0. rewrite Hn by (unfold sector in S0; unfold n; lia).
      rewrite find_some_unique with (v := av c p h); [reflexivity| |].
      + apply Ir. exists p, h. auto.
      + intros v' I. apply Ir in I. destruct I as (p' & h' & S' & E & ->). unfold sector in S0, S'.
        assert (p' = p) by lia. assert (h' = h) by lia. subst. reflexivity.
    - intros k Hk Hno. rewrite Ln in Hk. rewrite Hn by exact Hk.
      destruct (find _ r) as [[j w]|] eqn:F; [|reflexivity]. apply find_some in F. destruct F as [I E].
      cbn in E. apply Nat.eqb_eq in E. subst j. apply Ir in I. destruct I as (p & h & S0 & -> & _).
      exfalso. apply (Hno p h S0). unfold sector in S0. lia.
  Qed.

  (** C159: what is refused. *)
  Theorem C159_refused (left unitary spinfree : bool) np nh :
    eom av left unitary spinfree np nh = EAssert <->
    (left = true /\ unitary = true) \/ (np <= 0 /\ nh <= 0) \/ (spinfree = true /\ np <> nh).
  Proof.
    split.
    - unfold eom. destruct (left && unitary) eqn:E1; [apply andb_true_iff in E1; tauto|].
      destruct ((0 <? np) || (0 <? nh)) eqn:E2; cbn [negb].
      2:{ apply orb_false_iff in E2. rewrite !Z.ltb_ge in E2. tauto. }
      destruct (negb (np =? nh) && spinfree) eqn:E3.
      { apply andb_true_iff in E3. destruct E3 as [E3 E4]. apply negb_true_iff, Z.eqb_neq in E3. tauto. }
      destruct (if left then L np nh else R np nh) as [[|c0 c]|]; try discriminate.
      destruct (ladder _ np nh); try discriminate. cbv zeta. destruct (forallb _ _); discriminate.
    - intros [[-> ->]|[[H1 H2]|[-> H]]]; unfold eom.
      + reflexivity.
      + destruct (left && unitary); [reflexivity|]. replace ((0 <? np) || (0 <? nh)) with false; [reflexivity|].
        symmetry. apply orb_false_iff. rewrite !Z.ltb_ge. lia.
      + destruct (left && unitary); [reflexivity|]. destruct (negb _); [reflexivity|].
        replace (np =? nh) with false by (symmetry; apply Z.eqb_neq; exact H). reflexivity.
  Qed.

  (** C159: one negative number is not refused, and a null pointer is used. *)
  Theorem C159_negative (left : bool) np nh :
    (np < 0 < nh) \/ (nh < 0 < np) -> eom av left false false np nh = ENull.
  Proof.
    intros H. unfold eom. rewrite andb_false_r.
    replace ((0 <? np) || (0 <? nh)) with true by (symmetry; apply orb_true_iff; rewrite !Z.ltb_lt; lia).
    cbn [negb]. rewrite andb_false_r.
    assert (E : forall a b, (a < 0 \/ b < 0) -> ladder (fuel_of a b) a b = Some []).
    { intros a b Hab. cbn. replace ((0 <=? a) && (0 <=? b)) with false; [reflexivity|].
      symmetry. apply andb_false_iff. rewrite !Z.leb_gt. lia. }
    destruct left; unfold L, R; rewrite E by lia; reflexivity.
  Qed.

  (** C160, the part that holds: element 0 is null if the numbers of particles and holes are equal, and only then. *)
  Theorem C160_element_zero_partial (left unitary spinfree : bool) np nh v :
    0 <= np -> 0 <= nh -> eom av left unitary spinfree np nh = EOk v ->
    (nth_error v 0 = Some None <-> np = nh).
  Proof.
    intros Hp Hh E.
    assert (NA : eom av left unitary spinfree np nh <> EAssert) by (rewrite E; discriminate).
    rewrite C159_refused in NA.
    destruct (C159_equations left unitary spinfree np nh Hp Hh) as (c & v' & E' & _ & Ln & Hs & Hn).
    - intros [= -> ->]. apply NA. right; left; lia.
    - intros ->. destruct unitary; [exfalso; apply NA; auto|reflexivity].
    - intros ->. destruct (Z.eq_dec np nh); [assumption|]. exfalso; apply NA; auto.
    - rewrite E in E'. injection E' as <-. split.
      + intros H0. destruct (Z.eq_dec np nh) as [|N]; [assumption|exfalso].
        specialize (Hs (np - Z.min np nh) (nh - Z.min np nh)).
        replace (Z.min (np - Z.min np nh) (nh - Z.min np nh)) with 0 in Hs by lia. cbn [Z.to_nat] in Hs.
        rewrite H0 in Hs. assert (Some None = Some (Some (av c (np - Z.min np nh) (nh - Z.min np nh)))) as X; [|discriminate X].
        apply Hs. unfold sector. repeat split; try lia. intros [= ? ?]. lia.
      + intros ->. apply Hn; [lia|]. intros p h S0. unfold sector in S0. intros E0.
        destruct S0 as (H1 & H2 & H3 & H4). apply H4. f_equal; lia.
  Qed.
End Props.

Module EomExamples.
  (** Two particles and one hole: the sectors (2, 1) and (1, 0). *)
  Theorem hypotheses_met :
    eom (fun c p h => (c, p, h)) false false false 2 1 =
      EOk [Some ([(2, 1); (1, 0)], 1, 0); Some ([(2, 1); (1, 0)], 2, 1)] /\
    sector 2 1 1 0.
  Proof. split; [reflexivity|]. unfold sector. repeat split; try lia. discriminate. Qed.

  (** C160 in full is false: "element 0 is always null". One hole and no particle has its only equation there. *)
  Theorem C160_element_zero_refuted :
    exists v : list (option (Z * Z)), eom (fun _ p h => (p, h)) false false false 0 1 = EOk v /\
      nth_error v 0 <> Some None.
  Proof. exists [Some (0, 1)]. split; [reflexivity|]. discriminate. Qed.
End EomExamples.
