(** From the recursion to compute_nontensor_wick. *)
From Coq Require Import List NArith ZArith Bool Arith Lia Permutation.
From Verif Require Import Wick_Model Wick_Spec Wick_Ring Wick_Proofs1 Wick_Proofs2 Wick_Proofs3 Wick_Proofs4 Wick_Proofs5 Wick_Proofs7 Wick_Proofs8.
Import ListNotations.

Section Top.
  Context {I F : Type}.
  Variable ieqb : I -> I -> bool.
  Hypothesis ieqb_spec : forall i j, ieqb i j = true <-> i = j.
  Notation op := (op I).
  Notation nest := (list (list op)).
  Notation T := (nat * op)%type.
  Notation pattern := (list (T * T)).
  Variable fermi : bool.
  Variable is_qpann : op -> bool.
  Variable can_contract : op -> op -> bool.
  Variable contract : op -> op -> list F.
  Hypothesis contract_nonempty : forall l r, can_contract l r = true -> contract l r <> [].
  Hypothesis qpann_ok : forall l r, can_contract l r = true -> is_qpann l = true.
  Variable full count_only spinfree : bool.
  Variable target avoided : list N.
  Variable nconn : nat.
  Variable partners : list (I * I).
  Variable input : nest.
  Variable prefactor : list F.
  Hypothesis Hnodup : NoDup (concat input).
  Hypothesis Hops : concat input <> [].

  Notation compute := (compute ieqb fermi is_qpann can_contract contract full count_only spinfree target avoided nconn partners input prefactor).
  Notation allow := (allow (I := I) target avoided).
  Notation flat := (tag_nest input 0).
  Definition start : wstate := mkw input (opsize input) 1%Z prefactor (length prefactor) [] 0 (repeat 0%N (length input)) (repeat 0 (ntri (length input))) 0 [].

  Lemma inv_start : inv target (length input) start [].
  Proof.
    unfold inv, start. cbn [w_nest w_size w_contr w_fac0 w_fac].
    split; [reflexivity|]. split; [reflexivity|]. split; [reflexivity|]. split; [lia|]. split; [rewrite tag_nest_snd; exact Hnodup|].
    split; [intros ? ? []|]. intros _. unfold conn_ok. cbn [w_conn w_adj].
    split; [apply repeat_length|]. split; [apply repeat_length|]. split.
    - intros a b _. unfold bit. replace (nth a (repeat 0%N (length input)) 0%N) with 0%N; [apply N.bits_0|].
      generalize (length input). intros n. revert a. induction n as [|n IH]; intros [|a]; cbn; auto.
    - intros a b _. generalize (uptri_idx a b (length input)) (ntri (length input)). intros i n. revert i. induction n as [|n IH]; intros [|i]; cbn; auto.
  Qed.

  Lemma flat_nonempty : flat <> [].
  Proof. intros E. apply Hops. rewrite <- (tag_nest_snd input 0), E. reflexivity. Qed.
  Lemma opsize_nonzero : Nat.eqb (opsize input) 0 = false.
  Proof. apply Nat.eqb_neq. rewrite <- (tag_nest_length input 0). destruct flat eqn:E; [elim flat_nonempty; exact E|cbn; lia]. Qed.

  Lemma nodup_flat : NoDup flat.
  Proof. apply (NoDup_map_inv snd). rewrite tag_nest_snd. exact Hnodup. Qed.

  Definition product_factors (m : pattern) : list F := prefactor ++ flat_map (fun xy => contract (snd (fst xy)) (snd (snd xy))) m.

  (** ** Full contractions *)
  Notation gof_terms := (gof fermi is_qpann can_contract allow (length flat) [] flat).

  Lemma compute_full depth : full = true -> opsize input < depth ->
    fin_ok ieqb fermi contract full count_only spinfree partners (length input) start gof_terms ->
    if count_only then compute depth = Ok ([], length gof_terms)
    else exists os, Forall2 (fun t o => out_of ieqb fermi contract full spinfree partners (length input) start t = Ok o) gof_terms os /\ compute depth = Ok (os, 0).
  Proof.
    intros Hfull Hd Hfin.
    destruct (wick_full ieqb ieqb_spec fermi is_qpann can_contract contract contract_nonempty full count_only spinfree target avoided partners (length input) Hfull
                depth start [] [] flat inv_start eq_refl flat_nonempty eq_refl (fun _ => eq_refl)) as (s' & E & C & R).
    { rewrite tag_nest_length. exact Hd. }
    { exact Hfin. }
    unfold Wick_Model.compute. destruct input as [|g gs] eqn:Ein; [elim Hops; reflexivity|]. rewrite <- Ein in *. rewrite opsize_nonzero. fold start.
    rewrite E. cbn [bind]. assert (En : negb full && (nconn =? 0) = false) by (rewrite Hfull; reflexivity). rewrite En.
    destruct count_only.
    - destruct R as (R1 & R2). rewrite R1, R2. reflexivity.
    - destruct R as (R1 & os & R2 & R3). exists os. split; [exact R2|]. rewrite R1, R3. cbn. rewrite app_nil_r, rev_involutive. reflexivity.
  Qed.

  (** ** Partial contractions *)
  Notation go_terms := (go fermi can_contract allow (length flat) [] [] flat).

  Lemma out_of_partial s t : full = false -> exists o, out_of ieqb fermi contract full spinfree partners (length input) s t = Ok o.
  Proof.
    intros Hfull. unfold out_of, fin, finish_term. cbn [w_contr w_scal w_fac w_nest].
    destruct (make_target_partner_indices ieqb partners (w_contr s ++ map untag (p_pairs t))) as [tp nc].
    assert (E : forall X (a b : X), (if full then a else b) = b) by (rewrite Hfull; reflexivity). rewrite E.
    destruct (normalize ieqb fermi (unflat (length input) (p_rest t)) tp) as [ph ca]. eexists. reflexivity.
  Qed.

  Lemma compute_partial depth : full = false -> opsize input < depth ->
    if count_only then compute depth = Ok ([], length go_terms + (if Nat.eqb nconn 0 then 1 else 0))
    else exists os, Forall2 (fun t o => out_of ieqb fermi contract full spinfree partners (length input) start t = Ok o) go_terms os /\
         compute depth = Ok (os ++ (if Nat.eqb nconn 0 then let '(phase, ca) := normalize ieqb fermi input partners in [mkt phase prefactor (normal_operator ca)] else []), 0).
  Proof.
    intros Hfull Hd.
    destruct (wick_partial ieqb ieqb_spec fermi is_qpann can_contract contract contract_nonempty full count_only spinfree target avoided partners (length input) Hfull
                depth start [] [] flat inv_start eq_refl flat_nonempty eq_refl (fun _ => eq_refl)) as (s' & E & C & R).
    { rewrite tag_nest_length. exact Hd. }
    { intros _ t _. apply out_of_partial. exact Hfull. }
    unfold Wick_Model.compute. destruct input as [|g gs] eqn:Ein; [elim Hops; reflexivity|]. rewrite <- Ein in *. rewrite opsize_nonzero. fold start.
    rewrite E. cbn [bind]. assert (En : negb full = true) by (rewrite Hfull; reflexivity). rewrite En. cbn [andb].
    destruct count_only.
    - destruct R as (R1 & R2). rewrite R1, R2. destruct (Nat.eqb nconn 0); cbn; [rewrite Nat.add_1_r; reflexivity|rewrite Nat.add_0_r; reflexivity].
    - destruct R as (R1 & os & R2 & R3). exists os. split; [exact R2|]. destruct (Nat.eqb nconn 0).
      + destruct (normalize ieqb fermi input partners) as [ph ca]. rewrite R1. f_equal. f_equal. cbn [rev]. f_equal. rewrite R3. cbn. rewrite app_nil_r, rev_involutive. reflexivity.
      + rewrite R1, R3. cbn. rewrite !app_nil_r, rev_involutive. reflexivity.
  Qed.

  (** ** The nest of what is left over *)
  Lemma concat_members : forall m k v, tags_ok k m v -> concat (map (fun i => members i v) (seq k m)) = map (@snd nat op) v.
  Proof.
    induction m as [|m IH]; intros k v Hv.
    - destruct v; [reflexivity|]. cbn in Hv. lia.
    - destruct (tags_split k m v Hv) as (v1 & v2 & -> & H1 & H2). cbn [seq map concat]. pose proof (tags_ok_ge _ _ _ H2) as H2'.
      rewrite members_app, (members_all k v1 H1), members_none, app_nil_r by (intros x Hx E; specialize (H2' x Hx); lia).
      rewrite map_app. f_equal. rewrite <- (IH (S k) v2 H2). f_equal. apply map_ext_in. intros i Hi. apply in_seq in Hi.
      rewrite members_app, members_none; [reflexivity|]. intros x Hx E. rewrite (H1 x Hx) in E. lia.
  Qed.
  Lemma concat_unflat (v : list T) : tags_ok 0 (length input) v -> concat (unflat (length input) v) = map snd v.
  Proof. apply concat_members. Qed.

  Lemma tags_ok_partial k n (v : list T) m rest : partial_matching v m rest -> tags_ok k n v -> tags_ok k n rest /\ incl rest v.
  Proof.
    induction 1 as [|x v m rest H IH|x v1 y v2 m rest H IH]; intros Hv; [split; [exact Logic.I|intros a Ha; exact Ha]| |].
    - destruct Hv as (H1 & H2 & H3). destruct (IH H3) as (H4 & H5). split.
      + split; [exact H1|]. split; [|exact H4]. intros y Hy. apply H2. apply H5. exact Hy.
      + intros a [<-|Ha]; [left; reflexivity|right; apply H5; exact Ha].
    - destruct Hv as (H1 & H2 & H3). destruct (IH (tags_ok_sub k n v1 y v2 H3)) as (H4 & H5). split; [exact H4|].
      intros a Ha. specialize (H5 a Ha). cbn. rewrite in_app_iff in *. cbn. tauto.
  Qed.

  (** ** Values *)
  Section Values.
    Context {R : ring}.
    Notation A := (car R).
    Variables plus minus : op -> A.
    Variable contr : op -> op -> A.
    Variable fval : F -> A.
    Hypothesis CCR : canonical fermi plus minus contr.
    Hypothesis contract_value : forall l r, can_contract l r = true -> factors_value fval (contract l r) = contr l r.
    Hypothesis contr_zero : forall l r, can_contract l r = false -> contr l r = r0 R.
    Local Open Scope op_scope.

    Lemma rprod_app (a b : list A) : rprod (a ++ b) = rprod a * rprod b.
    Proof. induction a as [|x a IH]; cbn [app rprod fold_right]; [rewrite rmul_1_l; reflexivity|]. fold (rprod (a ++ b)). rewrite IH, rmul_assoc. reflexivity. Qed.

    Lemma factors_pattern m : admissible can_contract m -> factors_value fval (product_factors m) = factors_value fval prefactor * pairs_value contr m.
    Proof.
      intros Ha. unfold factors_value, product_factors. rewrite map_app, rprod_app. f_equal. unfold pairs_value.
      induction m as [|[x y] m IH]; [reflexivity|]. cbn [flat_map map fst snd]. rewrite map_app, rprod_app. cbn [rprod fold_right].
      fold (rprod (map (fun xy => contr (snd (fst xy)) (snd (snd xy))) m)). rewrite IH by (intros a b H; apply Ha; right; exact H). f_equal.
      apply contract_value. apply (Ha x y). left. reflexivity.
    Qed.

    Lemma path_admissible cc al : forall m prev v, Wick_Proofs7.path_ok cc al prev v m -> admissible (I := I) cc m.
    Proof.
      induction m as [|[x y] m IH]; intros prev v H; [intros ? ? []|]. destruct H as (p & v1 & v2 & E & Hel & H).
      intros a b [Eab|Hab]; [|apply (IH _ _ H a b Hab)]. injection Eab as <- <-.
      unfold Wick_Proofs2.eligible in Hel. rewrite !andb_true_iff, negb_true_iff, Nat.eqb_neq in Hel. tauto.
    Qed.

    Lemma product_of_input : product_of fermi plus minus (seq 0 (length input)) flat = rprod (map (normal fermi plus minus) input).
    Proof.
      unfold product_of. f_equal. rewrite <- (map_map (fun k => members k flat) (normal fermi plus minus)). f_equal. apply (unflat_flat input).
    Qed.

    Lemma zscale_mul_left (z : Z) (x y : A) : x * zscale z y = zscale z (x * y).
    Proof. apply zscale_mul_r. Qed.

    Lemma sum_values (h : pterm op -> A) (ts : list (pterm op)) (os : list wterm) (c : A) :
      Forall2 (fun t o => term_value fermi plus minus fval o = c * h t) ts os ->
      rsum (map (term_value fermi plus minus fval) os) = c * rsum (map h ts).
    Proof.
      induction 1 as [|t o ts os H _ IH]; cbn [map]; [cbn; ncr|]. cbn [rsum fold_right]. fold (rsum (map (term_value fermi plus minus fval) os)) (rsum (map h ts)).
      rewrite H, IH. ncr.
    Qed.

    Lemma full_value depth V : full = true -> count_only = false -> spinfree = false -> target = [] -> avoided = [] -> opsize input < depth ->
      expectation plus minus V ->
      exists ts, compute depth = Ok (ts, 0%nat) /\ rsum (map (term_value fermi plus minus fval) ts) = factors_value fval prefactor * V (rprod (map (normal fermi plus minus) input)).
    Proof.
      intros Hfull Hcnt Hsf Htg Hav Hd HV.
      assert (Hout : forall t, out_of ieqb fermi contract full spinfree partners (length input) start t = Ok (mkt (1 * p_sign t) (product_factors (p_pairs t)) [])).
      { intros t. unfold out_of, fin, finish_term. cbn [w_contr w_scal w_fac w_nest start].
        destruct (make_target_partner_indices ieqb partners _) as [tp nc]. rewrite Hfull, Hsf. reflexivity. }
      pose proof (compute_full depth Hfull Hd) as H.
      assert (Hc : forall X (a b : X), (if count_only then a else b) = b) by (rewrite Hcnt; reflexivity). rewrite Hc in H.
      destruct H as (os & H1 & H2); [intros _ t _; eexists; apply Hout|].
      exists os. split; [exact H2|]. rewrite <- product_of_input.
      rewrite <- (gof_value fermi is_qpann can_contract allow plus minus contr CCR contr_zero) with (f := length flat) (prev := []);
        [|rewrite Htg, Hav; reflexivity|exact qpann_ok|exact HV|lia|apply tag_nest_tags].
      apply (sum_values (pvalue fermi plus minus contr)).
      assert (Hs : forall t, In t gof_terms -> admissible can_contract (p_pairs t) /\ p_rest t = []).
      { intros t Ht. apply gof_sound in Ht. destruct Ht as (_ & Hr & Hp & _). split; [apply (path_admissible _ _ _ _ _ Hp)|exact Hr]. }
      clear H2. revert Hs. induction H1 as [|t o ts os Ho _ IH]; intros Hs; constructor; [|apply IH; intros; apply Hs; right; auto].
      rewrite Hout in Ho. injection Ho as <-. destruct (Hs t (or_introl eq_refl)) as (Had & Hr).
      unfold term_value, scaled, pvalue. cbn [t_scalar t_factors t_op]. rewrite Hr, (factors_pattern _ Had). rewrite zscale_mul_left. replace (match p_sign t with Z0 => Z0 | Zpos y => Zpos y | Zneg y => Zneg y end) with (p_sign t) by (destruct (p_sign t); reflexivity). f_equal.
      cbn. ncr.
    Qed.

    Lemma normal_value n pairs phase ca : normalize ieqb fermi n pairs = (phase, ca) -> zscale phase (normal fermi plus minus (normal_operator ca)) = normal fermi plus minus (concat n).
    Proof.
      intros E. pose proof (normalize_sign ieqb fermi n pairs) as H. rewrite E in H. destruct H as (k & -> & Hre & _).
      rewrite (normal_rearranged fermi plus minus contr CCR k _ _ Hre). reflexivity.
    Qed.

    Lemma partial_value depth : full = false -> count_only = false -> spinfree = false -> target = [] -> avoided = [] -> nconn = 0%nat -> opsize input < depth ->
      exists ts, compute depth = Ok (ts, 0%nat) /\ rsum (map (term_value fermi plus minus fval) ts) = factors_value fval prefactor * rprod (map (normal fermi plus minus) input).
    Proof.
      intros Hfull Hcnt Hsf Htg Hav Hn Hd.
      pose proof (compute_partial depth Hfull Hd) as H.
      assert (Hc : forall X (a b : X), (if count_only then a else b) = b) by (rewrite Hcnt; reflexivity). rewrite Hc in H.
      destruct H as (os & H1 & H2). assert (Enc : Nat.eqb nconn 0 = true) by (rewrite Hn; reflexivity). rewrite Enc in H2. destruct (normalize ieqb fermi input partners) as [ph ca] eqn:En.
      eexists. split; [exact H2|]. rewrite map_app.
      rewrite rsum_app. cbn [map rsum fold_right].
      rewrite <- product_of_input.
      pose proof (go_value fermi can_contract allow plus minus contr CCR contr_zero) as Hgo.
      specialize (Hgo ltac:(rewrite Htg, Hav; reflexivity) (length input) (length flat) [] [] flat ltac:(lia) (tag_nest_tags input 0)). cbn [app map wait] in Hgo.
      rewrite <- Hgo, rdistr_r. rewrite (sum_values (pvalue fermi plus minus contr) go_terms os (factors_value fval prefactor)).
      - rewrite tag_nest_snd. unfold term_value, scaled. cbn [t_scalar t_factors t_op].
        rewrite <- (normal_value input partners ph ca En), zscale_mul_left. rewrite (radd_comm R _ (r0 R)), radd_0. apply radd_comm.
      - assert (Hs : forall t, In t go_terms -> admissible can_contract (p_pairs t) /\ tags_ok 0 (length input) (p_rest t)).
        { intros t Ht. apply go_sound in Ht. destruct Ht as (_ & Hp & rest & Hm & Hr & _). split; [apply (path_admissible _ _ _ _ _ Hp)|].
          rewrite Hr. cbn [app]. apply (tags_ok_partial _ _ _ _ _ Hm). apply tag_nest_tags. }
        clear H2 Hgo. revert Hs. induction H1 as [|t o ts os Ho _ IH]; intros Hs; constructor; [|apply IH; intros; apply Hs; right; auto].
        destruct (Hs t (or_introl eq_refl)) as (Had & Hr).
        unfold out_of, fin, finish_term in Ho. cbn [w_contr w_scal w_fac w_nest start] in Ho.
        destruct (make_target_partner_indices ieqb partners _) as [tp nc].
        destruct (normalize ieqb fermi (unflat (length input) (p_rest t)) tp) as [ph1 ca1] eqn:En1.
        rewrite Hfull, Hsf in Ho. injection Ho as <-. unfold term_value, scaled, pvalue. cbn [t_scalar t_factors t_op].
        pose proof (normal_value _ _ _ _ En1) as Hv. rewrite (concat_unflat _ Hr) in Hv.
        change (prefactor ++ flat_map (fun xy => contract (snd (fst xy)) (snd (snd xy))) (p_pairs t)) with (product_factors (p_pairs t)).
        rewrite (factors_pattern _ Had), <- Hv, !zscale_mul_left, zscale_zscale. f_equal; [destruct (p_sign t); ring|].
        symmetry. apply rmul_assoc.
    Qed.
  End Values.

  (** ** Patterns *)
  Lemma path_free cc (v : list T) m rest : partial_matching v m rest -> admissible (I := I) cc m -> forall prev p, Wick_Proofs7.path_ok cc (fun _ _ _ _ => true) prev (p ++ v) m.
  Proof.
    induction 1 as [|x v m rest H IH|x v1 y v2 m rest H IH]; intros Ha prev p; [exact Logic.I| |].
    - replace (p ++ x :: v) with ((p ++ [x]) ++ v) by (rewrite <- app_assoc; reflexivity). apply IH. exact Ha.
    - cbn [Wick_Proofs7.path_ok]. exists p, v1, v2. split; [reflexivity|]. split.
      + unfold Wick_Proofs2.eligible. destruct (Ha x y (or_introl eq_refl)) as (H1 & H2). rewrite H2. apply Nat.eqb_neq in H1. rewrite H1. reflexivity.
      + apply IH. intros a b Hab. apply Ha. right. exact Hab.
  Qed.
End Top.
