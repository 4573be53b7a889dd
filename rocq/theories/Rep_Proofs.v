(** * Proofs about transforming and replacing *)
From Coq Require Import List Arith Bool Lia Ring.
From Verif Require Import Rep_Model Rep_Spec.
Import ListNotations.

Section RepProofs.
  Context {I L V K : Type} (ieqb : I -> I -> bool) (keqb : K -> K -> bool) (kzero kone : K) (kadd kmul ksub : K -> K -> K) (kopp : K -> K).
  Context (kring : ring_theory kzero kone kadd kmul ksub kopp (@eq K)).
  Add Ring Kring37 : kring.
  Context (ieqb_spec : forall i j, ieqb i j = true <-> i = j).
  Context (keqb_spec : forall x y, keqb x y = true <-> x = y).
  Notation atom := (atom I L V K).
  Notation rex := (rex I L V K).
  Notation value := (value kzero kone kadd kmul).
  Notation transform_expr := (transform_expr ieqb keqb kone kmul).
  Notation transform_slot := (transform_slot ieqb).

  (** Induction for expressions. *)
  Fixpoint rex_ind2 (P : rex -> Prop) (HA : forall a, P (RAtom a)) (HP : forall k fs, Forall P fs -> P (RProd k fs))
    (HS : forall l, Forall P l -> P (RSum l)) (e : rex) : P e :=
    let go := fix go (l : list rex) : Forall P l :=
      match l with [] => Forall_nil _ | x :: l' => Forall_cons _ (rex_ind2 P HA HP HS x) (go l') end in
    match e with RAtom a => HA a | RProd k fs => HP k fs (go fs) | RSum l => HS l (go l) end.

  Definition as_fun (m : list (I * option I)) (i : I) : option I := match find ieqb i m with Some x => x | None => Some i end.

  Lemma transform_slots m s :
    map (transform_slot m) s = map (fun x => match x with Some i => as_fun m i | None => None end) s.
  Proof. apply map_ext. intros [i|]; reflexivity. Qed.

  Definition prod_value (av : atom -> K) (fs : list rex) : K := fold_right (fun x r => kmul (value av x) r) kone fs.
  Definition sum_value (av : atom -> K) (l : list rex) : K := fold_right (fun x r => kadd (value av x) r) kzero l.

  Lemma transform_factors_value (av : atom -> K) m (fs : list rex) : Forall (fun x => exists a, x = RAtom a) fs ->
    exists r, transform_factors ieqb m fs = ROk r /\ prod_value av r = prod_value (fun a => av (rename (as_fun m) a)) fs.
  Proof.
    induction 1 as [|x fs (a & ->) _ (r & E & IH)]; cbn [transform_factors].
    - exists []. split; reflexivity.
    - destruct a as [k|v|l s]; rewrite E; cbn [rbind]; eexists; (split; [reflexivity|]); cbn [prod_value fold_right Rep_Spec.value rename].
      1,2: f_equal; exact IH. rewrite transform_slots. f_equal. exact IH.
  Qed.

  Lemma transform_expr_value (av : atom -> K) m c (e : rex) : valuation av -> flat e ->
    exists r, transform_expr m c e = ROk r /\ value av r = kmul c (value (fun a => av (rename (as_fun m) a)) e).
  Proof.
    intros HV. induction e as [a|k fs IH|l IH] using rex_ind2; intros F.
    - destruct a as [k|v|l s]; cbn [Rep_Model.transform_expr]; (eexists; split; [reflexivity|]);
        destruct (keqb c kone) eqn:E; try (apply keqb_spec in E; subst c); cbn [Rep_Spec.value fold_right rename];
        rewrite ?transform_slots, ?HV; ring.
    - inversion F as [|k' fs' Ff|]; subst. cbn [Rep_Model.transform_expr].
      destruct (transform_factors_value av m fs Ff) as (r & E & Q). rewrite E. cbn [rbind]. eexists. split; [reflexivity|].
      cbn [Rep_Spec.value]. unfold prod_value in Q. rewrite Q. ring.
    - inversion F as [| |l' Fl]; subst. cbn [Rep_Model.transform_expr]. clear F.
      set (go := fix go (l : list rex) : rout (list rex) := match l with [] => ROk [] | x :: l' => rbind (transform_expr m c x) (fun y => rbind (go l') (fun r => ROk (y :: r))) end).
      assert (H : exists r, go l = ROk r /\ sum_value av r = kmul c (sum_value (fun a => av (rename (as_fun m) a)) l)).
      { induction l as [|x l IHl]; [exists []; split; [reflexivity|cbn; ring]|].
        inversion IH; subst. inversion Fl; subst. destruct (IHl ltac:(assumption) ltac:(assumption)) as (r & E & Q).
        match goal with H : flat x -> _, G : flat x |- _ => destruct (H G) as (y & Ey & Qy) end.
        cbn [go]. fold go. rewrite Ey. cbn [rbind]. rewrite E. cbn [rbind]. eexists. split; [reflexivity|].
        cbn [sum_value fold_right]. fold (sum_value av r). rewrite Qy, Q. unfold sum_value. ring. }
      destruct H as (r & E & Q). rewrite E. cbn [rbind]. eexists. split; [reflexivity|]. exact Q.
  Qed.

  (** A product with a sum or a product as factor is refused. *)
  Lemma transform_factors_throws m (fs : list rex) : ~ Forall (fun x => exists a, x = RAtom a) fs -> transform_factors ieqb m fs = @RThrow (list rex).
  Proof.
    induction fs as [|[a|k gs|l] fs IH]; intros N.
    - exfalso. apply N. constructor.
    - assert (N' : ~ Forall (fun x : rex => exists a, x = RAtom a) fs).
      { intros F. apply N. constructor; [exists a; reflexivity|exact F]. }
      cbn [transform_factors]. destruct a; rewrite (IH N'); reflexivity.
    - reflexivity.
    - reflexivity.
  Qed.

  Lemma transform_expr_ok_flat m c (e r : rex) : transform_expr m c e = ROk r -> flat e.
  Proof.
    revert r. induction e as [a|k fs IH|l IH] using rex_ind2; intros r; cbn [Rep_Model.transform_expr].
    - intros _. constructor.
    - intros H. constructor. destruct (transform_factors ieqb m fs) eqn:E; [|discriminate].
      assert (D : Forall (fun x : rex => exists a, x = RAtom a) fs \/ ~ Forall (fun x : rex => exists a, x = RAtom a) fs).
      { clear. induction fs as [|x fs [IH|IH]].
        - left. constructor.
        - destruct x as [a| |]; [left; constructor; [exists a; reflexivity|exact IH]| |]; right; intros F; inversion F as [|? ? (? & D)]; discriminate.
        - right. intros F. inversion F. tauto. }
      destruct D as [D|D]; [exact D|]. rewrite (transform_factors_throws m fs D) in E. discriminate.
    - set (go := fix go (l : list rex) : rout (list rex) := match l with [] => ROk [] | x :: l' => rbind (transform_expr m c x) (fun y => rbind (go l') (fun r => ROk (y :: r))) end).
      intros H. constructor. assert (E : exists q, go l = ROk q) by (destruct (go l) as [q|]; [exists q; reflexivity|discriminate]). clear H r.
      induction l as [|x l IHl]; [constructor|]. inversion IH; subst. destruct E as (r & E). cbn [go] in E. fold go in E.
      destruct (transform_expr m c x) as [y|] eqn:Ex; [|discriminate]. cbn [rbind] in E. destruct (go l) as [q|] eqn:El; [|discriminate].
      constructor; [match goal with H : forall r, ROk _ = ROk r -> _ |- _ => eapply H; reflexivity end|].
      apply IHl; [assumption|exists q; reflexivity].
  Qed.

  (** The map of the replacements. *)
  Lemma find_assign i x m j : find ieqb j (assign ieqb i x m) = if ieqb i j then Some x else find ieqb j m.
  Proof.
    induction m as [|(k, y) m IH]; cbn; [reflexivity|].
    destruct (ieqb k i) eqn:E; cbn.
    - apply ieqb_spec in E. subst k. destruct (ieqb i j); reflexivity.
    - rewrite IH. destruct (ieqb k j) eqn:E2; [|reflexivity].
      apply ieqb_spec in E2. subst k. destruct (ieqb i j) eqn:E3; [|reflexivity].
      apply ieqb_spec in E3. subst i. assert (ieqb j j = true) by (apply ieqb_spec; reflexivity). congruence.
  Qed.

  Lemma mapping_spec us s : forall b p, In p (mapping_from ieqb b s us) <->
    exists q i, p = b + q /\ nth_error s q = Some (Some i) /\ In i us.
  Proof.
    assert (EX : forall i, existsb (ieqb i) us = true <-> In i us).
    { intros i. rewrite existsb_exists. split; [intros (x & H & E); apply ieqb_spec in E; subst; exact H|].
      intros H. exists i. split; [exact H|apply ieqb_spec; reflexivity]. }
    assert (SH : forall (x : option I) s b p, (exists q i, p = S b + q /\ nth_error s q = Some (Some i) /\ In i us) ->
                 exists q i, p = b + q /\ nth_error (x :: s) q = Some (Some i) /\ In i us).
    { intros x t b p (q & i & -> & H). exists (S q), i. split; [lia|exact H]. }
    assert (SB : forall (x : option I) s b p q i, p = b + q -> nth_error (x :: s) q = Some (Some i) -> In i us ->
                 (q = 0 /\ x = Some i) \/ exists q i, p = S b + q /\ nth_error s q = Some (Some i) /\ In i us).
    { intros x t b p [|q] i -> H U; cbn in H; [left; split; [reflexivity|congruence]|].
      right. exists q, i. split; [lia|]. split; assumption. }
    induction s as [|[i|] s IH]; intros b p; cbn [mapping_from].
    - cbn. split; [tauto|]. intros ([|q] & i & _ & H & _); discriminate.
    - destruct (existsb (ieqb i) us) eqn:E.
      + cbn [In]. rewrite IH. split.
        * intros [<-|H]; [exists 0, i; split; [lia|]; split; [reflexivity|apply EX; exact E]|apply SH; exact H].
        * intros (q & j & Hp & H & U). destruct (SB _ _ _ _ _ _ Hp H U) as [(-> & X)|X]; [left; lia|right; exact X].
      + rewrite IH. split; [apply SH|]. intros (q & j & Hp & H & U).
        destruct (SB _ _ _ _ _ _ Hp H U) as [(-> & X)|X]; [|exact X]. injection X as ->. apply EX in U. congruence.
    - rewrite IH. split; [apply SH|]. intros (q & j & Hp & H & U).
      destruct (SB _ _ _ _ _ _ Hp H U) as [(-> & X)|X]; [discriminate|exact X].
  Qed.

  Lemma slot_eqb_spec x y : slot_eqb ieqb x y = true <-> x = y.
  Proof. destruct x, y; cbn; rewrite ?ieqb_spec; split; congruence. Qed.

  (** Every index of the replacement is sent where the renaming sends it. *)
  Lemma replacements_spec ts cs f ps : length cs = length ts -> takes ts cs f ->
    (forall p, In p ps -> p < length ts) ->
    forall i, (In (Some i) ts -> exists p, In p ps /\ nth_error ts p = Some (Some i)) ->
    as_fun (replacements ieqb ts cs ps) i = f i.
  Proof.
    intros LE (T1 & T2) B i C. unfold replacements.
    set (step := fun m p => _).
    assert (G : forall ps m, (forall p, In p ps -> p < length ts) -> (forall j, find ieqb j m = None \/ find ieqb j m = Some (f j)) ->
      (forall j, find ieqb j (fold_left step ps m) = None \/ find ieqb j (fold_left step ps m) = Some (f j)) /\
      (forall j p, In p ps -> nth_error ts p = Some (Some j) -> as_fun (fold_left step ps m) j = f j) /\
      (forall j, find ieqb j m = Some (f j) -> find ieqb j (fold_left step ps m) = Some (f j))).
    { clear ps B C. induction ps as [|p ps IH]; intros m B M; cbn [fold_left].
      - split; [exact M|]. split; [intros j p []|tauto].
      - assert (Bp : p < length ts) by (apply B; left; reflexivity).
        assert (S1 : (forall j, find ieqb j (step m p) = None \/ find ieqb j (step m p) = Some (f j)) /\
                     (forall j, find ieqb j m = Some (f j) -> find ieqb j (step m p) = Some (f j)) /\
                     (forall j, nth_error ts p = Some (Some j) -> find ieqb j (step m p) = Some (f j) \/ f j = Some j)).
        { unfold step. destruct (nth_error ts p) as [[k|]|] eqn:E.
          - rewrite (nth_error_nth ts p None E). destruct (nth_error cs p) as [x|] eqn:Ec; [|apply nth_error_None in Ec; lia].
            rewrite (nth_error_nth cs p None Ec). pose proof (T1 p k x E Ec) as Fk.
            destruct (slot_eqb ieqb (Some k) x) eqn:Q.
            + apply slot_eqb_spec in Q. split; [exact M|]. split; [tauto|]. intros j [= <-]. right. congruence.
            + split; [|split].
              * intros j. rewrite find_assign. destruct (ieqb k j) eqn:D; [|apply M]. apply ieqb_spec in D. subst j. right. exact (f_equal Some (eq_sym Fk)).
              * intros j H. rewrite find_assign. destruct (ieqb k j) eqn:D; [|exact H]. apply ieqb_spec in D. subst j. exact (f_equal Some (eq_sym Fk)).
              * intros j [= <-]. left. rewrite find_assign. assert (D : ieqb k k = true) by (apply ieqb_spec; reflexivity). rewrite D. exact (f_equal Some (eq_sym Fk)).
          - rewrite (nth_error_nth ts p None E). split; [exact M|]. split; [tauto|]. intros j. discriminate.
          - apply nth_error_None in E. lia. }
        destruct S1 as (S1 & S2 & S3).
        destruct (IH (step m p) (fun q Hq => B q (or_intror Hq)) S1) as (R1 & R2 & R3).
        split; [exact R1|]. split.
        + intros j q [<-|Hq] Hj; [|apply (R2 j q Hq Hj)].
          destruct (S3 j Hj) as [S|S]; unfold as_fun.
          * rewrite (R3 j S). reflexivity.
          * destruct (R1 j) as [R|R]; rewrite R; [symmetry; exact S|reflexivity].
        + intros j Hj. apply R3, S2, Hj. }
    destruct (G ps [] B (fun j => or_introl eq_refl)) as (R1 & R2 & _).
    assert (D : In (Some i) ts \/ ~ In (Some i) ts).
    { clear -ieqb_spec. induction ts as [|x ts IH]; [right; tauto|]. destruct IH as [IH|IH]; [left; right; exact IH|].
      destruct (slot_eqb ieqb x (Some i)) eqn:E; [apply slot_eqb_spec in E; subst; left; left; reflexivity|].
      right. intros [->|H]; [|tauto]. assert (slot_eqb ieqb (Some i) (Some i) = true) by (apply slot_eqb_spec; reflexivity). congruence. }
    destruct D as [D|D].
    - destruct (C D) as (p & Hp & Hn). apply (R2 i p Hp Hn).
    - pose proof (T2 i D) as TD. transitivity (match find ieqb i (fold_left step ps []) with Some x => x | None => Some i end); [reflexivity|].
      destruct (R1 i) as [R|R]; rewrite R; [symmetry; exact TD|reflexivity].
  Qed.

  (** Values depend on the renaming of the indices used only. *)
  Lemma value_rename_ext (av : atom -> K) f g (e : rex) : (forall i, In i (used e) -> f i = g i) ->
    value (fun a => av (rename f a)) e = value (fun a => av (rename g a)) e.
  Proof.
    induction e as [a|k fs IH|l IH] using rex_ind2; intros H; cbn [Rep_Spec.value].
    - destruct a as [k|v|l s]; cbn [rename]; try reflexivity. f_equal. f_equal. apply map_ext_in. intros [i|] Hi; [|reflexivity].
      apply H. cbn [used]. apply in_flat_map. exists (Some i). split; [exact Hi|left; reflexivity].
    - f_equal. cbn [used] in H. induction IH as [|x fs Hx _ IHf]; [reflexivity|]. cbn [fold_right].
      rewrite Hx by (intros i Hi; apply H; cbn; apply in_or_app; left; exact Hi).
      rewrite IHf by (intros i Hi; apply H; cbn; apply in_or_app; right; exact Hi). reflexivity.
    - cbn [used] in H. induction IH as [|x fs Hx _ IHf]; [reflexivity|]. cbn [fold_right].
      rewrite Hx by (intros i Hi; apply H; cbn; apply in_or_app; left; exact Hi).
      rewrite IHf by (intros i Hi; apply H; cbn; apply in_or_app; right; exact Hi). reflexivity.
  Qed.

  Lemma value_rename_id (av : atom -> K) (e : rex) f : (forall i, In i (used e) -> f i = Some i) -> value (fun a => av (rename f a)) e = value av e.
  Proof.
    intros H. rewrite (value_rename_ext av f Some e H). clear H.
    assert (R : forall a : atom, rename Some a = a).
    { intros [k|v|l s]; cbn; try reflexivity. f_equal. rewrite <- (map_id s) at 2. apply map_ext. intros [i|]; reflexivity. }
    assert (X : forall e : rex, value (fun a => av (rename Some a)) e = value av e).
    { clear e. intros e. induction e as [a|k fs IH|l IH] using rex_ind2; cbn [Rep_Spec.value].
      - rewrite R. reflexivity.
      - f_equal. induction IH as [|x fs Hx _ IHf]; [reflexivity|]. cbn [fold_right]. rewrite Hx, IHf. reflexivity.
      - induction IH as [|x fs Hx _ IHf]; [reflexivity|]. cbn [fold_right]. rewrite Hx, IHf. reflexivity. }
    apply X.
  Qed.

  Lemma replacement_for_value (av : atom -> K) (target : atom) (repl : rex) (a : atom) f : valuation av -> flat repl ->
    length (slots_of a) = length (slots_of target) -> (exists l s, a = ATensor l s) \/ slots_of target = [] ->
    takes (slots_of target) (slots_of a) f ->
    exists r, replacement_for ieqb keqb kone kmul target repl a = ROk r /\ value av r = value (fun b => av (rename f b)) repl.
  Proof.
    intros HV F LE TA T. unfold replacement_for.
    destruct (index_mapping ieqb target repl) as [|p0 ps0] eqn:E.
    - eexists. split; [reflexivity|]. symmetry. apply value_rename_id. intros i Hi. apply (proj2 T). intros Hs.
      destruct target as [k|v|l ts]; cbn [slots_of] in Hs; try contradiction.
      apply In_nth_error in Hs. destruct Hs as (p & Hp).
      cbn [index_mapping] in E. assert (X : In p (mapping_from ieqb 0 ts (used repl))) by (apply mapping_spec; exists p, i; auto).
      rewrite E in X. destruct X.
    - destruct target as [k|v|l ts]; try discriminate. cbn [slots_of index_mapping] in *.
      assert (TA' : exists l' cs, a = ATensor l' cs).
      { destruct TA as [TA|TA]; [exact TA|]. subst ts. discriminate. }
      destruct TA' as (l' & cs & ->). cbn [slots_of] in *. rewrite (proj2 (Nat.eqb_eq _ _) LE). rewrite <- E.
      set (m := replacements ieqb ts cs (mapping_from ieqb 0 ts (used repl))).
      destruct (transform_expr_value av m kone repl HV F) as (r & Er & Q). exists r. split; [exact Er|]. rewrite Q.
      assert (Z : value (fun a => av (rename (as_fun m) a)) repl = value (fun b => av (rename f b)) repl).
      { apply value_rename_ext. intros i Hi. apply (replacements_spec ts cs f); [exact LE|exact T| |].
        - intros p Hp. apply mapping_spec in Hp. destruct Hp as (q & j & -> & H & _). apply nth_error_Some. cbn. rewrite H. discriminate.
        - intros Hs. apply In_nth_error in Hs. destruct Hs as (p & Hp). exists p. split; [|exact Hp]. apply mapping_spec. exists p, i. auto. }
      rewrite Z. ring.
  Qed.

  (** The visit. *)
  Lemma visit_value (av : atom -> K) (cmp : rex -> bool) (target : atom) (repl : rex) (g : atom -> K) : forall e : rex,
    (forall a, cmp (RAtom a) = true -> exists r, replacement_for ieqb keqb kone kmul target repl a = ROk r /\ value av r = g a) ->
    (forall a, e <> RAtom a) ->
    exists r, visit ieqb keqb kone kmul cmp target repl e = ROk r /\
      value av r = value (fun a => if cmp (RAtom a) then g a else av a) e.
  Proof.
    intros e H. set (each := fix each (l : list rex) : rout (list rex) :=
      match l with
      | [] => ROk []
      | RAtom a :: l' =>
          rbind (if cmp (RAtom a) then replacement_for ieqb keqb kone kmul target repl a else ROk (RAtom a))
                (fun y => rbind (each l') (fun r => ROk (y :: r)))
      | x :: l' => rbind (visit ieqb keqb kone kmul cmp target repl x) (fun y => rbind (each l') (fun r => ROk (y :: r)))
      end).
    set (av' := fun a => if cmp (RAtom a) then g a else av a).
    assert (EA : forall l, Forall (fun e : rex => (forall a, e <> RAtom a) -> exists r, visit ieqb keqb kone kmul cmp target repl e = ROk r /\ value av r = value av' e) l ->
      exists r, each l = ROk r /\ Forall2 (fun y x => value av y = value av' x) r l).
    { induction l as [|x l IH]; intros F; [exists []; split; [reflexivity|constructor]|]. inversion F as [|? ? Fx Fl]; subst.
      destruct (IH Fl) as (r & Er & Q).
      assert (X : exists y, (match x with RAtom a => (if cmp (RAtom a) then replacement_for ieqb keqb kone kmul target repl a else ROk (RAtom a))
                 | _ => visit ieqb keqb kone kmul cmp target repl x end) = ROk y /\ value av y = value av' x).
      { destruct x as [a|k fs|s]; [|apply Fx; discriminate..]. cbn [Rep_Spec.value]. unfold av'. destruct (cmp (RAtom a)) eqn:C.
        - destruct (H a C) as (y & Ey & Qy). exists y. split; assumption.
        - eexists. split; reflexivity. }
      destruct X as (y & Ey & Qy). exists (y :: r). split; [|constructor; assumption].
      destruct x; cbn [each]; fold each; rewrite Ey; cbn [rbind]; rewrite Er; reflexivity. }
    assert (PV : forall (op : K -> K -> K) z r l, Forall2 (fun y x => value av y = value av' x) r l ->
      fold_right (fun x r => op (value av x) r) z r = fold_right (fun x r => op (value av' x) r) z l).
    { intros op z r l Q. induction Q as [|y x r l Hy _ IHq]; [reflexivity|]. cbn [fold_right]. rewrite Hy, IHq. reflexivity. }
    induction e as [a|k fs IH|l IH] using rex_ind2; intros NA.
    - exfalso. apply (NA a). reflexivity.
    - destruct (EA fs IH) as (r & Er & Q). exists (RProd k r). split; [change (rbind (each fs) (fun r => ROk (RProd k r)) = ROk (RProd k r)); rewrite Er; reflexivity|].
      cbn [Rep_Spec.value]. f_equal. apply PV, Q.
    - destruct (EA l IH) as (r & Er & Q). exists (RSum r). split; [change (rbind (each l) (fun r => ROk (RSum r)) = ROk (RSum r)); rewrite Er; reflexivity|].
      cbn [Rep_Spec.value]. apply PV, Q.
  Qed.
End RepProofs.
