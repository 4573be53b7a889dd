(** * Properties of transforming and replacing *)
From Coq Require Import List Arith Bool Lia Ring ZArith.
From Verif Require Import Rep_Model Rep_Spec Rep_Proofs.
Import ListNotations.

Section RepProps.
  Context {I L V K : Type} (ieqb : I -> I -> bool) (keqb : K -> K -> bool) (kzero kone : K) (kadd kmul ksub : K -> K -> K) (kopp : K -> K).
  Context (kring : ring_theory kzero kone kadd kmul ksub kopp (@eq K)).
  Context (ieqb_spec : forall i j, ieqb i j = true <-> i = j).
  Context (keqb_spec : forall x y, keqb x y = true <-> x = y).
  Notation atom := (atom I L V K).
  Notation rex := (rex I L V K).
  Notation value := (value kzero kone kadd kmul).
  Notation transform_expr := (transform_expr ieqb keqb kone kmul).
  Notation replace := (replace ieqb keqb kone kmul).

  (** C152: the result is the scaled expression with the indices replaced all at once: those in the map by
      their images, the others by themselves. *)
  Theorem C152_value (av : atom -> K) (m : list (I * option I)) (f : I -> option I) (scale : K) (e : rex) : valuation av ->
    flat e -> NoDup (map fst m) -> (forall i x, In (i, x) m -> f i = x) -> (forall i, ~ In i (map fst m) -> f i = Some i) ->
    exists r, transform_expr m scale e = ROk r /\ value av r = kmul scale (value (fun a => av (rename f a)) e).
  Proof.
    intros HV F ND M1 M2. destruct (transform_expr_value ieqb keqb kzero kone kadd kmul ksub kopp kring keqb_spec av m scale e HV F) as (r & E & Q).
    exists r. split; [exact E|]. rewrite Q. f_equal. apply value_rename_ext. intros i _. unfold as_fun. clear -ieqb_spec ND M1 M2.
    assert (X : (exists x, find ieqb i m = Some x /\ In (i, x) m) \/ (find ieqb i m = None /\ ~ In i (map fst m))).
    { clear -ieqb_spec. induction m as [|(j, x) m IH]; [right; split; [reflexivity|intros []]|]. cbn.
      destruct (ieqb j i) eqn:E; [apply ieqb_spec in E; subst j; left; exists x; auto|].
      destruct IH as [(y & IH & H)|(IH & H)]; [left; exists y; auto|]. right. split; [exact IH|].
      intros [->|G]; [|tauto]. assert (ieqb i i = true) by (apply ieqb_spec; reflexivity). congruence. }
    destruct X as [(x & -> & H)|(-> & H)]; [symmetry; apply M1; exact H|symmetry; apply M2; exact H].
  Qed.

  (** It throws exactly if a product has a factor that is no atom. *)
  Theorem C152_throws (m : list (I * option I)) (scale : K) (e : rex) :
    (exists r, transform_expr m scale e = ROk r) <-> flat e.
  Proof.
    split; [intros (r & H); apply (transform_expr_ok_flat _ _ _ _ _ _ _ _ H)|]. intros F.
    destruct (transform_expr_value ieqb keqb kzero kone kadd kmul ksub kopp kring keqb_spec
                (fun a => match a with AConst k => k | _ => kzero end) m scale e (fun k => eq_refl) F) as (r & E & _).
    exists r. exact E.
  Qed.

  Lemma atom_or_not (e : rex) : (exists a, e = RAtom a) \/ forall a, e <> RAtom a.
  Proof. destruct e as [a| |]; [left; exists a; reflexivity|right; discriminate..]. Qed.

  (** C153: the value of the result is that of the expression in which every atom that matches is taken to be
      the replacement, with the indices of the target renamed to those of the match. [ren a] is that
      renaming. *)
  Theorem C153_value_partial (av : atom -> K) (cmp : rex -> bool) (target : atom) (replacement e : rex) (ren : atom -> I -> option I) :
    valuation av -> flat replacement -> cmp e = false ->
    (forall a, cmp (RAtom a) = true ->
       length (slots_of a) = length (slots_of target) /\ ((exists l s, a = ATensor l s) \/ slots_of target = []) /\
       takes (slots_of target) (slots_of a) (ren a)) ->
    exists r, replace cmp (RAtom target) replacement e = ROk r /\
      value av r = value (fun a => if cmp (RAtom a) then value (fun b => av (rename (ren a) b)) replacement else av a) e.
  Proof.
    intros HV F NC H. unfold Rep_Model.replace. rewrite NC.
    destruct (atom_or_not e) as [(a & ->)|NA]; [eexists; split; [reflexivity|]; cbn [Rep_Spec.value]; rewrite NC; reflexivity|].
    apply (visit_value ieqb keqb kzero kone kadd kmul av cmp target replacement (fun a => value (fun b => av (rename (ren a) b)) replacement) e); [|exact NA].
    intros a C. destruct (H a C) as (LE & TA & T).
    apply (replacement_for_value ieqb keqb kzero kone kadd kmul ksub kopp kring ieqb_spec keqb_spec av target replacement a (ren a) HV F LE TA T).
  Qed.

  (** With equality as comparison: every occurrence of the target has the value of the replacement, also if
      the whole expression is the target. *)
  Theorem C153_equality (av : atom -> K) (cmp : rex -> bool) (target : atom) (replacement e : rex) :
    valuation av -> flat replacement -> (forall x, cmp x = true <-> x = RAtom target) ->
    exists r, replace cmp (RAtom target) replacement e = ROk r /\
      value av r = value (fun a => if cmp (RAtom a) then value av replacement else av a) e.
  Proof.
    intros HV F C. unfold Rep_Model.replace. destruct (cmp e) eqn:E.
    - apply C in E. subst e. eexists. split; [reflexivity|]. cbn [Rep_Spec.value].
      assert (X : cmp (RAtom target) = true) by (apply C; reflexivity). rewrite X. reflexivity.
    - destruct (atom_or_not e) as [(a & ->)|NA]; [eexists; split; [reflexivity|]; cbn [Rep_Spec.value]; rewrite E; reflexivity|].
      apply (visit_value ieqb keqb kzero kone kadd kmul av cmp target replacement (fun _ => value av replacement) e).
      + intros a Ca. apply C in Ca. injection Ca as ->.
        assert (T : takes (slots_of target) (slots_of target) Some) by (split; [intros p i x H1 H2; congruence|reflexivity]).
        assert (TA : (exists l s, target = ATensor l s) \/ slots_of target = []) by (destruct target as [k|v|l s]; [right; reflexivity..|left; exists l, s; reflexivity]).
        destruct (replacement_for_value ieqb keqb kzero kone kadd kmul ksub kopp kring ieqb_spec keqb_spec av target replacement target Some HV F eq_refl TA T) as (r & Er & Q).
        exists r. split; [exact Er|]. rewrite Q. apply value_rename_id. reflexivity.
      + exact NA.
  Qed.

  (** An expression without a match is unchanged; composite targets are refused. *)
  Theorem C153_no_match (cmp : rex -> bool) (target : atom) (replacement e : rex) : (forall x, cmp x = false) ->
    replace cmp (RAtom target) replacement e = ROk e.
  Proof.
    intros C. unfold Rep_Model.replace. rewrite C. induction e as [a|k fs IH|l IH] using rex_ind2; [reflexivity|..]; cbn [visit].
    - match goal with |- rbind (?each fs) _ = _ => assert (H : each fs = ROk fs) end.
      { induction IH as [|x fs Hx _ IHf]; [reflexivity|]. destruct x; [rewrite C; cbn [rbind]|rewrite Hx; cbn [rbind]..]; rewrite IHf; reflexivity. }
      rewrite H. reflexivity.
    - match goal with |- rbind (?each l) _ = _ => assert (H : each l = ROk l) end.
      { induction IH as [|x fs Hx _ IHf]; [reflexivity|]. destruct x; [rewrite C; cbn [rbind]|rewrite Hx; cbn [rbind]..]; rewrite IHf; reflexivity. }
      rewrite H. reflexivity.
  Qed.

  Theorem C153_composite (cmp : rex -> bool) (target replacement e : rex) : (forall a, target <> RAtom a) ->
    replace cmp target replacement e = RThrow.
  Proof. intros H. destruct target as [a| |]; [exfalso; apply (H a); reflexivity|reflexivity..]. Qed.
End RepProps.

Module RepExamples.
  Local Open Scope Z_scope.
  Notation rexZ := (rex nat nat nat Z).
  Notation replaceZ := (replace (V := nat) Nat.eqb Z.eqb 1 Z.mul).
  (** t{1;2}, compared by label. *)
  Definition t (i j : nat) : atom nat nat nat Z := ATensor 0%nat [Some i; Some j].
  Definition r (i j : nat) : atom nat nat nat Z := ATensor 1%nat [Some i; Some j].
  Definition by_label (e : rexZ) : bool := match e with RAtom (ATensor l _) => Nat.eqb l 0 | _ => false end.
  Definition ren (a : atom nat nat nat Z) (i : nat) : option nat :=
    match i with 1%nat => nth 0 (slots_of a) None | 2%nat => nth 1 (slots_of a) None | _ => Some i end.

  (** The example of the documentation: t{1;2} -> r{1;5} in 7 t{3;4}. *)
  Theorem documentation : replaceZ by_label (RAtom (t 1 2)) (RAtom (r 1 5)) (RProd 7 [RAtom (t 3 4)]) = ROk (RProd 7 [RAtom (r 3 5)]).
  Proof. reflexivity. Qed.

  (** The renaming of C153 for these tensors. *)
  Theorem hypotheses_met : forall i j, takes (slots_of (t 1 2)) (slots_of (t i j)) (ren (t i j)).
  Proof.
    intros i j. split.
    - intros [|[|[|p]]] k x H1 H2; cbn in *; try discriminate; injection H1 as <-; injection H2 as <-; reflexivity.
    - intros k N. destruct k as [|[|[|k]]]; try reflexivity; exfalso; apply N; cbn; tauto.
  Qed.

  (** An expression that is itself the match gets the replacement with the indices of the target: t{3;4} becomes
      r{1;5} and not r{3;5}. *)
  Theorem C153_root_refuted :
    replaceZ by_label (RAtom (t 1 2)) (RAtom (r 1 5)) (RAtom (t 3 4)) = ROk (RAtom (r 1 5)) /\
    rename (ren (t 3 4)) (r 1 5) = r 3 5.
  Proof. split; reflexivity. Qed.

  (** A replacement with a sum in a product is refused if it shares an index with the target, even if the
      target itself is the match; it is accepted if it shares none, or if the whole expression matches. *)
  Definition nested (i : nat) : rexZ := RProd 1 [RAtom (r i 5); RSum [RAtom (AVar 0%nat); RAtom (AVar 1%nat)]].
  Theorem C153_nested_refuted :
    replaceZ by_label (RAtom (t 1 2)) (nested 1) (RProd 7 [RAtom (t 1 2)]) = RThrow /\
    replaceZ by_label (RAtom (t 1 2)) (nested 6) (RProd 7 [RAtom (t 1 2)]) = ROk (RProd 7 [nested 6]) /\
    replaceZ by_label (RAtom (t 1 2)) (nested 1) (RAtom (t 1 2)) = ROk (nested 1).
  Proof. repeat split; reflexivity. Qed.
End RepExamples.
