(** * Proofs about removing tensors and transforming expressions *)
From Coq Require Import List Bool Arith Lia QArith Qcanon.
From Verif Require Import Num_Model Num_Proofs1 Pop_Model Pop_Spec.
Import ListNotations.
Local Open Scope nat_scope.

Section ExprInd.
  Variable P : expr -> Prop.
  Hypothesis H1 : forall t, P (ETensor t).
  Hypothesis H2 : forall c, P (EConst c).
  Hypothesis H2' : forall v, P (EVar v).
  Hypothesis H3 : forall c fs, Forall P fs -> P (EProd c fs).
  Hypothesis H4 : forall fs, Forall P fs -> P (ESum fs).
  Fixpoint expr_ind' (e : expr) : P e :=
    match e with
    | ETensor t => H1 t
    | EConst c => H2 c
    | EVar v => H2' v
    | EProd c fs => H3 c fs ((fix go fs : Forall P fs :=
        match fs with [] => Forall_nil _ | f :: fs' => Forall_cons _ (expr_ind' f) (go fs') end) fs)
    | ESum fs => H4 fs ((fix go fs : Forall P fs :=
        match fs with [] => Forall_nil _ | f :: fs' => Forall_cons _ (expr_ind' f) (go fs') end) fs)
    end.
End ExprInd.

Lemma c_eqb_true : forall a b, c_eqb a b = true -> a = b.
Proof.
  intros a b E. unfold c_eqb, qeqb in E. apply c_eq; destruct (Qc_eq_dec (re a) (re b)), (Qc_eq_dec (im a) (im b)); cbn in E; congruence.
Qed.
Lemma is_zero_true : forall c, c_is_zero c = true -> c = c0.
Proof. intros c E. apply c_eqb_true. exact E. Qed.
Lemma is_identity_true : forall c, c_is_identity c = true -> c = c1.
Proof. intros c E. apply c_eqb_true. exact E. Qed.

Lemma list_eqb_refl : forall a, list_eqb a a = true.
Proof. induction a; cbn; [reflexivity|]. now rewrite Nat.eqb_refl. Qed.
Lemma tensor_eqb_refl : forall a, tensor_eqb a a = true.
Proof. intros a. unfold tensor_eqb. now rewrite Nat.eqb_refl, list_eqb_refl. Qed.

Section V.
  Variable rho : nat -> list nat -> cplx.
  Variable sigma : nat -> cplx.
  Notation val := (val rho sigma).
  Notation vals l := (map val l).

  Lemma total_app : forall a b, total (a ++ b) = c_add (total a) (total b).
  Proof. unfold total. induction a as [|x a IH]; intros b; cbn [app fold_right]; [ring|]. rewrite IH. ring. Qed.
  Lemma prod_app : forall a b, prod (a ++ b) = c_mul (prod a) (prod b).
  Proof. unfold prod. induction a as [|x a IH]; intros b; cbn [app fold_right]; [ring|]. rewrite IH. ring. Qed.

  Lemma is_zero_val : forall e, is_zero e = true -> val e = c0.
  Proof. destruct e; cbn; intros E; try discriminate; rewrite (is_zero_true _ E); [reflexivity|ring]. Qed.

  Lemma add_const_val : forall acc c, total (vals (add_const acc c)) = c_add (total (vals acc)) c.
  Proof.
    unfold total. induction acc as [|x acc IH]; intros c; [cbn [add_const map fold_right Pop_Spec.val]; ring|].
    destruct x; cbn [add_const map fold_right Pop_Spec.val]; try rewrite IH; ring.
  Qed.

  Fixpoint sum_append_list (acc ts : list expr) : list expr :=
    match ts with [] => acc | x :: r => sum_append_list (sum_append acc x) r end.
  Lemma sum_append_sum : forall acc ts, sum_append acc (ESum ts) = sum_append_list acc ts.
  Proof. intros acc ts. cbn [sum_append]. revert acc. induction ts as [|x ts IH]; intros acc; cbn; auto. Qed.

  Lemma sum_append_val : forall e acc, total (vals (sum_append acc e)) = c_add (total (vals acc)) (val e).
  Proof.
    induction e as [t|c|v|c fs IH|ts IH] using expr_ind'; intros acc.
    - cbn [sum_append is_zero]. rewrite map_app, total_app. unfold total. cbn [map fold_right]. ring.
    - cbn [sum_append]. destruct (c_is_zero c) eqn:Z; [|apply add_const_val]. apply is_zero_true in Z. cbn [Pop_Spec.val]. rewrite Z. ring.
    - cbn [sum_append is_zero]. rewrite map_app, total_app. unfold total. cbn [map fold_right]. ring.
    - unfold sum_append. destruct (is_zero (EProd c fs)) eqn:Z.
      + rewrite (is_zero_val _ Z). ring.
      + rewrite map_app, total_app. unfold total. cbn [map fold_right]. ring.
    - rewrite sum_append_sum. cbn [Pop_Spec.val]. revert acc. induction IH as [|x ts H _ IHl]; intros acc; cbn [sum_append_list].
      + unfold total. cbn [map fold_right]. ring.
      + rewrite IHl, H. unfold total. cbn [map fold_right]. ring.
  Qed.

  (** ** pop *)
  Fixpoint pop_summands (l : nat) (ts acc : list expr) (tn : option tensor) : option (option tensor * expr) :=
    match ts with
    | [] => Some (tn, ESum acc)
    | x :: r =>
        match pop l x with
        | None => None
        | Some (p, x') =>
            let tn' := first_of tn p in
            if opt_eqb tn' p then pop_summands l r (sum_append acc x') tn' else None
        end
    end.
  Lemma pop_sum : forall l ts, pop l (ESum ts) = pop_summands l ts [] None.
  Proof.
    intros l ts. cbn [pop]. generalize (@nil expr) as acc. generalize (@None tensor) as tn.
    induction ts as [|x ts IH]; intros tn acc; cbn [pop_summands]; [reflexivity|].
    destruct (pop l x) as [[p x']|]; [|reflexivity]. cbv zeta. destruct (opt_eqb (first_of tn p) p); [apply IH|reflexivity].
  Qed.

  Definition finish (s : cplx) (acc : list expr) : expr :=
    match acc with [] => EConst c0 | [f] => if c_is_identity s then f else EProd s acc | _ => EProd s acc end.
  Fixpoint pop_factors (l : nat) (fs : list expr) (s : cplx) (acc : list expr) (tn : option tensor) : option (option tensor * expr) :=
    match fs with
    | [] => Some (tn, finish s acc)
    | x :: r =>
        match pop l x with
        | None => None
        | Some (p, x') =>
            let tn' := first_of tn p in
            if match p with None => true | Some _ => opt_eqb tn' p end
            then if is_zero_const x' then pop_factors l r s acc tn'
                 else let '(s', acc') := prod_append s acc x' in pop_factors l r s' acc' tn'
            else None
        end
    end.
  Lemma pop_prod : forall l c fs, pop l (EProd c fs) = pop_factors l fs c [] None.
  Proof.
    intros l c fs. cbn [pop]. generalize (@nil expr) as acc. generalize (@None tensor) as tn. revert c.
    induction fs as [|x fs IH]; intros s tn acc; cbn [pop_factors]; [reflexivity|].
    destruct (pop l x) as [[p x']|]; [|reflexivity]. cbv zeta.
    destruct (match p with None => true | Some _ => opt_eqb (first_of tn p) p end); [|reflexivity].
    destruct (is_zero_const x'); [apply IH|]. destruct (prod_append s acc x') as [s' acc']. apply IH.
  Qed.

  Lemma finish_val : forall s acc, acc <> [] -> val (finish s acc) = c_mul s (prod (vals acc)).
  Proof.
    intros s acc N. unfold finish. destruct acc as [|f [|g r]]; [congruence| |reflexivity].
    destruct (c_is_identity s) eqn:I; [|reflexivity]. apply is_identity_true in I. rewrite I. unfold prod. cbn [map fold_right]. ring.
  Qed.
  Lemma finish_nonconst : forall s acc, acc <> [] -> Forall (fun e => is_const e = false) acc -> is_const (finish s acc) = false.
  Proof.
    intros s acc N F. unfold finish. destruct acc as [|f [|g r]]; [congruence| |reflexivity].
    destruct (c_is_identity s); [|reflexivity]. now inversion F.
  Qed.

  Lemma all_and : forall A (P : A -> Prop) l, fold_right and True (map P l) <-> Forall P l.
  Proof.
    intros A P. induction l as [|x l IH]; cbn; [split; constructor|]. rewrite IH. split; [intros [? ?]; now constructor|].
    intros H. inversion H; now split.
  Qed.

  (** The outcome for an expression without the label. *)
  Definition unchanged (l : nat) (e : expr) : Prop :=
    exists e', pop l e = Some (None, e') /\ val e' = val e /\ (is_const e = false -> is_const e' = false) /\ absent l e'.

  Lemma sum_append_absent : forall l e acc, Forall (absent l) acc -> absent l e -> Forall (absent l) (sum_append acc e).
  Proof.
    intros l. induction e as [t|c|v|c fs IH|ts IH] using expr_ind'; intros acc HA HE.
    - cbn [sum_append is_zero]. apply Forall_app. split; auto.
    - cbn [sum_append]. destruct (c_is_zero c); [exact HA|]. clear HE. induction HA as [|x acc H HA IHc]; cbn [add_const]; [repeat constructor|].
      destruct x; try (constructor; auto).
    - cbn [sum_append is_zero]. apply Forall_app. split; auto.
    - unfold sum_append. destruct (is_zero _); [exact HA|]. apply Forall_app. split; auto.
    - rewrite sum_append_sum. cbn [absent] in HE. apply all_and in HE. revert acc HA.
      induction IH as [|x ts H _ IHl]; intros acc HA; cbn [sum_append_list]; [exact HA|].
      inversion HE as [|? ? E1 E2]; subst. apply IHl; auto.
  Qed.

  Lemma pop_factors_absent : forall l fs rest s acc tn, Forall (unchanged l) fs -> Forall (fun f => is_const f = false) fs ->
    exists gs, pop_factors l (fs ++ rest) s acc tn = pop_factors l rest s (acc ++ gs) tn /\
      prod (vals gs) = prod (vals fs) /\ List.length gs = List.length fs /\ Forall (fun f => is_const f = false) gs /\ Forall (absent l) gs.
  Proof.
    intros l fs rest s acc tn U C. revert acc. induction fs as [|f fs IH]; intros acc; cbn [app].
    - exists []. rewrite app_nil_r. repeat split; constructor.
    - inversion U as [|? ? (f' & P & V & K & A) U']; subst. inversion C as [|? ? Cf C']; subst.
      destruct (IH U' C' (acc ++ [f'])) as (gs & E & EV & L & NC & AB). exists (f' :: gs). specialize (K Cf).
      cbn [pop_factors]. rewrite P. cbn [first_of]. replace (first_of tn None) with tn by (destruct tn; reflexivity). cbv zeta.
      assert (Z : is_zero_const f' = false) by (destruct f'; try reflexivity; discriminate). rewrite Z.
      assert (PA : prod_append s acc f' = (s, acc ++ [f'])) by (destruct f'; try reflexivity; discriminate). rewrite PA.
      rewrite E, <- app_assoc. split; [reflexivity|]. split; [unfold prod in *; cbn [map fold_right]; now rewrite EV, V|].
      split; [cbn; now rewrite L|]. split; constructor; auto.
  Qed.

  Lemma finish_absent : forall l s acc, Forall (absent l) acc -> absent l (finish s acc).
  Proof.
    intros l s acc F. unfold finish. destruct acc as [|f [|g r]]; [exact Logic.I| |cbn [absent]; now apply all_and].
    destruct (c_is_identity s); [now inversion F|]. cbn [absent]. now apply all_and.
  Qed.

  Lemma pop_absent : forall l e, normal e -> absent l e -> unchanged l e.
  Proof.
    intros l. induction e as [t|c|v|c fs IH|ts IH] using expr_ind'; intros N A.
    - cbn in A. exists (ETensor t). cbn [pop]. destruct (Nat.eqb_spec (t_label t) l); [contradiction|]. repeat split; auto.
    - exists (EConst c). repeat split; auto.
    - exists (EVar v). repeat split; auto.
    - cbn [normal absent] in N, A. destruct N as [NE N]. apply all_and in A. apply all_and in N.
      assert (U : Forall (unchanged l) fs).
      { apply Forall_forall. intros f I. rewrite Forall_forall in IH, N, A. apply IH; auto. now apply N. }
      assert (C : Forall (fun f => is_const f = false) fs).
      { apply Forall_forall. intros f I. rewrite Forall_forall in N. now apply N. }
      destruct (pop_factors_absent l fs [] c [] None U C) as (gs & E & V & L & NC & AB).
      rewrite app_nil_r in E. exists (finish c gs). rewrite pop_prod, E. cbn [app pop_factors].
      assert (G : gs <> []) by (intros ->; destruct fs; [congruence|discriminate]).
      split; [reflexivity|]. split; [rewrite finish_val by exact G; cbn [Pop_Spec.val]; now rewrite V|].
      split; [intros _; now apply finish_nonconst|now apply finish_absent].
    - cbn [normal absent] in N, A. apply all_and in A. apply all_and in N.
      assert (G : forall acc, Forall (absent l) acc -> exists ts', pop_summands l ts acc None = Some (None, ESum ts') /\
        total (vals ts') = c_add (total (vals acc)) (total (vals ts)) /\ Forall (absent l) ts').
      { induction IH as [|x ts H _ IHl]; intros acc HA; cbn [pop_summands].
        - exists acc. split; [reflexivity|]. split; [unfold total; cbn [map fold_right]; ring|exact HA].
        - inversion N as [|? ? N1 N2]; inversion A as [|? ? A1 A2]; subst.
          destruct (H N1 A1) as (x' & P & V & _ & AX). rewrite P. cbn [first_of opt_eqb].
          destruct (IHl N2 A2 (sum_append acc x')) as (ts' & E & EV & AT); [now apply sum_append_absent|].
          exists ts'. split; [exact E|]. split; [|exact AT]. rewrite EV, sum_append_val, V. unfold total. cbn [map fold_right]. ring. }
      destruct (G [] (Forall_nil _)) as (ts' & E & V & AT). exists (ESum ts'). rewrite pop_sum, E.
      split; [reflexivity|]. split; [cbn [Pop_Spec.val]; rewrite V; unfold total; cbn [map fold_right]; ring|].
      split; [reflexivity|]. cbn [absent]. now apply all_and.
  Qed.

  Scheme carries_mut := Minimality for carries Sort Prop
  with all_carry_mut := Minimality for all_carry Sort Prop.

  Definition popped (t : tensor) (e : expr) : Prop :=
    exists e', pop (t_label t) e = Some (Some t, e') /\ val e = c_mul (val (ETensor t)) (val e') /\
      is_const e' = false /\ absent (t_label t) e'.

  Lemma middle : forall (P : expr -> Prop) f1 f f2, Forall P (f1 ++ f :: f2) -> Forall P f1 /\ P f /\ Forall P f2.
  Proof. intros P f1 f f2 H. apply Forall_app in H. destruct H as [H1 H]. inversion H; auto. Qed.

  Lemma absent_factors : forall l fs, Forall (absent l) fs -> Forall (fun f => is_const f = false /\ normal f) fs ->
    Forall (unchanged l) fs /\ Forall (fun f => is_const f = false) fs.
  Proof.
    intros l fs A N. rewrite Forall_forall in A, N. split; apply Forall_forall; intros f I.
    - apply pop_absent; [now apply N|now apply A].
    - now apply N.
  Qed.

  Theorem pop_carries : forall t e, carries t e -> normal e -> popped t e.
  Proof.
    intros t. apply (carries_mut t (fun e => normal e -> popped t e)
      (fun ts => Forall normal ts -> forall acc tn, (tn = None -> ts <> []) -> (tn = None \/ tn = Some t) -> Forall (absent (t_label t)) acc ->
         exists ts', pop_summands (t_label t) ts acc tn = Some (Some t, ESum ts') /\
           exists w, total (vals ts) = c_mul (val (ETensor t)) w /\ total (vals ts') = c_add (total (vals acc)) w /\ Forall (absent (t_label t)) ts')).
    - intros ts NE _ IH N. cbn [normal] in N. apply all_and in N.
      destruct (IH N [] None ltac:(auto) (or_introl Logic.eq_refl) (Forall_nil _)) as (ts' & E & w & V & V' & AB).
      exists (ESum ts'). rewrite pop_sum, E. split; [reflexivity|]. split.
      { cbn [Pop_Spec.val]. rewrite V, V'. unfold total. cbn [map fold_right]. ring_simplify. cbn [Pop_Spec.val]. ring. }
      split; [reflexivity|]. cbn [absent]. now apply all_and.
    - intros c f1 f2 NE A N. cbn [normal] in N. destruct N as [_ N]. apply all_and in N.
      apply middle in N. destruct N as (N1 & _ & N2). apply Forall_app in A. destruct A as [A1 A2].
      destruct (absent_factors _ _ A1 N1) as [U1 C1]. destruct (absent_factors _ _ A2 N2) as [U2 C2].
      destruct (pop_factors_absent _ f1 (ETensor t :: f2) c [] None U1 C1) as (g1 & E1 & V1 & L1 & NC1 & AB1).
      destruct (pop_factors_absent _ f2 [] c g1 (Some t) U2 C2) as (g2 & E2 & V2 & L2 & NC2 & AB2).
      rewrite app_nil_r in E2. cbn [app] in E1.
      exists (finish c (g1 ++ g2)). rewrite pop_prod, E1. cbn [pop_factors pop]. rewrite Nat.eqb_refl. cbn [first_of opt_eqb]. cbv zeta.
      rewrite tensor_eqb_refl. cbn [is_zero_const]. assert (Z : c_is_zero c0 = true) by reflexivity. rewrite Z, E2. cbn [pop_factors].
      assert (G : g1 ++ g2 <> []).
      { intros X. apply app_eq_nil in X. destruct X as [-> ->]. apply NE. destruct f1; [|discriminate]. destruct f2; [reflexivity|discriminate]. }
      split; [reflexivity|]. split.
      { rewrite finish_val by exact G. cbn [Pop_Spec.val]. rewrite !map_app, !prod_app, V1, V2. unfold prod. cbn [map fold_right Pop_Spec.val]. ring. }
      split; [apply finish_nonconst; [exact G|now apply Forall_app]|apply finish_absent; now apply Forall_app].
    - intros c f1 f f2 _ IH A N. cbn [normal] in N. destruct N as [_ N]. apply all_and in N.
      apply middle in N. destruct N as (N1 & [_ Nf] & N2). apply Forall_app in A. destruct A as [A1 A2].
      destruct (absent_factors _ _ A1 N1) as [U1 C1]. destruct (absent_factors _ _ A2 N2) as [U2 C2].
      destruct (IH Nf) as (f' & P & V & K & AB).
      destruct (pop_factors_absent _ f1 (f :: f2) c [] None U1 C1) as (g1 & E1 & V1 & L1 & NC1 & AB1).
      destruct (pop_factors_absent _ f2 [] c (g1 ++ [f']) (Some t) U2 C2) as (g2 & E2 & V2 & L2 & NC2 & AB2).
      rewrite app_nil_r in E2. cbn [app] in E1.
      exists (finish c ((g1 ++ [f']) ++ g2)). rewrite pop_prod, E1. cbn [pop_factors]. rewrite P. cbn [first_of opt_eqb]. cbv zeta.
      rewrite tensor_eqb_refl. assert (Z : is_zero_const f' = false) by (destruct f'; try reflexivity; discriminate).
      assert (PA : prod_append c g1 f' = (c, g1 ++ [f'])) by (destruct f'; try reflexivity; discriminate). rewrite Z, PA, E2. cbn [pop_factors].
      assert (G : (g1 ++ [f']) ++ g2 <> []) by (destruct g1; discriminate).
      split; [reflexivity|]. split.
      { rewrite finish_val by exact G. cbn [Pop_Spec.val] in *. rewrite !map_app, !prod_app, V1, V2. unfold prod. cbn [map fold_right]. rewrite V. ring. }
      split; [apply finish_nonconst; [exact G|apply Forall_app; split; [apply Forall_app; split; auto|exact NC2]]|].
      apply finish_absent. apply Forall_app; split; [apply Forall_app; split; auto|exact AB2].
    - intros _ acc tn H D HA. destruct D as [->| ->]; [exfalso; now apply H|]. exists acc. split; [reflexivity|]. exists c0.
      split; [unfold total; cbn [map fold_right]; ring|]. split; [ring|exact HA].
    - intros e ts _ IHe _ IHts N acc tn _ D HA. inversion N as [|? ? N1 N2]; subst. destruct (IHe N1) as (e' & P & V & _ & AB).
      cbn [pop_summands]. rewrite P. assert (F : first_of tn (Some t) = Some t) by (destruct D as [->| ->]; reflexivity).
      rewrite F. cbn [opt_eqb]. rewrite tensor_eqb_refl.
      destruct (IHts N2 (sum_append acc e') (Some t) ltac:(discriminate) (or_intror Logic.eq_refl)) as (ts' & E & w & W1 & W2 & AT);
        [now apply sum_append_absent|].
      exists ts'. split; [exact E|]. exists (c_add (val e') w). split; [|split; [|exact AT]].
      + unfold total in *. cbn [map fold_right]. rewrite V, W1. ring.
      + rewrite W2, sum_append_val. ring.
  Qed.
End V.
