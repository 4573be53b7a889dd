(** Lemmas for the canonicalization of sums: sums that are the same become equal. *)
From Coq Require Import ZArith List Arith Bool Permutation Lia Ring.
From Verif Require Import Alg_Spec Tsr_Model Tsr_Spec Tsr_Proofs1 Tsr_Proofs5 Tsr_Props Net_Model Net_Spec Net_Spec2 Net_Proofs1 Net_Proofs3 Net_Proofs4 Net_Proofs9 Net_Props Net_Props2 Net_Props3 Can_Model Can_Spec Can_Proofs1.
Import ListNotations.
Open Scope nat_scope.

Lemma factor_eq_dec (f g : factor) : {f = g} + {f <> g}.
Proof.
  assert (T : forall t u : tensor, {t = u} + {t <> u}).
  { intros t u. decide equality; try (apply Nat.eq_dec); try (apply list_eq_dec; apply index_eq_dec); try (decide equality; fail). apply list_eq_dec, Z.eq_dec. }
  decide equality. destruct v as (a, b), v0 as (c, d). destruct (list_eq_dec Z.eq_dec a c), (bool_dec b d); [left; congruence|right; congruence|right; congruence|right; congruence].
Qed.
Definition factors_eq_dec : forall fs gs : list factor, {fs = gs} + {fs <> gs} := list_eq_dec factor_eq_dec.

Section Complete.
  Context {K : cring}.
  Add Ring Kring25 : (rring K).
  Variable is_zero : K -> bool.
  Hypothesis is_zero_ok : forall x, is_zero x = true <-> x = r0.
  Variable bliss : graph -> vtx -> nat.
  Hypothesis bliss_ok : canonical_labelling bliss.
  Variable sort : list index -> list index.
  Variable hash : list index -> Z.
  Variable labels : list (list Z).
  Variable vhash : variable -> Z.
  Variable shash : summand K -> Z.
  Variable iter : list (summand K) -> list (summand K).
  Hypothesis iter_ok : forall l, Permutation (iter l) l.

  Variable S : space -> Prop.
  Variable opts : options.
  Variable U : variable -> Prop.
  Hypothesis vhash_ok : forall v w, U v -> U w -> vhash v = vhash w -> v = w.
  Notation given := (o_named opts).
  Notation okay := (okay S opts).

  Definition lasting (N : list tensor) : Prop := Forall orientable N /\ ~ equivalent (named_indices given N) N N true.
  Lemma same_named N M s : equivalent (named_indices given N) N M s -> forall i, In i (named_indices given N) <-> In i (named_indices given M).
  Proof. unfold named_indices. destruct given; [tauto|]. apply equivalent_externals. Qed.
  Lemma lasting_invariant N M s : okay N -> okay M -> equivalent (named_indices given N) N M s -> lasting N -> lasting M.
  Proof.
    intros _ _ E (O & A). split.
    - apply (equivalent_kind (fun sy bk c => c = ColNonsymm -> sy = Nonsymm /\ bk <> BKSymm) _ _ _ _ E). auto.
    - intros X. apply A. apply (equivalent_ext _ (named_indices given N)) in X; [|intros i; symmetry; apply (same_named N M s E)].
      replace true with (xorb s (xorb true s)) by (destruct s; auto). eapply eqv_trans; [exact E|]. eapply eqv_trans; [exact X|]. apply eqv_sym. auto.
  Qed.
  Notation fine := (fine (K := K) S opts lasting U False).
  Notation same := (same_sum (K := K) given fine).

  (** The canonical form of a network and of a term. *)
  Definition form (N : list tensor) : list tensor * bool :=
    match N with
    | [] => ([], false)
    | _ => match canonicalize bliss sort hash labels (deep_options opts) N with Some (M, _, s) => (M, s) | None => ([], false) end
    end.
  Definition key (fs : list factor) : list factor := map FVar (sort_vars vhash (vars fs)) ++ map FTen (fst (form (tensors fs))).
  Definition sgn (fs : list factor) : bool := snd (form (tensors fs)).

  Lemma canon_form (c : K) fs : okay (tensors fs) ->
    canon_product bliss sort hash labels vhash (deep_options opts) c fs = Some (signed (sgn fs) c, key fs).
  Proof.
    intros O. unfold canon_product, key, sgn, form. destruct (tensors fs) as [|t ts] eqn:T.
    - cbn. rewrite app_nil_r. auto.
    - rewrite <- T in *. assert (N0 : tensors fs <> []) by congruence.
      destruct (C86_total S bliss sort hash labels (deep_options opts) (tensors fs)) as (M & ords & s & E); [apply (okay_valid S opts); auto|].
      rewrite E. cbn [fst snd]. rewrite signed_mul. auto.
  Qed.
  Lemma equivalent_length named N M s : equivalent named N M s -> length N = length M.
  Proof. intros Eq. induction Eq; cbn; auto; try congruence. apply Permutation_length; auto. symmetry. apply map_length. Qed.
  Lemma form_same N M s : okay N -> okay M -> lasting N -> equivalent (named_indices given N) N M s ->
    fst (form N) = fst (form M) /\ s = xorb (snd (form N)) (snd (form M)).
  Proof.
    intros O O' (Or & A) Eq. pose proof (equivalent_length _ _ _ _ Eq) as L. destruct N as [|t N], M as [|u M]; try discriminate.
    - cbn. split; auto. destruct s; auto. contradiction.
    - assert (N0 : t :: N <> []) by discriminate. assert (M0 : u :: M <> []) by discriminate. unfold form.
      remember (t :: N) as N1. remember (u :: M) as M1.
      destruct (C86_same_form S bliss sort hash labels (deep_options opts) N1 M1 s bliss_ok) as (R & ords & a & b & E1 & E2 & X); auto; try (apply (okay_valid S opts); auto).
      subst. rewrite E1, E2. cbn [fst snd]. split; auto. destruct X as [X|X]; auto. contradiction.
  Qed.
  Lemma key_same fs gs s : Forall U (vars fs) -> okay (tensors fs) -> okay (tensors gs) -> lasting (tensors fs) ->
    Permutation (vars fs) (vars gs) -> equivalent (named_indices given (tensors fs)) (tensors fs) (tensors gs) s ->
    key fs = key gs /\ s = xorb (sgn fs) (sgn gs).
  Proof.
    intros Fu O O' La Pv Eq. destruct (form_same _ _ _ O O' La Eq) as (A & B). split; auto. unfold key. rewrite A. f_equal. f_equal.
    unfold sort_vars. apply sort_perm; auto. rewrite Forall_forall in Fu. intros x y X Y. apply vhash_ok; auto.
  Qed.
  Lemma app_split (vs ws : list variable) (N M : list tensor) : map FVar vs ++ map FTen N = map FVar ws ++ map FTen M -> vs = ws /\ N = M.
  Proof.
    intros E. split; [rewrite <- (vars_canon vs N), E; apply vars_canon|rewrite <- (tensors_canon vs N), E; apply tensors_canon].
  Qed.
  Lemma key_back fs gs : okay (tensors fs) -> okay (tensors gs) -> key fs = key gs ->
    Permutation (vars fs) (vars gs) /\ exists s, equivalent (named_indices given (tensors fs)) (tensors fs) (tensors gs) s.
  Proof.
    intros O O' E. apply app_split in E. destruct E as (E1 & E2). split.
    - eapply perm_trans; [apply (stable_perm (fun a b => (vhash a <? vhash b)%Z))|]. fold (sort_vars vhash (vars fs)). rewrite E1.
      apply Permutation_sym, (stable_perm (fun a b => (vhash a <? vhash b)%Z)).
    - assert (G : forall N, okay N -> equivalent (named_indices given N) N (fst (form N)) (snd (form N))).
      { intros N ON. unfold form. destruct N as [|t N]; [apply eqv_refl|]. assert (N0 : t :: N <> []) by discriminate. remember (t :: N) as N1.
        destruct (C86_total S bliss sort hash labels (deep_options opts) N1) as (M & ords & s & X); [apply (okay_valid S opts); auto|]. subst. rewrite X.
        apply (okay_canonical bliss sort hash labels S opts (deep_options opts) _ _ _ _ ON N0 eq_refl X). }
      pose proof (G _ O) as A. pose proof (G _ O') as B. rewrite <- E2 in B. eexists. eapply eqv_trans; [exact A|].
      apply eqv_sym. eapply equivalent_ext; [|exact B]. intros i. rewrite (same_named _ _ _ B i), (same_named _ _ _ A i). tauto.
  Qed.

  (** The coefficient of a canonical form in a sum. *)
  Definition coeff (key : list factor -> list factor) (sgn : list factor -> bool) (g : list factor) (l : list (summand K)) : K :=
    fold_right (fun x a => match x with SProd c fs => if factors_eq_dec (key fs) g then radd (signed (sgn fs) c) a else a | STen _ => a end) r0 l.
  Lemma coeff_perm k s g l m : Permutation l m -> coeff k s g l = coeff k s g m.
  Proof.
    induction 1 as [|x l m P IH|x y l|l m n P1 IH1 P2 IH2]; auto; unfold coeff in *; cbn [fold_right].
    - rewrite IH. auto.
    - destruct x as [c fs|t], y as [d gs|u]; auto; repeat destruct (factors_eq_dec _ g); auto; ring.
    - congruence.
  Qed.
  Lemma coeff_same g l m : same l m -> Forall fine l -> Forall fine m -> coeff key sgn g l = coeff key sgn g m.
  Proof.
    intros H. induction H as [l|l m H IH|l m n F H1 IH1 H2 IH2|l m H|c fs gs s l Hv He|c d fs l|fs l|t l]; intros A B; auto.
    - symmetry. auto.
    - rewrite IH1; auto.
    - apply coeff_perm. auto.
    - inversion A as [|? ? A1 A2]; inversion B as [|? ? B1 B2]; subst. destruct A1 as (Au & Ao & Al), B1 as (_ & Bo & _).
      destruct (key_same fs gs s) as (E & X); auto. unfold coeff. cbn [fold_right]. rewrite E. destruct (factors_eq_dec (key gs) g); auto. f_equal.
      rewrite X. destruct (sgn fs), (sgn gs); cbn; ring.
    - unfold coeff. cbn [fold_right]. destruct (factors_eq_dec (key fs) g); auto. destruct (sgn fs); cbn; ring.
    - unfold coeff. cbn [fold_right]. destruct (factors_eq_dec (key fs) g); auto. destruct (sgn fs); cbn; ring.
    - inversion A as [|? ? A1 A2]. destruct A1. contradiction.
  Qed.

  (** What collecting does to products. *)
  Definition facs (x : summand K) : list factor := match x with SProd _ fs => fs | STen t => [FTen t] end.
  Notation own := (coeff (fun fs => fs) (fun _ => false)).
  Lemma fine_prod x : fine x -> exists c fs, x = SProd c fs.
  Proof. destruct x as [c fs|t]; [eauto|]. intros (F & _). contradiction. Qed.
  Lemma proportional_facs x y : fine x -> fine y -> (proportional x y = true <-> facs x = facs y).
  Proof.
    intros X Y. destruct (fine_prod x X) as (c & fs & ->). destruct (fine_prod y Y) as (d & gs & ->). cbn [facs].
    assert (E : proportional (SProd c fs) (SProd d gs) = factors_eqb fs gs) by (destruct fs as [|? [|]]; auto). rewrite E.
    split; [apply (factors_eq_plain S); apply (okay_proper S opts); [apply X|apply Y]|]. intros ->. apply factors_eqb_refl.
  Qed.
  Lemma accumulate_facs acc x : fine x -> Forall fine acc -> NoDup (map facs acc) ->
    NoDup (map facs (accumulate acc x)) /\ Forall fine (accumulate acc x) /\ (forall g, own g (accumulate acc x) = own g (x :: acc)) /\
    (forall g, In g (map facs (accumulate acc x)) <-> g = facs x \/ In g (map facs acc)).
  Proof.
    intros X. induction acc as [|y acc IH]; intros F N; cbn [accumulate].
    - split; [cbn; repeat constructor; auto|]. split; [auto|]. split; [auto|]. intros g. cbn. intuition.
    - inversion F as [|? ? Fy Fa]; subst. cbn [map] in N. inversion N as [|? ? N1 N2]; subst. destruct (proportional y x) eqn:E.
      + apply proportional_facs in E; auto. destruct (fine_prod x X) as (c & fs & ->). destruct (fine_prod y Fy) as (d & gs & ->). cbn [facs] in E. subst gs.
        cbn [merge map facs]. split; [auto|]. split; [constructor; auto|]. split.
        * intros g. unfold coeff. cbn [fold_right signed]. destruct (factors_eq_dec fs g); auto. ring.
        * intros g. cbn. intuition.
      + destruct IH as (A & B & C & D); auto. cbn [map]. split.
        * constructor; auto. rewrite D. intros [H|H]; auto. assert (Z : proportional y x = true) by (apply proportional_facs; auto). congruence.
        * split; [auto|]. split.
          -- intros g. pose proof (C g) as Cg. unfold coeff in *. cbn [fold_right] in *. rewrite Cg.
             destruct x as [c fs|t], y as [d gs|u]; auto; repeat destruct (factors_eq_dec _ g); auto; cbn; ring.
          -- intros g. cbn [In]. rewrite D. intuition.
  Qed.
  Lemma fold_facs l : forall acc, Forall fine l -> Forall fine acc -> NoDup (map facs acc) ->
    NoDup (map facs (fold_left accumulate l acc)) /\ Forall fine (fold_left accumulate l acc) /\
    (forall g, own g (fold_left accumulate l acc) = radd (own g l) (own g acc)).
  Proof.
    induction l as [|x l IH]; intros acc Fl Fa N; cbn [fold_left]; [split; [auto|split; [auto|intros g; cbn; ring]]|].
    inversion Fl as [|? ? Fx Fl']; subst. destruct (accumulate_facs acc x) as (A & B & C & _); auto. destruct (IH (accumulate acc x)) as (A' & B' & C'); auto.
    split; [auto|]. split; [auto|]. intros g. rewrite C', C. destruct (fine_prod x Fx) as (c & fs & ->). unfold coeff. cbn [fold_right signed].
    destruct (factors_eq_dec fs g); ring.
  Qed.
  Lemma nodup_filter {A B} (f : A -> B) p l : NoDup (map f l) -> NoDup (map f (filter p l)).
  Proof.
    induction l as [|x l IH]; cbn; auto. intros H. inversion H; subst. destruct (p x); cbn; auto. constructor; auto.
    intros X. apply H2. apply in_map_iff in X. destruct X as (y & <- & Y). apply filter_In in Y. apply in_map. tauto.
  Qed.
  Lemma own_filter g l : own g (filter (fun x => negb (zero_summand is_zero x)) l) = own g l.
  Proof.
    induction l as [|x l IH]; auto. cbn [filter]. destruct (zero_summand is_zero x) eqn:Z; cbn [negb].
    - destruct x as [c fs|t]; [|discriminate]. cbn in Z. apply is_zero_ok in Z. subst. rewrite IH. unfold coeff. cbn [fold_right signed].
      destruct (factors_eq_dec fs g); auto. ring.
    - unfold coeff in *. cbn [fold_right]. rewrite IH. auto.
  Qed.
  (** The result of the deep pass: for every canonical form at most one term, with its coefficient. *)
  Definition reduced (r : list (summand K)) : Prop := NoDup (map facs r) /\ Forall fine r /\ Forall (fun x => zero_summand is_zero x = false) r.
  Lemma deep_pass l r : Forall fine l -> pass is_zero bliss sort hash labels vhash iter (deep_options opts) l = Some r ->
    reduced r /\ (forall g, own g r = coeff key sgn g l) /\ forall x, In x r -> exists fs, okay (tensors fs) /\ facs x = key fs.
  Proof.
    intros F H. unfold pass in H. destruct (map_opt _ l) as [m|] eqn:M; [|discriminate]. cbn in H. injection H as <-.
    assert (X : m = map (fun x => SProd (signed (sgn (facs x)) (match x with SProd c _ => c | STen _ => r1 end)) (key (facs x))) l).
    { clear -M F. revert m M. induction F as [|x l Fx F IH]; intros m M; cbn in M; [injection M as <-; auto|].
      destruct (fine_prod x Fx) as (c & fs & ->). cbn [canon_summand] in M. rewrite (canon_form c fs) in M by apply Fx. cbn [option_map fst snd] in M.
      destruct (map_opt _ l) as [m'|] eqn:E; [|discriminate]. injection M as <-. cbn [map facs]. f_equal. apply IH. auto. }
    destruct (map_sound bliss sort hash labels vhash S opts lasting U False lasting_invariant (deep_options opts) l eq_refl m F M) as (Fm & _).
    destruct (fold_facs m [] Fm) as (A & B & C); [auto|constructor|].
    assert (P : Permutation (iter (collect is_zero m)) (collect is_zero m)) by apply iter_ok.
    split; [split; [|split]|split].
    - eapply Permutation_NoDup; [apply Permutation_map, Permutation_sym, P|]. apply nodup_filter. auto.
    - apply (Permutation_Forall (Permutation_sym P)). unfold collect. rewrite Forall_forall in *. intros x I. apply filter_In in I. apply B. tauto.
    - apply (Permutation_Forall (Permutation_sym P)). unfold collect. rewrite Forall_forall. intros x I. apply filter_In in I.
      destruct (zero_summand is_zero x); auto. destruct I; discriminate.
    - intros g. rewrite (coeff_perm _ _ g _ _ P). unfold collect. rewrite own_filter, C. cbn [coeff fold_right].
      rewrite X. clear -F. transitivity (own g (map (fun x => SProd (signed (sgn (facs x)) (match x with SProd c _ => c | STen _ => r1 end)) (key (facs x))) l)); [cbn; ring|].
      induction F as [|x l Fx F IH]; auto. destruct (fine_prod x Fx) as (c & fs & ->). unfold coeff in *. cbn [map fold_right facs]. rewrite IH. auto.
    - intros x I. apply (Permutation_in _ P) in I. apply filter_In in I. destruct I as (I & _).
      assert (G : forall q acc, Forall fine q -> Forall fine acc -> NoDup (map facs acc) -> forall x, In x (fold_left accumulate q acc) -> In (facs x) (map facs q) \/ In (facs x) (map facs acc)).
      { intros q. induction q as [|y q IH]; intros acc Fq Fa N x0 I0; cbn [fold_left] in I0; [right; apply in_map; auto|]. pose proof (Forall_inv Fq) as Fy. pose proof (Forall_inv_tail Fq) as Fq2.
        destruct (accumulate_facs acc y) as (A1 & B1 & _ & D); auto. destruct (IH _ Fq2 B1 A1 x0 I0) as [Y|Y]; [left; right; auto|].
        apply D in Y. destruct Y as [Y|Y]; [left; left; auto|right; auto]. }
      destruct (G m [] Fm (Forall_nil _) (NoDup_nil _) x I) as [Y|[]]. rewrite X, map_map in Y. apply in_map_iff in Y. destruct Y as (y & E & Y).
      exists (facs y). rewrite <- E. cbn [facs]. rewrite Forall_forall in F. destruct (fine_prod y (F y Y)) as (c & fs & ->). split; auto. apply (F _ Y).
  Qed.
  Lemma own_in x r : NoDup (map facs r) -> In x r -> fine x -> x = SProd (own (facs x) r) (facs x).
  Proof.
    intros N I Fx. destruct (fine_prod x Fx) as (c & fs & ->). cbn [facs]. f_equal.
    assert (Z : forall l, ~ In fs (map facs l) -> own fs l = r0).
    { induction l as [|y l IH]; auto. cbn [map In]. intros H. unfold coeff in *. cbn [fold_right]. rewrite IH by tauto.
      destruct y as [d gs|t]; auto. destruct (factors_eq_dec gs fs) as [E|E]; auto. destruct H. left. exact E. }
    induction r as [|y r IH]; [destruct I|]. cbn [map] in N. inversion N as [|? ? N1 N2]; subst. change (own fs (y :: r)) with (match y with SProd d gs => if factors_eq_dec gs fs then radd d (own fs r) else own fs r | STen _ => own fs r end).
    destruct I as [->|I].
    - destruct (factors_eq_dec fs fs) as [_|E]; [|congruence]. rewrite Z; auto. ring.
    - rewrite <- IH; auto. destruct y as [d gs|t]; auto. destruct (factors_eq_dec gs fs) as [E|E]; auto. destruct N1. cbn [facs]. rewrite E.
      apply in_map_iff. exists (SProd c fs). auto.
  Qed.
  Lemma own_out g r : (forall x, In x r -> fine x) -> ~ In g (map facs r) -> own g r = r0.
  Proof.
    induction r as [|y l IH]; intros F H; auto. cbn [map In] in H. unfold coeff in *. cbn [fold_right]. rewrite IH; [|intros; apply F; right; auto|tauto].
    destruct y as [d gs|t]; auto. destruct (factors_eq_dec gs g) as [E|E]; auto. destruct H. left. exact E.
  Qed.
  Lemma nodup_of_map {A B} (f : A -> B) l : NoDup (map f l) -> NoDup l.
  Proof. induction l as [|x l IH]; cbn; intros H; constructor; inversion H; subst; auto. intros X. apply H2. apply in_map; auto. Qed.
  Lemma reduced_perm r r' : reduced r -> reduced r' -> (forall g, own g r = own g r') -> Permutation r r'.
  Proof.
    assert (G : forall r r', reduced r -> reduced r' -> (forall g, own g r = own g r') -> incl r r').
    { intros a b (N & F & Z) (N' & F' & Z') H x I. rewrite Forall_forall in *. pose proof (own_in x a N I (F x I)) as E.
      destruct (in_dec factors_eq_dec (facs x) (map facs b)) as [J|J].
      - apply in_map_iff in J. destruct J as (y & Ey & J). pose proof (own_in y b N' J (F' y J)) as E'. rewrite Ey, <- H, <- E in E'. subst y. auto.
      - rewrite H, (own_out _ b) in E; auto. pose proof (Z x I) as Zx. rewrite E in Zx. cbn in Zx. rewrite (proj2 (is_zero_ok r0)) in Zx; [discriminate|auto]. }
    intros A B H. apply NoDup_Permutation; [eapply nodup_of_map, A|eapply nodup_of_map, B|]. intros x. split; apply G; auto.
  Qed.
  Lemma own_perm r r' : Permutation r r' -> reduced r -> reduced r'.
  Proof.
    intros P (A & B & C). split; [eapply Permutation_NoDup; [apply Permutation_map, P|auto]|]. split; eapply Permutation_Forall; eauto.
  Qed.

  (** The result of canonicalization. *)
  Lemma sum_result l : Forall fine l -> exists r, canonicalize_sum is_zero bliss sort hash labels vhash shash iter opts l = Some (sort_summands shash r) /\
    reduced r /\ (forall g, own g r = coeff key sgn g l) /\ forall x, In x r -> exists fs, okay (tensors fs) /\ facs x = key fs.
  Proof.
    intros F. assert (Z : forall x : K, is_zero x = true -> x = r0) by (intros x; apply is_zero_ok).
    unfold canonicalize_sum.
    destruct (pass_total is_zero bliss sort hash labels vhash iter S opts lasting U False (rapid_options opts) l) as (l1 & E1); auto.
    rewrite E1. apply (pass_sound is_zero Z bliss sort hash labels vhash iter iter_ok S opts lasting U False lasting_invariant) in E1; auto. destruct E1 as (F1 & S1).
    destruct (pass_total is_zero bliss sort hash labels vhash iter S opts lasting U False (deep_options opts) l1) as (r & E2); auto.
    rewrite E2. exists r. split; [auto|]. destruct (deep_pass l1 r F1 E2) as (A & B & C). split; [auto|]. split; [|auto]. intros g. rewrite B. symmetry. apply coeff_same; auto.
  Qed.
End Complete.
