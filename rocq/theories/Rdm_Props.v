(** * Theorems about the density cumulant decompositions *)
From Coq Require Import List Arith Bool ZArith QArith Qcanon Permutation Lia.
From Verif Require Import Ant_Model Rdm_Model Rdm_Spec Rdm_Proofs Rdm_Proofs2.
Import ListNotations.
Local Open Scope Qc_scope.

Lemma vz0 : Q2Qc (inject_Z 0) = 0. Proof. apply Qc_is_canon; reflexivity. Qed.

Section Props.
  Context {I : Type} (dflt : I) (same : product I Z -> product I Z -> bool).
  Hypothesis Hs : canonical_equality same.

  (** C132. A one-body cumulant becomes the one-body density, a two-body cumulant the two-body
      density minus the antisymmetrized product of one-body densities; no cumulant is left. *)
  Theorem C132_cumulants : forall u0 u1 d0 d1 : I,
    cumu_to_density (XT kappa [u0] [d0]) = ROk (XT gamma [u0] [d0]) /\
    exists e, cumu2_to_density dflt same (XT kappa [u0; u1] [d0; d1]) = ROk e /\ no_cumulant e /\
      forall vT vO, xval vT vO e =
        vT gamma [u0; u1] [d0; d1]
        - (vT gamma [u0] [d0] * vT gamma [u1] [d1] - vT gamma [u0] [d1] * vT gamma [u1] [d0]).
  Proof.
    intros u0 u1 d0 d1. split; [reflexivity|]. exact (cumu2_ok dflt same Hs u0 u1 d0 d1).
  Qed.

  (** C133. The operators normal ordered with respect to the state: their expectation values vanish
      in the state whose one- and two-body densities have the given cumulants. *)
  Theorem C133_one_body : forall u d : I, exists e, one_body_sub (XO [u] [d]) = ROk e /\
    forall vT vO, xval vT vO e = vO [u] [d] - vT kappa [d] [u].
  Proof.
    intros u d. eexists. split; [reflexivity|]. intros vT vO. cbn.
    change (-1 # 1)%Q with (inject_Z (-1)). rewrite vzm1. ring.
  Qed.

  Theorem C133_two_body : forall u0 u1 d0 d1 : I, exists e, two_body_decomp dflt same (XO [u0; u1] [d0; d1]) = ROk e /\
    forall vT vO, xval vT vO e =
      vO [u0; u1] [d0; d1]
      - (vT kappa [d0] [u0] * vO [u1] [d1] - vT kappa [d0] [u1] * vO [u0] [d1]
         - vT kappa [d1] [u0] * vO [u1] [d0] + vT kappa [d1] [u1] * vO [u0] [d0])
      - (vT kappa [d0] [u0] * vT kappa [d1] [u1] - vT kappa [d0] [u1] * vT kappa [d1] [u0])
      - vT kappa [d0; d1] [u0; u1].
  Proof.
    intros u0 u1 d0 d1. destruct (two_body_ok dflt same Hs u0 u1 d0 d1) as [e [E [_ H]]]. exists e. split; assumption.
  Qed.

  Lemma one_body_leaf n (vT : nat -> list I -> list I -> Qc) (vO : list I -> list I -> Qc) : (2 <= n)%nat ->
    forall e, leaf e = true -> wfl n e ->
    match operator_of_rank 1 one_body_sub e with
    | Some r => exists e', r = ROk e' /\ every (wfl n) e' /\
        xval vT vO e' = xval vT (fun c a => match c, a with [u], [d] => vO c a - vT kappa [d] [u] | _, _ => vO c a end) e
    | None => wfl n e /\
        xval vT vO e = xval vT (fun c a => match c, a with [u], [d] => vO c a - vT kappa [d] [u] | _, _ => vO c a end) e
    end.
  Proof.
    intros Hn e L W. destruct e as [lab b k|c a|c|c fs|l]; try discriminate; cbn [operator_of_rank].
    - cbn [wfl xval] in *. split; [|reflexivity]. intros E. destruct (W E). lia.
    - destruct W as [W1 W2]. destruct (length c =? 1)%nat eqn:E.
      + apply Nat.eqb_eq in E. destruct c as [|u [|? ?]]; try discriminate. destruct a as [|d [|? ?]]; try discriminate.
        destruct (C133_one_body u d) as [e' [E1 E2]]. exists e'. split; [exact E1|]. split.
        * inversion E1. cbn. unfold kappa. intuition lia.
        * rewrite E2. reflexivity.
      + split; [cbn; lia|]. cbn [xval]. destruct c as [|u [|? ?]]; try discriminate; try reflexivity.
    - split; [exact Logic.I|reflexivity].
  Qed.

  Definition vO1 (vT : nat -> list I -> list I -> Qc) (vO : list I -> list I -> Qc) : list I -> list I -> Qc :=
    fun c a => match c, a with [u], [d] => vO c a - vT kappa [d] [u] | _, _ => vO c a end.

  Definition vO2 (vT : nat -> list I -> list I -> Qc) (vO : list I -> list I -> Qc) : list I -> list I -> Qc :=
    fun c a => match c, a with
      | [u0; u1], [d0; d1] =>
          vO [u0; u1] [d0; d1]
          - (vT kappa [d0] [u0] * vO [u1] [d1] - vT kappa [d0] [u1] * vO [u0] [d1]
             - vT kappa [d1] [u0] * vO [u1] [d0] + vT kappa [d1] [u1] * vO [u0] [d0])
          - det2 (one_of vT kappa) d0 d1 u0 u1 - two_of vT kappa d0 d1 u0 u1
      | _, _ => vO c a end.

  Lemma every_wfl_mono n m e : (n <= m)%nat -> every (@wfl I n) e -> every (wfl m) e.
  Proof.
    intros H. apply every_mono. intros x _. destruct x; cbn; try tauto. intros K E. destruct (K E). lia.
  Qed.

  Lemma two_body_leaf n (vT : nat -> list I -> list I -> Qc) (vO : list I -> list I -> Qc) : (2 <= n)%nat ->
    forall e, leaf e = true -> wfl n e ->
    match operator_of_rank 2 (two_body_decomp dflt same) e with
    | Some r => exists e', r = ROk e' /\ every (wfl n) e' /\ xval vT vO e' = xval vT (vO2 vT vO) e
    | None => wfl n e /\ xval vT vO e = xval vT (vO2 vT vO) e
    end.
  Proof.
    intros Hn e L W. destruct e as [lab b k|c a|c|c fs|l]; try discriminate; cbn [operator_of_rank].
    - cbn [wfl xval] in *. split; [|reflexivity]. intros E. destruct (W E). lia.
    - destruct W as [W1 W2]. destruct (length c =? 2)%nat eqn:E.
      + apply Nat.eqb_eq in E. destruct c as [|u0 [|u1 [|? ?]]]; try discriminate.
        destruct a as [|d0 [|d1 [|? ?]]]; try discriminate.
        destruct (two_body_ok dflt same Hs u0 u1 d0 d1) as [e' [E1 [E2 E3]]]. exists e'. split; [exact E1|]. split.
        * apply (every_wfl_mono 2); [lia|exact E2].
        * rewrite E3. reflexivity.
      + split; [cbn; lia|]. cbn [xval vO2]. destruct c as [|u0 [|u1 [|? ?]]]; try discriminate; reflexivity.
    - split; [exact Logic.I|reflexivity].
  Qed.

  Lemma op_node n g e : leaf e = false -> @operator_of_rank I n g e = None.
  Proof. destruct e; cbn; try discriminate; reflexivity. Qed.

  Section Three.
    Variables (u0 u1 u2 d0 d1 d2 : I).
    Hypothesis Hu : NoDup [u0; u1; u2].
    Hypothesis Hd : NoDup [d0; d1; d2].

    (** Both replacements applied to a sum of products and other leaves without operators. *)
    Lemma both_ok n l : (2 <= n)%nat -> every (wfl n) (XS l) ->
      Forall (fun s => isP s = true \/ exists lab b k, s = XT lab b k) l ->
      exists m, rbind (replace_in_products (operator_of_rank 2 (two_body_decomp dflt same)) (XS l))
                      (replace_in_products (operator_of_rank 1 one_body_sub)) = ROk (XS m) /\
        every (wfl n) (XS m) /\
        (forall vT vO, xval vT vO (XS m) = xval vT (vO2 vT (vO1 vT vO)) (XS l)) /\
        Forall2 (fun s s' => isP s = true /\ isP s' = true \/ isP s = false /\ s' = s) l m.
    Proof.
      intros Hn W F.
      assert (A : forall vT vO, exists m, replace_in_products (operator_of_rank 2 (two_body_decomp dflt same)) (XS l) = ROk (XS m) /\
         every (wfl n) (XS m) /\ xval vT vO (XS m) = xval vT (vO2 vT vO) (XS l) /\
         Forall2 (fun s s' => isP s = true /\ isP s' = true \/ isP s = false /\ s' = s) l m).
      { intros vT vO. pose proof (two_body_leaf n vT vO Hn) as HL.
        apply (replace_ok vT vT vO (vO2 vT vO) _ (wfl n) (wfl n) HL (op_node 2 _) l W).
        clear HL. induction F as [|s l Hs0 F IH]; [constructor|]. cbn in W. destruct W as [W1 W2]. constructor; [|apply IH; exact W2].
        destruct Hs0 as [H|[lab [b [k H]]]]; [left; exact H|right; subst s; split; [exact W1|reflexivity]]. }
      destruct (A (fun _ _ _ => 0) (fun _ _ => 0)) as [m1 [E1 [W1 [_ K1]]]]. rewrite E1. cbn [rbind].
      assert (F1 : Forall (fun s => isP s = true \/ exists lab b k, s = XT lab b k) m1).
      { clear - F K1. induction K1 as [|s s' l m H K1 IH]; [constructor|]. inversion F; subst. constructor; [|auto].
        destruct H as [[_ H]|[_ H]]; [left; exact H|]. subst s'. assumption. }
      assert (B : forall vT vO, exists m, replace_in_products (operator_of_rank 1 one_body_sub) (XS m1) = ROk (XS m) /\
         every (wfl n) (XS m) /\ xval vT vO (XS m) = xval vT (vO1 vT vO) (XS m1) /\
         Forall2 (fun s s' => isP s = true /\ isP s' = true \/ isP s = false /\ s' = s) m1 m).
      { intros vT vO. pose proof (one_body_leaf n vT vO Hn) as HL.
        apply (replace_ok vT vT vO (vO1 vT vO) _ (wfl n) (wfl n) HL (op_node 1 _) m1 W1).
        clear - W1 F1. induction F1 as [|s l Hs0 F IH]; [constructor|]. cbn in W1. destruct W1 as [W1 W2]. constructor; [|apply IH; exact W2].
        destruct Hs0 as [H|[lab [b [k H]]]]; [left; exact H|right; subst s; split; [exact W1|reflexivity]]. }
      destruct (B (fun _ _ _ => 0) (fun _ _ => 0)) as [m [E2 [W2 [_ K2]]]]. exists m. rewrite E2.
      split; [reflexivity|]. split; [exact W2|]. split.
      - intros vT vO. destruct (B vT vO) as [m' [E2' [_ [V _]]]]. rewrite E2 in E2'. inversion E2'; subst m'.
        rewrite V. destruct (A vT (vO1 vT vO)) as [m1' [E1' [_ [V1 _]]]]. rewrite E1 in E1'. inversion E1'; subst m1'. exact V1.
      - clear - K1 K2. revert m K2. induction K1 as [|s s' l m1 H K1 IH]; intros m K2; inversion K2; subst; constructor; [|apply IH; assumption].
        destruct H as [[A B]|[A B]].
        + match goal with X : _ \/ _ |- _ => destruct X as [[C D]|[C D]] end; [left; auto|congruence].
        + subst s'. assumption.
    Qed.

    (** C134. *)
    Lemma three_ok (approx : bool) : exists l,
      three_body_decomp dflt same approx (XO [u0; u1; u2] [d0; d1; d2]) = ROk (XS l) /\
      every (wfl (if approx then 2 else 3)) (XS l) /\ (approx = true -> Forall (fun s => isP s = true) l) /\
      forall vT vO,
        (forall u d, vO [u] [d] = vT kappa [d] [u]) ->
        (forall u u' d d', vO [u; u'] [d; d'] = vT kappa [d; d'] [u; u'] + det2 (one_of vT kappa) d d' u u') ->
        xval vT vO (XS l) =
          det3 (one_of vT kappa) d0 d1 d2 u0 u1 u2
          + one_two (one_of vT kappa) (two_of vT kappa) d0 d1 d2 u0 u1 u2
          + (if approx then 0 else vT kappa [d0; d1; d2] [u0; u1; u2]).
    Proof.
      cbn [three_body_decomp]. rewrite (antisum3 dflt same Hs u0 u1 u2 d0 d1 d2 Hu Hd). cbn [rbind].
      fold (expanded dflt u0 u1 u2 d0 d1 d2).
      destruct (expanded_wf dflt u0 u1 u2 d0 d1 d2) as [W F].
      set (X := expanded dflt u0 u1 u2 d0 d1 d2) in *.
      assert (Z2 : forall vT vO,
        (forall u d, vO [u] [d] = vT kappa [d] [u]) ->
        (forall u u' d d', vO [u; u'] [d; d'] = vT kappa [d; d'] [u; u'] + det2 (one_of vT kappa) d d' u u') ->
        xval vT (vO2 vT (vO1 vT vO)) (XS X) = det3 (one_of vT kappa) d0 d1 d2 u0 u1 u2
          + one_two (one_of vT kappa) (two_of vT kappa) d0 d1 d2 u0 u1 u2).
      { intros vT vO H1 H2. apply (expanded_val dflt).
        - intros u d. cbn [vO2 vO1]. rewrite H1. ring.
        - intros u u' d d'. cbn [vO2 vO1]. rewrite !H1, H2. unfold det2, one_of, two_of. ring. }
      destruct approx.
      - destruct (both_ok 2 X ltac:(lia) W) as [m [E [Wm [V K]]]].
        { revert F. apply Forall_impl. intros s H. left. exact H. }
        exists m. split; [exact E|]. split; [exact Wm|]. split.
        + intros _. clear - K F. induction K as [|s s' l m H K IH]; [constructor|]. inversion F; subst. constructor; [|auto].
          destruct H as [[A B]|[A B]]; [exact B|congruence].
        + intros vT vO H1 H2. rewrite V, Z2 by assumption. ring.
      - cbn [addx]. destruct (both_ok 3 (XT kappa [d0; d1; d2] [u0; u1; u2] :: X) ltac:(lia)) as [m [E [Wm [V K]]]].
        { cbn [every map fold_right]. split; [cbn; unfold kappa; intuition lia|].
          apply (every_wfl_mono 2 3 (XS X)); [lia|exact W]. }
        { constructor; [right; eauto|]. revert F. apply Forall_impl. intros s H. left. exact H. }
        exists m. split; [exact E|]. split; [exact Wm|]. split; [discriminate|].
        intros vT vO H1 H2. rewrite V. cbn [xval map fold_right]. cbn [xval] in Z2. rewrite Z2 by assumption. ring.
    Qed.
  End Three.

  (** C134. The decomposition of a three-body operator has the expectation value of the cumulant
      expansion of the three-body density, without the three-body cumulant if [approx]. *)
  Theorem C134_three_body : forall (approx : bool) (u0 u1 u2 d0 d1 d2 : I),
    NoDup [u0; u1; u2] -> NoDup [d0; d1; d2] ->
    exists e, three_body_decomp dflt same approx (XO [u0; u1; u2] [d0; d1; d2]) = ROk e /\
      forall vT vO,
        (forall u d, vO [u] [d] = vT kappa [d] [u]) ->
        (forall u u' d d', vO [u; u'] [d; d'] = vT kappa [d; d'] [u; u'] + det2 (one_of vT kappa) d d' u u') ->
        xval vT vO e =
          det3 (one_of vT kappa) d0 d1 d2 u0 u1 u2
          + one_two (one_of vT kappa) (two_of vT kappa) d0 d1 d2 u0 u1 u2
          + (if approx then 0 else vT kappa [d0; d1; d2] [u0; u1; u2]).
  Proof.
    intros approx u0 u1 u2 d0 d1 d2 Hu Hd.
    destruct (three_ok u0 u1 u2 d0 d1 d2 Hu Hd approx) as [l [E [_ [_ V]]]]. exists (XS l). split; assumption.
  Qed.

  (** ** Densities instead of cumulants *)
  Definition nokl (x : rex I) : Prop := match x with XT lab _ _ => lab <> kappa | _ => True end.

  (** Values of the cumulants in terms of the densities. *)
  Definition vK (two : bool) (vT : nat -> list I -> list I -> Qc) (lab : nat) (b k : list I) : Qc :=
    if (lab =? kappa)%nat then
      match b, k with
      | [x], [y] => vT gamma [x] [y]
      | [x; x'], [y; y'] => if two then two_of vT gamma x x' y y' - det2 (one_of vT gamma) x x' y y' else 0
      | _, _ => 0
      end
    else vT lab b k.

  Lemma len2 {A} (l : list A) : (1 <= length l <= 2)%nat -> (exists x, l = [x]) \/ (exists x y, l = [x; y]).
  Proof. destruct l as [|x [|y [|z l]]]; cbn; intros; [lia|left; eauto|right; eauto|lia]. Qed.

  Lemma rank_leaf (rank : nat) (vT : nat -> list I -> list I -> Qc) (vO : list I -> list I -> Qc) : (1 <= rank <= 3)%nat ->
    forall e, leaf e = true -> wfl 2 e ->
    match (match rank with 1%nat => rank1_factor | 2%nat => rank2_factor dflt same | _ => rank3_factor dflt same end) e with
    | Some r => exists e', r = ROk e' /\ every nokl e' /\ xval vT vO e' = xval (vK (1 <? rank)%nat vT) vO e
    | None => nokl e /\ xval vT vO e = xval (vK (1 <? rank)%nat vT) vO e
    end.
  Proof.
    intros Hr e L W. destruct e as [lab b k|c a|c|c fs|l]; try discriminate.
    2: { assert (E : (match rank with 1%nat => rank1_factor | 2%nat => rank2_factor dflt same | _ => rank3_factor dflt same end) (XO c a) = None)
           by (destruct rank as [|[|[|?]]]; reflexivity). rewrite E. split; [exact Logic.I|reflexivity]. }
    2: { assert (E : (match rank with 1%nat => rank1_factor | 2%nat => rank2_factor dflt same | _ => rank3_factor dflt same end) (XC c) = None)
           by (destruct rank as [|[|[|?]]]; reflexivity). rewrite E. split; [exact Logic.I|reflexivity]. }
    destruct (lab =? kappa)%nat eqn:EL.
    - apply Nat.eqb_eq in EL. subst lab. destruct (W eq_refl) as [W1 W2].
      assert (S1 : forall x y, exists e', cumu_to_density (XT kappa [x] [y]) = ROk e' /\ every nokl e' /\
                  forall t, xval vT vO e' = xval (vK t vT) vO (XT kappa [x] [y])).
      { intros x y. exists (XT gamma [x] [y]). split; [reflexivity|]. split; [cbn; discriminate|]. reflexivity. }
      assert (S2 : forall x x' y y', exists e', cumu2_to_density dflt same (XT kappa [x; x'] [y; y']) = ROk e' /\ every nokl e' /\
                  xval vT vO e' = xval (vK true vT) vO (XT kappa [x; x'] [y; y'])).
      { intros x x' y y'. destruct (cumu2_ok dflt same Hs x x' y y') as [e' [A [B C]]]. exists e'.
        split; [exact A|]. split; [exact B|]. rewrite C. reflexivity. }
      destruct (len2 b W2) as [[x Hb]|[x [x' Hb]]]; subst b.
      + destruct k as [|y [|? ?]]; try discriminate.
        destruct (S1 x y) as [e' [A [B C]]].
        destruct rank as [|[|[|[|?]]]]; try lia; cbn -[cumu_to_density cumu2_to_density cumu3_to_density vK xval]; exists e'; auto.
      + destruct k as [|y [|y' [|? ?]]]; try discriminate.
        destruct (S2 x x' y y') as [e' [A [B C]]].
        destruct rank as [|[|[|[|?]]]]; try lia; cbn -[cumu_to_density cumu2_to_density cumu3_to_density vK xval].
        * exists (XC 0). split; [reflexivity|]. split; [exact Logic.I|]. cbn [xval]. rewrite vz0. reflexivity.
        * exists e'. auto.
        * exists e'. auto.
    - assert (E : (match rank with 1%nat => rank1_factor | 2%nat => rank2_factor dflt same | _ => rank3_factor dflt same end) (XT lab b k) = None)
           by (destruct rank as [|[|[|?]]]; cbn; rewrite EL; reflexivity).
      rewrite E. split; [apply Nat.eqb_neq in EL; exact EL|]. cbn [xval]. unfold vK. rewrite EL. reflexivity.
  Qed.

  Lemma decomposition_ok (rank : nat) (u0 u1 u2 d0 d1 d2 : I) :
    (1 <= rank <= 3)%nat -> NoDup [u0; u1; u2] -> NoDup [d0; d1; d2] ->
    exists e, three_body_decomposition dflt same rank (XO [u0; u1; u2] [d0; d1; d2]) = ROk e /\ no_cumulant e /\
      forall vT vO,
        (forall u d, vO [u] [d] = vK (1 <? rank)%nat vT kappa [d] [u]) ->
        (forall u u' d d', vO [u; u'] [d; d'] = vK (1 <? rank)%nat vT kappa [d; d'] [u; u'] + det2 (one_of (vK (1 <? rank)%nat vT) kappa) d d' u u') ->
        xval vT vO e = det3 (one_of (vK (1 <? rank)%nat vT) kappa) d0 d1 d2 u0 u1 u2
          + one_two (one_of (vK (1 <? rank)%nat vT) kappa) (two_of (vK (1 <? rank)%nat vT) kappa) d0 d1 d2 u0 u1 u2.
  Proof.
    intros Hr Hu Hd. destruct (three_ok u0 u1 u2 d0 d1 d2 Hu Hd true) as [l [E [W [F V]]]].
    specialize (F eq_refl).
    set (f := match rank with 1%nat => rank1_factor | 2%nat => rank2_factor dflt same | _ => rank3_factor dflt same end).
    assert (E2 : three_body_decomposition dflt same rank (XO [u0; u1; u2] [d0; d1; d2]) = replace_in_products f (XS l)).
    { unfold f. destruct rank as [|[|[|[|?]]]]; try lia; unfold three_body_decomposition; rewrite E; reflexivity. }
    assert (Hnode : forall e, leaf e = false -> f e = None).
    { intros e H. unfold f. destruct rank as [|[|[|[|?]]]]; destruct e; try discriminate; reflexivity. }
    assert (A : forall vT vO, exists m, replace_in_products f (XS l) = ROk (XS m) /\ every nokl (XS m) /\
         xval vT vO (XS m) = xval (vK (1 <? rank)%nat vT) vO (XS l) /\
         Forall2 (fun s s' => isP s = true /\ isP s' = true \/ isP s = false /\ s' = s) l m).
    { intros vT vO. apply (replace_ok vT _ vO vO f (wfl 2) nokl); auto.
      - exact (rank_leaf rank vT vO Hr).
      - revert F. apply Forall_impl. intros s H. left. exact H. }
    destruct (A (fun _ _ _ => 0) (fun _ _ => 0)) as [m [E3 [N _]]].
    exists (XS m). rewrite E2, E3. split; [reflexivity|]. split; [exact N|].
    intros vT vO H1 H2. destruct (A vT vO) as [m' [E3' [_ [V' _]]]]. rewrite E3 in E3'. inversion E3'; subst m'.
    rewrite V'. rewrite (V _ _ H1 H2). ring.
  Qed.

  (** C135. Rank 2: no cumulant is left, and in a state with one-body density [vT gamma] and two-body
      density [vT gamma] the expectation value is the cumulant expansion of the three-body density
      without the three-body cumulant. *)
  Theorem C135_rank_two : forall u0 u1 u2 d0 d1 d2 : I,
    NoDup [u0; u1; u2] -> NoDup [d0; d1; d2] ->
    exists e, three_body_decomposition dflt same 2 (XO [u0; u1; u2] [d0; d1; d2]) = ROk e /\ no_cumulant e /\
      forall vT vO,
        (forall u d, vO [u] [d] = vT gamma [d] [u]) ->
        (forall u u' d d', vO [u; u'] [d; d'] = vT gamma [d; d'] [u; u']) ->
        xval vT vO e =
          det3 (one_of vT gamma) d0 d1 d2 u0 u1 u2
          + one_two (one_of vT gamma)
              (fun a a' b b' => vT gamma [a; a'] [b; b'] - det2 (one_of vT gamma) a a' b b') d0 d1 d2 u0 u1 u2.
  Proof.
    intros u0 u1 u2 d0 d1 d2 Hu Hd.
    destruct (decomposition_ok 2 u0 u1 u2 d0 d1 d2 ltac:(lia) Hu Hd) as [e [E [N V]]]. exists e.
    split; [exact E|]. split; [exact N|]. intros vT vO H1 H2. rewrite V; [reflexivity|exact H1|].
    intros u u' d d'. rewrite H2. cbn [vK Nat.ltb Nat.leb]. change (kappa =? kappa)%nat with true. cbv iota.
    unfold two_of, det2, one_of, vK. cbn. unfold two_of, det2, one_of. ring.
  Qed.

  (** Rank 1: only one-body densities, for states without two-body correlation. *)
  Theorem C135_rank_one : forall u0 u1 u2 d0 d1 d2 : I,
    NoDup [u0; u1; u2] -> NoDup [d0; d1; d2] ->
    exists e, three_body_decomposition dflt same 1 (XO [u0; u1; u2] [d0; d1; d2]) = ROk e /\ no_cumulant e /\
      forall vT vO,
        (forall u d, vO [u] [d] = vT gamma [d] [u]) ->
        (forall u u' d d', vO [u; u'] [d; d'] = det2 (one_of vT gamma) d d' u u') ->
        xval vT vO e = det3 (one_of vT gamma) d0 d1 d2 u0 u1 u2.
  Proof.
    intros u0 u1 u2 d0 d1 d2 Hu Hd.
    destruct (decomposition_ok 1 u0 u1 u2 d0 d1 d2 ltac:(lia) Hu Hd) as [e [E [N V]]]. exists e.
    split; [exact E|]. split; [exact N|]. intros vT vO H1 H2. rewrite V; [|exact H1|].
    - assert (Z : forall a a' b b', two_of (vK (1 <? 1)%nat vT) kappa a a' b b' = 0) by reflexivity.
      unfold one_two. rewrite !Z. change (one_of (vK (1 <? 1)%nat vT) kappa) with (one_of vT gamma). ring.
    - intros u u' d d'. rewrite H2. change (vK (1 <? 1)%nat vT kappa [d; d'] [u; u']) with (0 : Qc).
      change (one_of (vK (1 <? 1)%nat vT) kappa) with (one_of vT gamma). ring.
  Qed.

  (** Other ranks are refused. *)
  Theorem C135_other_ranks : forall rank e, (rank = 0 \/ 4 <= rank)%nat ->
    three_body_decomposition dflt same rank e = RThrow.
  Proof. intros rank e H. destruct rank as [|[|[|[|?]]]]; try lia; reflexivity. Qed.

  (** C136, refuted. "3 body has no approximation" (rdm.hpp): with rank 3 the three-body cumulant is
      dropped all the same (the default of [approx] is true), so that the expectation value does not
      depend on the three-body density. *)
  Theorem C136_rank_three_refuted : forall u0 u1 u2 d0 d1 d2 : I,
    NoDup [u0; u1; u2] -> NoDup [d0; d1; d2] ->
    exists e, three_body_decomposition dflt same 3 (XO [u0; u1; u2] [d0; d1; d2]) = ROk e /\
      exists vT vO,
        (forall u d, vO [u] [d] = vT gamma [d] [u]) /\
        (forall u u' d d', vO [u; u'] [d; d'] = vT gamma [d; d'] [u; u']) /\
        xval vT vO e <> vT gamma [d0; d1; d2] [u0; u1; u2].
  Proof.
    intros u0 u1 u2 d0 d1 d2 Hu Hd.
    destruct (decomposition_ok 3 u0 u1 u2 d0 d1 d2 ltac:(lia) Hu Hd) as [e [E [_ V]]]. exists e. split; [exact E|].
    exists (fun _ b _ => if (length b =? 3)%nat then 1 else 0), (fun _ _ => 0). split; [reflexivity|]. split; [reflexivity|].
    rewrite V.
    - cbn. unfold one_two, det3, det2, one_of, two_of, vK. cbn. unfold det2, one_of. cbn. intros X.
      match type of X with ?l = _ => assert (K : l = 0) by ring; rewrite K in X end. discriminate X.
    - reflexivity.
    - intros. cbn. unfold two_of, det2, one_of, vK. cbn. ring.
  Qed.

  (** Converting a three-body cumulant to densities never succeeds: the densities are multiplied
      instead of subtracted (rdm.cpp:71), and the product is then used as a sum. *)
  Theorem C136_cumu3_refuted : forall e : rex I, cumu3_to_density dflt same e = RAssert.
  Proof.
    intros e. destruct e as [lab b k|c a|c|c fs|l]; try reflexivity.
    destruct b as [|x0 [|x1 [|x2 [|x3 b]]]]; try reflexivity.
    destruct k as [|y0 [|y1 [|y2 [|y3 k]]]]; try reflexivity.
    cbn [cumu3_to_density]. destruct (lab =? kappa)%nat; [|reflexivity].
    match goal with |- rbind ?x _ = _ => destruct x as [s| |] eqn:E end; cbn [rbind].
    - unfold antisum in E. destruct (collect _); inversion E. reflexivity.
    - reflexivity.
    - unfold antisum in E. destruct (collect _); discriminate.
  Qed.
End Props.

(** ** Concrete cases *)
Module RdmExamples.
  (** The relation [same] of the theorems exists. *)
  Theorem canonical_nat : canonical_equality same0.
  Proof.
    intros p q. unfold same0. rewrite andb_true_iff, Z.eqb_eq, permb_iff. tauto.
  Qed.

  (** A state: densities of a determinant plus something, and its operators. *)
  Definition vT0 (lab : nat) (b k : list nat) : Qc :=
    Q2Qc (inject_Z (Z.of_nat (S lab + 2 * list_sum b + 3 * list_sum k + length b))).

  Local Open Scope nat_scope.
  Example two_body_concrete :
    two_body_decomp 0 same0 (XO [10; 11] [12; 13]) =
    ROk (XS [XO [10; 11] [12; 13];
             XP (-1) [XS [XP 1 [XT kappa [12] [10]; XO [11] [13]];
                          XP (-1) [XT kappa [12] [11]; XO [10] [13]];
                          XP (-1) [XT kappa [13] [10]; XO [11] [12]];
                          XP 1 [XT kappa [13] [11]; XO [10] [12]];
                          XP 1 [XT kappa [13] [11]; XT kappa [12] [10]];
                          XP (-1) [XT kappa [13] [10]; XT kappa [12] [11]];
                          XT kappa [12; 13] [10; 11]]]]).
  Proof. vm_compute. reflexivity. Qed.

  Example three_body_concrete :
    exists l, three_body_decomp 0 same0 true (XO [10; 11; 12] [13; 14; 15]) = ROk (XS l) /\ length l = 51.
  Proof. eexists. split; [vm_compute; reflexivity|]. reflexivity. Qed.

  Local Close Scope nat_scope.
  (** The hypotheses on operators are met by taking the operators' values as defined there. *)
  Theorem state_exists : exists (vT : nat -> list nat -> list nat -> Qc) (vO : list nat -> list nat -> Qc),
    (forall u d, vO [u] [d] = vT gamma [d] [u]) /\
    (forall u u' d d', vO [u; u'] [d; d'] = vT gamma [d; d'] [u; u']) /\
    vT gamma [1%nat] [2%nat] <> 0 /\ vT gamma [1%nat; 2%nat] [3%nat; 4%nat] <> 0.
  Proof.
    exists vT0, (fun c a => vT0 gamma a c). repeat split; try reflexivity; intros E; discriminate E.
  Qed.
End RdmExamples.

(** C133: the products and sums of expressions that the decompositions are built with have the
    products and sums of the values. *)
Section Arithmetic.
  Context {I : Type} (vT : nat -> list I -> list I -> Qc) (vO : list I -> list I -> Qc).

  Lemma inject_mul a b : Q2Qc (inject_Z (a * b)) = Q2Qc (inject_Z a) * Q2Qc (inject_Z b).
  Proof. unfold Qcmult. apply Qc_is_canon. change (Qeq (Qred (inject_Z (a * b))) (Qred (Qmult (Qred (inject_Z a)) (Qred (inject_Z b))))).
    rewrite !Qred_correct, inject_Z_mult. reflexivity. Qed.
  Lemma prod_app (l m : list Qc) : fold_right Qcmult 1 (l ++ m) = fold_right Qcmult 1 l * fold_right Qcmult 1 m.
  Proof. induction l as [|x l IH]; cbn; [ring|]. rewrite IH. ring. Qed.
  Lemma sum_app (l m : list Qc) : fold_right Qcplus 0 (l ++ m) = fold_right Qcplus 0 l + fold_right Qcplus 0 m.
  Proof. induction l as [|x l IH]; cbn; [ring|]. rewrite IH. ring. Qed.
  Lemma inject_one : Q2Qc (inject_Z 1) = 1.
  Proof. apply Qc_is_canon. reflexivity. Qed.

  Lemma append1_val c fs e : xval vT vO (append1 c fs e) = xval vT vO (XP c fs) * xval vT vO e.
  Proof.
    destruct e; cbn [append1 xval]; rewrite ?map_app, ?prod_app, ?inject_mul; cbn [map fold_right xval]; ring.
  Qed.
  Lemma prepend1_val c fs e : xval vT vO (prepend1 c fs e) = xval vT vO e * xval vT vO (XP c fs).
  Proof.
    destruct e; cbn [prepend1 xval]; rewrite ?map_app, ?prod_app, ?inject_mul; cbn [map fold_right xval]; ring.
  Qed.

  Theorem C133_product : forall a b : rex I, xval vT vO (mulx a b) = xval vT vO a * xval vT vO b.
  Proof.
    assert (T : forall a b : rex I, xval vT vO (match append1 1 [] a with XP c fs => append1 c fs b | e => e end) = xval vT vO a * xval vT vO b).
    { intros a b. pose proof (append1_val 1 [] a) as H.
      assert (E : exists c fs, append1 1 [] a = XP c fs) by (destruct a; cbn; eauto).
      destruct E as (c & fs & E). rewrite E in *. rewrite append1_val, H. cbn [xval map fold_right]. rewrite inject_one. ring. }
    intros a b. unfold mulx. destruct a; destruct b; try apply T; try apply append1_val; try apply prepend1_val.
    cbn [xval]. apply inject_mul.
  Qed.

  Theorem C133_sum : forall a b : rex I, xval vT vO (addx a b) = xval vT vO a + xval vT vO b.
  Proof.
    intros a b. unfold addx. destruct a; destruct b; cbn [xval]; rewrite ?map_app, ?sum_app; cbn [map fold_right xval]; ring.
  Qed.
End Arithmetic.
