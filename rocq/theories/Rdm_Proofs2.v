From Coq Require Import List Arith Bool ZArith QArith Qcanon Permutation Lia.
From Verif Require Import Ant_Model Rdm_Model Rdm_Spec Rdm_Proofs.
Import ListNotations.
Local Open Scope Qc_scope.

Section Two.
  Context {I : Type} (dflt : I) (same : product I Z -> product I Z -> bool).
  Hypothesis Hs : canonical_equality same.

  (** Leaves: operators of rank 1 or 2, cumulants of rank at most [n]. *)
  Definition wfl (n : nat) (e : rex I) : Prop :=
    match e with
    | XT lab b k => lab = kappa -> length b = length k /\ (1 <= length b <= n)%nat
    | XO c a => length c = length a /\ (1 <= length c <= 2)%nat
    | _ => True
    end.

  Lemma same_scalar p q : p_scalar p <> p_scalar q -> same p q = false.
  Proof.
    intros H. destruct (same p q) eqn:E; [|reflexivity]. apply Hs in E. destruct E. contradiction.
  Qed.

  Lemma same_swap c x y : same (mkProduct c [y; x]) (mkProduct c [x; y]) = true.
  Proof. apply Hs. cbn. split; [reflexivity|]. apply perm_swap. Qed.

  Lemma anti_tt lab a0 a1 b0 b1 :
    anti dflt same 2 (mkProduct 1%Z [FTensor lab [a0] [b0]; FTensor lab [a1] [b1]])
    = Some [mkProduct 1%Z [FTensor lab [a1] [b1]; FTensor lab [a0] [b0]];
            mkProduct (-1)%Z [FTensor lab [a1] [b0]; FTensor lab [a0] [b1]]].
  Proof.
    unfold anti, antisymm_element.
    assert (E : all_terms dflt 1%Z Z.mul Z.opp (steps 2) (mkProduct 1%Z [FTensor lab [a0] [b0]; FTensor lab [a1] [b1]])
                = Some [mkProduct 1%Z [FTensor lab [a1] [b1]; FTensor lab [a0] [b0]];
                        mkProduct (-1)%Z [FTensor lab [a1] [b0]; FTensor lab [a0] [b1]];
                        mkProduct (-1)%Z [FTensor lab [a0] [b1]; FTensor lab [a1] [b0]];
                        mkProduct 1%Z [FTensor lab [a0] [b0]; FTensor lab [a1] [b1]]]) by (vm_compute; reflexivity).
    rewrite E. cbn [option_map]. f_equal. unfold screen. cbn [fold_left existsb app].
    rewrite same_scalar by (cbn; discriminate). cbn [orb existsb app].
    rewrite same_scalar by (cbn; discriminate). rewrite same_swap. cbn [orb existsb app].
    rewrite same_swap. reflexivity.
  Qed.

  Lemma anti_to lab a0 a1 b0 b1 :
    exists l, anti dflt same 2 (mkProduct 1%Z [FTensor lab [a0] [b0]; FOp [b1] [a1]]) = Some l /\
      ((l = [mkProduct 1%Z [FTensor lab [a0] [b0]; FOp [b1] [a1]];
            mkProduct (-1)%Z [FTensor lab [a0] [b1]; FOp [b0] [a1]];
            mkProduct (-1)%Z [FTensor lab [a1] [b0]; FOp [b1] [a0]];
            mkProduct 1%Z [FTensor lab [a1] [b1]; FOp [b0] [a0]]]) \/
       (a0 = a1 /\ b0 = b1 /\
        l = [mkProduct 1%Z [FTensor lab [a0] [b0]; FOp [b1] [a1]];
            mkProduct (-1)%Z [FTensor lab [a0] [b1]; FOp [b0] [a1]]])).
  Proof.
    unfold anti, antisymm_element.
    assert (E : all_terms dflt 1%Z Z.mul Z.opp (steps 2) (mkProduct 1%Z [FTensor lab [a0] [b0]; FOp [b1] [a1]])
                = Some [mkProduct 1%Z [FTensor lab [a0] [b0]; FOp [b1] [a1]];
            mkProduct (-1)%Z [FTensor lab [a0] [b1]; FOp [b0] [a1]];
            mkProduct (-1)%Z [FTensor lab [a1] [b0]; FOp [b1] [a0]];
            mkProduct 1%Z [FTensor lab [a1] [b1]; FOp [b0] [a0]]]) by (vm_compute; reflexivity).
    rewrite E. cbn [option_map]. unfold screen. cbn [fold_left existsb app].
    rewrite same_scalar by (cbn; discriminate). cbn [orb existsb app].
    rewrite same_scalar by (cbn; discriminate). cbn [orb existsb app].
    assert (K : forall c x y x' y' u v u' v',
               same (mkProduct c [FTensor lab [x] [y]; FOp [y'] [x']]) (mkProduct c [FTensor lab [u] [v]; FOp [v'] [u']]) = true
               -> x = u /\ y = v /\ x' = u' /\ y' = v').
    { intros c x y x' y' u v u' v' H. apply Hs in H. destruct H as [_ H]. cbn [p_factors] in H.
      apply Permutation_length_2 in H. destruct H as [[A B]|[A B]]; [|discriminate].
      inversion A; inversion B; subst; auto. }
    assert (R : forall p, same p p = true) by (intros p; apply Hs; split; [reflexivity|apply Permutation_refl]).
    match goal with |- context [same ?p ?q] => destruct (same p q) eqn:S1 end.
    - apply K in S1. destruct S1 as [A [B _]]. subst a1 b1. cbn [orb existsb app].
      rewrite R. cbn [orb]. eexists. split; [reflexivity|]. right. auto.
    - cbn [orb existsb app].
      match goal with |- context [same ?p ?q] => destruct (same p q) eqn:S2 end.
      + apply K in S2. destruct S2 as [A [B _]]. subst a1 b1. rewrite R in S1. discriminate.
      + rewrite same_scalar by (cbn; discriminate). rewrite same_scalar by (cbn; discriminate).
        cbn [orb app]. eexists. split; [reflexivity|]. left. reflexivity.
  Qed.

  Lemma cumu2_ok u0 u1 d0 d1 : exists e,
    cumu2_to_density dflt same (XT kappa [u0; u1] [d0; d1]) = ROk e /\ no_cumulant e /\
    forall vT vO, xval vT vO e = two_of vT gamma u0 u1 d0 d1 - det2 (one_of vT gamma) u0 u1 d0 d1.
  Proof.
    cbn [cumu2_to_density]. rewrite Nat.eqb_refl. unfold antisum. cbn [map]. rewrite anti_tt.
    cbn. eexists. split; [reflexivity|]. split.
    - cbn. unfold gamma, kappa. intuition discriminate.
    - intros vT vO. cbn. fold (inject_Z 1) (inject_Z (-1)). change (-1 # 1)%Q with (inject_Z (-1)). change (1 # 1)%Q with (inject_Z 1).
      rewrite ?vz1, ?vzm1. unfold two_of, det2, one_of. ring.
  Qed.

  Lemma two_body_ok u0 u1 d0 d1 : exists e,
    two_body_decomp dflt same (XO [u0; u1] [d0; d1]) = ROk e /\ every (wfl 2) e /\
    forall vT vO, xval vT vO e =
      vO [u0; u1] [d0; d1]
      - (vT kappa [d0] [u0] * vO [u1] [d1] - vT kappa [d0] [u1] * vO [u0] [d1]
         - vT kappa [d1] [u0] * vO [u1] [d0] + vT kappa [d1] [u1] * vO [u0] [d0])
      - det2 (one_of vT kappa) d0 d1 u0 u1 - two_of vT kappa d0 d1 u0 u1.
  Proof.
    cbn [two_body_decomp]. unfold antisum. cbn [map]. rewrite anti_tt.
    destruct (anti_to kappa d0 d1 u0 u1) as [l [E H]]. rewrite E.
    destruct H as [H|[Ha [Hb H]]]; subst.
    - cbn. eexists. split; [reflexivity|]. split.
      + cbn. unfold kappa. intuition lia.
      + intros vT vO. cbn. change (-1 # 1)%Q with (inject_Z (-1)). change (1 # 1)%Q with (inject_Z 1).
        rewrite ?vz1, ?vzm1. unfold two_of, det2, one_of. ring.
    - cbn. eexists. split; [reflexivity|]. split.
      + cbn. unfold kappa. intuition lia.
      + intros vT vO. cbn. change (-1 # 1)%Q with (inject_Z (-1)). change (1 # 1)%Q with (inject_Z 1).
        rewrite ?vz1, ?vzm1. unfold two_of, det2, one_of. ring.
  Qed.

  (** ** Three indices *)
  Variables (u0 u1 u2 d0 d1 d2 : I).
  Hypothesis Hu : NoDup [u0; u1; u2].
  Hypothesis Hd : NoDup [d0; d1; d2].
  Let fb := fun i => nth i [d0; d1; d2] dflt.
  Let fk := fun i => nth i [u0; u1; u2] dflt.

  Lemma nth_inj3 l : NoDup l -> length l = 3%nat -> forall i j, (i < 3)%nat -> (j < 3)%nat -> nth i l dflt = nth j l dflt -> i = j.
  Proof. intros H L i j Hi Hj E. apply (proj1 (NoDup_nth l dflt) H); lia || exact E. Qed.

  Lemma anti_ren p0 ts0 :
    all_terms dflt 1%Z Z.mul Z.opp 6 (renp fb fk p0) = Some (map (renp fb fk) ts0) ->
    forallb (fun p => forallb (small 3) (p_factors p)) ts0 = true ->
    anti dflt same 3 (renp fb fk p0) = Some (map (renp fb fk) (screen same0 ts0)).
  Proof.
    intros E H. unfold anti, antisymm_element. change (steps 3) with 6%nat. rewrite E. cbn [option_map]. f_equal.
    unfold screen. apply (screen_aux (renp fb fk) same0 same ts0 []).
    intros x y Hx Hy. cbn in Hx, Hy. rewrite forallb_forall in H.
    apply (same_ren fb fk 3); auto.
    - apply (nth_inj3 [d0; d1; d2] Hd eq_refl).
    - apply (nth_inj3 [u0; u1; u2] Hu eq_refl).
  Qed.

  Definition T (i j : nat) : factor nat Z := FTensor kappa [i] [j].
  Definition q1 : product nat Z := mkProduct 1%Z [FTensor kappa [0%nat] [0%nat]; FOp [1%nat; 2%nat] [1%nat; 2%nat]].
  Definition q2 : product nat Z := mkProduct 1%Z [T 0 0; T 1 1; T 2 2].
  Definition q3 : product nat Z := mkProduct 1%Z [FOp [0%nat] [0%nat]; T 1 1; T 2 2].
  Definition q4 : product nat Z := mkProduct 1%Z [FOp [0%nat] [0%nat]; FTensor kappa [1%nat; 2%nat] [1%nat; 2%nat]].
  Definition q5 : product nat Z := mkProduct 1%Z [T 0 0; FTensor kappa [1%nat; 2%nat] [1%nat; 2%nat]].
  Definition terms (q : product nat Z) : list (product nat Z) :=
    match all_terms 0%nat 1%Z Z.mul Z.opp 6 q with Some l => l | None => [] end.

  Lemma anti_q q : In q [q1; q2; q3; q4; q5] ->
    anti dflt same 3 (renp fb fk q) = Some (map (renp fb fk) (screen same0 (terms q))).
  Proof.
    cbn [In]. intros [H|[H|[H|[H|[H|[]]]]]]; subst q; apply anti_ren; vm_compute; reflexivity.
  Qed.

  Definition all3 : list (product nat Z) :=
    concat (map (fun q => screen same0 (terms q)) [q1; q2; q3; q4; q5]).

  Lemma antisum3 : antisum dflt same 3
                 [mkProduct 1%Z [FTensor kappa [d0] [u0]; FOp [u1; u2] [d1; d2]];
                  mkProduct 1%Z [FTensor kappa [d0] [u0]; FTensor kappa [d1] [u1]; FTensor kappa [d2] [u2]];
                  mkProduct 1%Z [FOp [u0] [d0]; FTensor kappa [d1] [u1]; FTensor kappa [d2] [u2]];
                  mkProduct 1%Z [FOp [u0] [d0]; FTensor kappa [d1; d2] [u1; u2]];
                  mkProduct 1%Z [FTensor kappa [d0] [u0]; FTensor kappa [d1; d2] [u1; u2]]] []
    = ROk (XS (map of_product (map (renp fb fk) all3))).
  Proof.
    unfold antisum.
    change (map (anti dflt same 3) _) with
      (map (anti dflt same 3) (map (renp fb fk) [q1; q2; q3; q4; q5])).
    cbn [map].
    rewrite (anti_q q1), (anti_q q2), (anti_q q3), (anti_q q4), (anti_q q5) by (cbn; tauto).
    cbn [collect option_map concat]. rewrite !app_nil_r. unfold all3. cbn [map concat]. rewrite app_nil_r.
    rewrite !map_app. reflexivity.
  Qed.

  Definition expanded : list (rex I) := map of_product (map (renp fb fk) all3).
  Definition all3' : list (product nat Z) := Eval vm_compute in all3.
  Lemma all3_eq : all3 = all3'. Proof. vm_compute. reflexivity. Qed.

  Lemma expanded_wf : every (wfl 2) (XS expanded) /\ Forall (fun s => isP s = true) expanded.
  Proof.
    unfold expanded. rewrite all3_eq. split.
    - cbn. unfold kappa. intuition lia.
    - cbn. repeat (apply Forall_cons; [reflexivity|]). apply Forall_nil.
  Qed.

  (** Value when the operators have no expectation value. *)
  Lemma expanded_val vT vO : (forall u d, vO [u] [d] = 0) -> (forall u u' d d', vO [u; u'] [d; d'] = 0) ->
    xval vT vO (XS expanded) = det3 (one_of vT kappa) d0 d1 d2 u0 u1 u2
                               + one_two (one_of vT kappa) (two_of vT kappa) d0 d1 d2 u0 u1 u2.
  Proof.
    intros H1 H2. unfold expanded. rewrite all3_eq. unfold all3'.
    cbn [map of_product of_factor renp ren p_scalar p_factors xval fold_right]. rewrite ?vz1, ?vzm1.
    unfold fb, fk. cbn [nth]. rewrite ?H1, ?H2. unfold det3, det2, one_two, one_of, two_of, kappa. ring.
  Qed.
End Two.
