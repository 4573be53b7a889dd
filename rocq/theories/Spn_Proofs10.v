(** Closed-shell spin tracing. *)
From Coq Require Import ZArith NArith QArith Qcanon List Arith Bool Permutation Sorted Relations Lia Ring.
From Verif Require Import Alg_Model Alg_Spec Alg_Proofs1 Alg_Proofs2 Alg_Proofs3 Spn_Model Spn_Spec Spn_Proofs1 Spn_Proofs2 Spn_Proofs3 Spn_Proofs4 Spn_Proofs5 Spn_Proofs6 Spn_Proofs7 Spn_Proofs8 Spn_Proofs9.
Import ListNotations.
Local Open Scope nat_scope.

(** *** The replacement of external indices *)
Definition subst_step (i : index) (g : list index) : index := match g with [w; v] => replace_one w v i | _ => i end.
Definition subst_ext (groups : list (list index)) (i : index) : index := fold_left subst_step groups i.

Lemma substitute_ext_ok groups : pairs groups -> forall l, substitute_ext groups l = Some (map (subst_ext groups) l).
Proof.
  induction groups as [|g groups IH]; intros Hp l; [cbn; rewrite map_id; auto|].
  pose proof (Hp g (or_introl eq_refl)) as Hg. destruct g as [|w [|v [|]]]; try discriminate. cbn [substitute_ext].
  rewrite IH by (intros g' H; apply Hp; right; auto). rewrite map_map. reflexivity.
Qed.
Lemma index_eqb_spec' i j : reflect (i = j) (index_eqb i j).
Proof. destruct (index_eqb i j) eqn:E; constructor; [apply index_eqb_eq; auto|intros ->; rewrite (proj2 (index_eqb_eq j j) eq_refl) in E; discriminate]. Qed.
Lemma subst_out groups i : ~ In i (concat groups) -> subst_ext groups i = i.
Proof.
  unfold subst_ext. revert i. induction groups as [|g groups IH]; intros i H; cbn; auto. cbn in H. rewrite in_app_iff in H.
  assert (E : subst_step i g = i).
  { destruct g as [|w [|v [|]]]; auto. cbn. unfold replace_one. destruct (index_eqb_spec' i w); auto. subst. destruct H. left. left. auto. }
  rewrite E. apply IH. tauto.
Qed.
Lemma subst_in groups : pairs groups -> NoDup (concat groups) -> forall j g i, nth_error groups j = Some g -> In i g -> exists w v, g = [w; v] /\ subst_ext groups i = v.
Proof.
  induction groups as [|g0 groups IH]; intros Hp N [|j] g i Hj Hi; cbn in Hj; try discriminate; cbn in N; destruct (NoDup_parts _ _ N) as (N1 & N2 & D).
  - injection Hj as ->. pose proof (Hp g (or_introl eq_refl)) as Hg. destruct g as [|w [|v [|]]]; try discriminate. exists w, v. split; auto.
    unfold subst_ext. cbn [fold_left]. assert (E : subst_step i [w; v] = v).
    { cbn. unfold replace_one. destruct (index_eqb_spec' i w); auto. destruct Hi as [->|[->|[]]]; auto. contradiction. }
    rewrite E. apply subst_out. apply D. right. left. auto.
  - assert (Hi' : In i (concat groups)) by (apply in_concat; exists g; split; auto; eapply nth_error_In; eauto).
    assert (E : subst_step i g0 = i).
    { unfold subst_step. destruct g0 as [|w [|v [|]]]; auto. unfold replace_one. destruct (index_eqb_spec' i w); auto. subst. destruct (D w); auto. left. auto. }
    unfold subst_ext. cbn [fold_left]. rewrite E. apply (IH (fun g' H => Hp g' (or_intror H)) N2 j g i Hj Hi).
Qed.
Lemma subst_any groups i : spin_any (concat groups) -> snd i = any -> snd (subst_ext groups i) = any.
Proof.
  unfold subst_ext. revert i. induction groups as [|g groups IH]; intros i H Hi; cbn; auto. apply IH; [intros x Hx; apply H; cbn; apply in_app_iff; auto|].
  destruct g as [|w [|v [|]]]; auto. cbn. unfold replace_one. destruct (index_eqb i w); auto. apply H. right. left. auto.
Qed.

Lemma any_eta (i : index) : snd i = any -> i = (fst i, any).
Proof. destruct i; cbn; intros ->; auto. Qed.

Lemma summed_In ext l x : In x (summed ext l) <-> In x l /\ ~ In x ext.
Proof. unfold summed. rewrite nodup_In, filter_In, negb_true_iff, existsb_notIn. tauto. Qed.

Definition heads (groups : list (list index)) : list nat := map (fun g => match g with [_; v] => fst v | _ => 0 end) groups.

Section Closed.
  Context {K : qalg} {O : Type}.
  Local Open Scope q_scope.
  Add Ring Kring18 : (qring K).
  Variable vars : nat -> K.
  Variable T : nat -> list O -> list O -> list O -> K.
  Variable code : index -> nat.
  Hypothesis CI : forall i j, code i = code j -> i = j.

  Notation SI := (spin_independent T).
  Definition bs (b : nat -> O) (s : nat -> bool) (i : index) : O * bool := (b (fst i), s (fst i)).
  Definition orb (b : nat -> O) (i : index) : O := b (fst i).

  Lemma conserves_consistent b s : forall q k, conserves_spin (map (bs b s) q) (map (bs b s) k) = consistent (names q) (names k) s.
  Proof.
    unfold conserves_spin, consistent. induction q as [|x q IH]; intros [|y k]; cbn; auto. rewrite IH. reflexivity.
  Qed.
  Lemma consistent_app p q p' q' s : length p = length q -> consistent (p ++ p') (q ++ q') s = consistent p q s && consistent p' q' s.
  Proof.
    unfold consistent. revert q. induction p as [|x p IH]; intros [|y q] L; cbn in L; try discriminate; cbn; auto. rewrite IH by lia. rewrite andb_assoc. reflexivity.
  Qed.

  Lemma eqb_comm' (x y : bool) : Bool.eqb x y = Bool.eqb y x.
  Proof. destruct x, y; auto. Qed.
  Lemma consistent_sym p q s : consistent p q s = consistent q p s.
  Proof. unfold consistent. revert q. induction p as [|x p IH]; intros [|y q]; cbn; auto. rewrite IH, eqb_comm'. reflexivity. Qed.
  Lemma consistent_map h p q s : consistent p q (fun x => s (h x)) = consistent (map h p) (map h q) s.
  Proof. unfold consistent. revert q. induction p as [|x p IH]; intros [|y q]; cbn; auto. rewrite IH. reflexivity. Qed.

  (** The value over spin orbitals of a product without antisymmetric tensors. *)
  Definition nonanti (fs : list factor) : Prop := forall t, In (Ten t) fs -> t_symm t <> Antisymm.
  Lemma bra_cons t fs : bra_indices (Ten t :: fs) = t_bra t ++ bra_indices fs. Proof. reflexivity. Qed.
  Lemma ket_cons t fs : ket_indices (Ten t :: fs) = t_ket t ++ ket_indices fs. Proof. reflexivity. Qed.

  Lemma spin_product fs b s : filter is_operator fs = [] -> nonanti fs -> (forall t, In (Ten t) fs -> length (t_bra t) = length (t_ket t)) ->
    product_value SI vars fs (bs b s) = ind (consistent (names (bra_indices fs)) (names (ket_indices fs)) s) * product_value T vars fs (orb b).
  Proof.
    induction fs as [|x fs IH]; intros Ho Ha Hl; [unfold ind; cbn; ring|].
    cbn [filter] in Ho. destruct (is_operator x) eqn:Ex; [discriminate|].
    unfold product_value in *. cbn [prod fold_right]. change (fold_right (fun x0 s0 => factor_value SI vars x0 (bs b s) * s0) 1 fs) with (prod (fun x => factor_value SI vars x (bs b s)) fs).
    change (fold_right (fun x0 s0 => factor_value T vars x0 (orb b) * s0) 1 fs) with (prod (fun x => factor_value T vars x (orb b)) fs).
    rewrite IH by (auto; intros t Ht; try apply Ha; try apply Hl; right; auto).
    destruct x as [t|v].
    - cbn in Ex. cbn [factor_value]. destruct (t_label t) as [| | |n] eqn:El; try discriminate.
      rewrite bra_cons, ket_cons. unfold names. rewrite !map_app. fold names. change (map fst (t_bra t)) with (names (t_bra t)). change (map fst (t_ket t)) with (names (t_ket t)).
      change (map fst (bra_indices fs)) with (names (bra_indices fs)). change (map fst (ket_indices fs)) with (names (ket_indices fs)).
      rewrite consistent_app by (unfold names; rewrite !map_length; apply Hl; left; auto).
      assert (E : tensor_value SI n t (bs b s) = ind (consistent (names (t_bra t)) (names (t_ket t)) s) * tensor_value T n t (orb b)).
      { unfold tensor_value. pose proof (Ha t (or_introl eq_refl)) as Hs. destruct (t_symm t) eqn:Es; [| |destruct Hs; reflexivity];
          unfold spin_independent; rewrite conserves_consistent, !map_map; unfold ind;
          change (fun x : index => fst (bs b s x)) with (orb b); destruct (consistent (names (t_bra t)) (names (t_ket t)) s); ring. }
      rewrite E. unfold ind. destruct (consistent (names (t_bra t)) (names (t_ket t)) s), (consistent (names (bra_indices fs)) (names (ket_indices fs)) s); cbn [andb]; ring.
    - change (bra_indices (Var v :: fs)) with (bra_indices fs). change (ket_indices (Var v :: fs)) with (ket_indices fs). cbn [factor_value]. ring.
  Qed.

  Lemma orbital_split fs x : In x (orbital_indices fs) <-> In x (names (bra_indices fs)) \/ In x (names (ket_indices fs)).
  Proof.
    unfold orbital_indices, bra_indices, ket_indices, names. rewrite in_flat_map. split.
    - intros ([t|v] & H1 & H2); [|destruct H2]. apply in_map_iff in H2. destruct H2 as (i & <- & H2). apply in_app_iff in H2. destruct H2 as [H2|H2]; [left|right]; apply in_map, in_flat_map; exists (Ten t); auto.
    - intros [H|H]; apply in_map_iff in H; destruct H as (i & <- & H); apply in_flat_map in H; destruct H as ([t|v] & H1 & H2); try destruct H2; exists (Ten t); (split; [auto|apply in_map, in_app_iff; auto]).
  Qed.
  Lemma columns_length fs : (forall t, In (Ten t) fs -> length (t_bra t) = length (t_ket t)) -> length (bra_indices fs) = length (ket_indices fs).
  Proof.
    induction fs as [|[t|v] fs IH]; intros H; auto.
    - rewrite bra_cons, ket_cons, !app_length, IH, (H t (or_introl eq_refl)); auto. intros; apply H; right; auto.
    - change (bra_indices (Var v :: fs)) with (bra_indices fs). change (ket_indices (Var v :: fs)) with (ket_indices fs). apply IH. intros; apply H; right; auto.
  Qed.
  Lemma bra_any fs : spin_any (used_indices fs) -> spin_any (bra_indices fs) /\ spin_any (ket_indices fs).
  Proof.
    intros H. split; intros i Hi; apply H; unfold bra_indices, ket_indices in Hi; apply in_flat_map in Hi; destruct Hi as ([t|v] & H1 & H2); try destruct H2;
      unfold used_indices; apply in_flat_map; exists (Ten t); (split; [auto|rewrite !in_app_iff; auto]).
  Qed.

  (** The number of spin assignments. *)
  Lemma closed_core groups fs : filter is_operator fs = [] -> (forall t, In (Ten t) fs -> good_tensor t) -> nonanti fs ->
    good_groups groups -> pairs groups -> incl (names (concat groups)) (orbital_indices fs) ->
    exists n, count_cycles (map code (map (subst_ext groups) (ket_indices fs))) (map code (map (subst_ext groups) (bra_indices fs))) = Some n /\
      forall b s0, spin_sum (map (fun i => [i]) (summed (names (concat groups)) (orbital_indices fs)) ++ map names groups)
        (fun s => product_value SI vars fs (bs b s)) s0 = natK (2 ^ n) * product_value T vars fs (orb b).
  Proof.
    intros Ho Hg Ha (Ng & Ag) Hp Hinc.
    assert (Hl : forall t, In (Ten t) fs -> length (t_bra t) = length (t_ket t)) by (intros t Ht; apply (Hg t Ht)).
    destruct (bra_any fs (used_any _ Hg)) as (Ab & Ak).
    set (p := names (ket_indices fs)). set (q := names (bra_indices fs)).
    set (h := fun x : nat => fst (subst_ext groups (x, any))).
    set (code' := fun x : nat => code (x, any)).
    assert (Hcode : forall l, spin_any l -> map code (map (subst_ext groups) l) = map code' (map h (names l))).
    { intros l Hl'. unfold names. rewrite !map_map. apply map_ext_in. intros i Hi. unfold code', h. f_equal. rewrite <- (any_eta i (Hl' i Hi)). apply any_eta, subst_any; auto. }
    rewrite !Hcode by auto. fold p. fold q.
    assert (Lpq : length p = length q) by (unfold p, q, names; rewrite !map_length; symmetry; apply columns_length; auto).
    destruct (count_cycles_columns (map code' (map h p)) (map code' (map h q))) as (n & En & _); [rewrite !map_length; auto|].
    exists n. split; auto. intros b s0.
    set (ext := names (concat groups)) in *. set (ints := summed ext (orbital_indices fs)).
    assert (Hints : forall x, In x ints <-> In x (orbital_indices fs) /\ ~ In x ext) by (intros x; apply summed_In).
    assert (Nints : NoDup ints) by apply NoDup_nodup.
    assert (Next : NoDup ext) by (apply names_NoDup; auto).
    set (gs := map (fun i => [i]) ints ++ map names groups). set (hs := ints ++ heads groups).
    assert (Cg : concat gs = ints ++ ext) by (unfold gs; rewrite concat_app, singles_concat, concat_names; auto).
    (* the heads *)
    assert (Hgn : forall j g x, nth_error (map names groups) j = Some g -> In x g -> nth_error (heads groups) j = Some (h x) /\ In (h x) g).
    { intros j g x Hj Hx. rewrite nth_error_map in Hj. destruct (nth_error groups j) as [gi|] eqn:Ej; [|discriminate]. cbn in Hj. injection Hj as <-.
      unfold names in Hx. apply in_map_iff in Hx. destruct Hx as (i & <- & Hi).
      assert (Hany : snd i = any) by (apply Ag, in_concat; exists gi; split; auto; eapply nth_error_In; eauto).
      destruct (subst_in groups Hp Ng j gi i Ej Hi) as (w & v & -> & Es). unfold h. rewrite <- (any_eta i Hany), Es.
      split; [exact (map_nth_error (fun g : list index => match g with [_; v] => fst v | _ => 0%nat end) j groups Ej)|cbn; auto]. }
    assert (Hout : forall x, ~ In x ext -> h x = x).
    { intros x Hx. unfold h. rewrite subst_out; auto. intros H. apply Hx. apply (in_map fst) in H. exact H. }
    assert (Hheads : forall x, In x (heads groups) -> In x ext /\ h x = x).
    { intros x Hx. unfold heads in Hx. apply in_map_iff in Hx. destruct Hx as (gi & Ex & Hgi). apply In_nth_error in Hgi. destruct Hgi as (j & Ej).
      pose proof (Hp gi (nth_error_In _ _ Ej)) as H2. destruct gi as [|w [|v [|]]]; try discriminate. subst x.
      assert (Hv : In v (concat groups)) by (apply in_concat; exists [w; v]; split; [eapply nth_error_In; eauto|right; left; auto]).
      split; [apply in_map; auto|]. unfold h. rewrite <- (any_eta v (Ag v Hv)).
      destruct (subst_in groups Hp Ng j [w; v] v Ej) as (w' & v' & E' & ->); [right; left; auto|]. injection E' as _ <-. auto. }
    assert (Nheads : NoDup (heads groups)).
    { clear - Ng Ag Hp. unfold heads. induction groups as [|g groups IH]; cbn; [constructor|]. cbn in Ng. destruct (NoDup_parts _ _ Ng) as (N1 & N2 & D).
      pose proof (Hp g (or_introl eq_refl)) as H2. destruct g as [|w [|v [|]]]; try discriminate. constructor.
      - intros H. apply in_map_iff in H. destruct H as (g' & E' & Hg'). pose proof (Hp g' (or_intror Hg')) as H3. destruct g' as [|w' [|v' [|]]]; try discriminate.
        assert (Hv : In v' (concat groups)) by (apply in_concat; exists [w'; v']; split; auto; right; left; auto).
        apply (D v); [right; left; auto|]. replace v with v'; auto. assert (A1 : snd v = any) by (apply Ag; right; left; auto). assert (A2 : snd v' = any) by (apply Ag; cbn; right; right; auto).
        rewrite (any_eta v A1), (any_eta v' A2). f_equal. auto.
      - apply IH; auto; [intros i Hi; apply Ag; cbn; right; right; auto|intros g' H; apply Hp; right; auto]. }
    assert (Nhs : NoDup hs).
    { unfold hs. apply NoDup_app_intro; auto. intros x H1 H2. apply Hints in H1. apply Hheads in H2. tauto. }
    rewrite (spin_sum_ext _ _ (fun s => product_value T vars fs (orb b) * ind (consistent p q s))).
    2:{ intros s. rewrite spin_product by auto. rewrite consistent_sym. fold p. fold q. ring. }
    assert (M : forall gs (c : K) (F : (nat -> bool) -> K) s, spin_sum gs (fun s => c * F s) s = c * spin_sum gs F s).
    { clear. intros gs c F. induction gs as [|g gs IH]; intros s; cbn; auto. rewrite !IH. ring. }
    rewrite M. rewrite (spin_sum_heads gs hs h).
    - rewrite (spin_sum_ext _ _ (fun s => ind (consistent (map h p) (map h q) s))) by (intros s; rewrite consistent_map; auto).
      rewrite (count_consistent code' hs (map h p) (map h q) n); auto; [ring|rewrite !map_length; auto| |].
      + intros x. unfold hs. rewrite in_app_iff, Hints. split.
        * intros [(H1 & H2)|H].
          -- apply orbital_split in H1. rewrite <- (Hout x H2). destruct H1 as [H1|H1]; [right|left]; apply in_map; auto.
          -- destruct (Hheads x H) as (H1 & H2). apply Hinc in H1. apply orbital_split in H1. rewrite <- H2. destruct H1 as [H1|H1]; [right|left]; apply in_map; auto.
        * assert (G : forall y, In y (orbital_indices fs) -> (In (h y) (orbital_indices fs) /\ ~ In (h y) ext) \/ In (h y) (heads groups)).
          { intros y Hy. destruct (in_dec Nat.eq_dec y ext) as [He|He]; [|left; rewrite Hout; auto]. right.
            unfold ext in He. rewrite <- concat_names in He. apply in_concat in He. destruct He as (g & H1 & H2). apply In_nth_error in H1. destruct H1 as (j & Hj).
            destruct (Hgn j g y Hj H2) as (H3 & _). eapply nth_error_In; eauto. }
          intros [H|H]; apply in_map_iff in H; destruct H as (y & <- & Hy); apply G, orbital_split; [right|left]; auto.
      + intros x y _ _ E. apply CI in E. congruence.
    - rewrite Cg. apply NoDup_app_intro; auto. intros x H1 H2. apply Hints in H1. tauto.
    - auto.
    - unfold gs, hs, heads. rewrite !app_length, !map_length. reflexivity.
    - intros j g x Hj Hx. unfold gs in Hj. unfold hs. destruct (lt_dec j (length ints)) as [Hj'|Hj'].
      + rewrite nth_error_app1 in * by (rewrite ?map_length; auto). rewrite nth_error_map in Hj. destruct (nth_error ints j) as [y|] eqn:Ey; [|discriminate]. cbn in Hj. injection Hj as <-.
        destruct Hx as [<-|[]]. rewrite Hout; auto. apply nth_error_In in Ey. apply Hints in Ey. tauto.
      + rewrite nth_error_app2 in * by (rewrite ?map_length; lia). rewrite map_length in Hj. apply (Hgn _ _ _ Hj Hx).
    - intros x Hx. rewrite Cg in Hx. rewrite in_app_iff in Hx. assert (~ In x ext) by tauto. split; [auto|]. unfold hs. rewrite in_app_iff. intros [H1|H1]; [tauto|]. apply Hheads in H1. tauto.
    - intros s1 s2 Es. unfold ind, consistent. f_equal. replace (forallb (fun xy : nat * nat => Bool.eqb (s1 (fst xy)) (s1 (snd xy))) (combine p q)) with (forallb (fun xy : nat * nat => Bool.eqb (s2 (fst xy)) (s2 (snd xy))) (combine p q)); auto.
      apply forallb_ext'. intros xy _. rewrite !Es. reflexivity.
  Qed.
End Closed.
