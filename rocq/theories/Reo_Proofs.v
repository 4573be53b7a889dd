(** * Proofs about the order of tensor indices in exported code *)
From Coq Require Import List Arith Lia Bool Permutation Sorted.
From Verif Require Import Reo_Model Reo_Spec.
Import ListNotations.

Section R.
  Variable asize : nat -> nat.
  Variable lay : layout.
  Notation cmp := (cmp asize lay).
  Notation pair_cmp := (pair_cmp asize lay).
  Notation stable_sort := (stable_sort asize lay).
  Notation sinsert := (sinsert asize lay).

  Lemma ltb_t : forall a b, (a <? b) = true <-> a < b. Proof. intros. apply Nat.ltb_lt. Qed.
  Lemma ltb_f : forall a b, (a <? b) = false <-> b <= a. Proof. intros. apply Nat.ltb_ge. Qed.

  Lemma cmp_weak : weak_order cmp.
  Proof.
    unfold weak_order, Reo_Model.cmp, is_less, osize. destruct lay; repeat split; intros;
      rewrite ?ltb_t, ?ltb_f in *; try lia; auto.
  Qed.

  Lemma pair_cmp_weak : forall first, weak_order (pair_cmp first).
  Proof.
    destruct cmp_weak as (Ir & Tr & Ng). intros f.
    unfold weak_order, Reo_Model.pair_cmp.
    repeat split; intros; repeat match goal with p : (idx * idx)%type |- _ => destruct p end.
    - destruct f; rewrite !Ir; reflexivity.
    - revert H H0. unfold Reo_Model.cmp, is_less, osize.
      destruct f, lay; repeat match goal with |- context [if ?b then _ else _] => let E := fresh in destruct b eqn:E end;
      rewrite ?negb_true_iff, ?negb_false_iff, ?ltb_t, ?ltb_f in *; intros; try discriminate; try reflexivity; try lia.
    - revert H H0. unfold Reo_Model.cmp, is_less, osize.
      destruct f, lay; repeat match goal with |- context [if ?b then _ else _] => let E := fresh in destruct b eqn:E end;
      rewrite ?negb_true_iff, ?negb_false_iff, ?ltb_t, ?ltb_f in *; intros; try discriminate; try reflexivity; try lia.
  Qed.

  Lemma sinsert_perm : forall x l, Permutation (x :: l) (sinsert x l).
  Proof.
    induction l as [|y l IH]; cbn; [reflexivity|]. destruct (cmp y x); [|reflexivity].
    rewrite perm_swap. now constructor.
  Qed.
  Lemma stable_sort_perm : forall l, Permutation l (stable_sort l).
  Proof. induction l as [|x l IH]; cbn; [reflexivity|]. rewrite <- sinsert_perm. now constructor. Qed.

  Definition le (x y : idx) : Prop := cmp y x = false.
  Lemma le_trans : forall x y z, le x y -> le y z -> le x z.
  Proof. unfold le. intros x y z A B. destruct cmp_weak as (_ & _ & N). eapply N; eassumption. Qed.

  Lemma sinsert_sorted : forall x l, StronglySorted le l -> StronglySorted le (sinsert x l).
  Proof.
    induction l as [|y l IH]; cbn; intros S.
    - repeat constructor.
    - inversion S as [|? ? S1 F]; subst. destruct (cmp y x) eqn:E.
      + constructor; [auto|]. apply (Permutation_Forall (sinsert_perm x l)). constructor; [|exact F].
        unfold le. destruct cmp_weak as (Ir & Tr & _). destruct (cmp x y) eqn:E2; [|reflexivity].
        pose proof (Tr _ _ _ E E2) as C. rewrite Ir in C. discriminate.
      + constructor; [exact S|]. constructor; [exact E|].
        eapply Forall_impl; [|exact F]. intros z Hz. eapply le_trans; [exact E|exact Hz].
  Qed.
  Lemma stable_sort_sorted : forall l, StronglySorted le (stable_sort l).
  Proof. induction l; cbn; [constructor|]. now apply sinsert_sorted. Qed.

  Lemma sinsert_id : forall x l, Forall (le x) l -> sinsert x l = x :: l.
  Proof. intros x [|y l] F; cbn; [reflexivity|]. inversion F; subst. unfold le in *. now rewrite H1. Qed.
  Lemma stable_sort_id : forall l, StronglySorted le l -> stable_sort l = l.
  Proof.
    induction l as [|x l IH]; intros S; cbn; [reflexivity|]. inversion S; subst.
    rewrite IH by assumption. now apply sinsert_id.
  Qed.

  Definition in_space (s : nat) (i : idx) : bool := Nat.eqb (i_space i) s.

  Lemma cmp_space : forall x y x' y', i_space x = i_space x' -> i_space y = i_space y' -> cmp x y = cmp x' y'.
  Proof. intros. unfold Reo_Model.cmp. now rewrite H, H0. Qed.

  Lemma sinsert_filter : forall s x l, filter (in_space s) (sinsert x l) = filter (in_space s) (x :: l).
  Proof.
    induction l as [|y l IH]; [reflexivity|]. cbn [Reo_Model.sinsert]. destruct (cmp y x) eqn:E; [|reflexivity].
    cbn [filter] in *. rewrite IH. destruct (in_space s y) eqn:Ey, (in_space s x) eqn:Ex; try reflexivity.
    exfalso. unfold in_space in *. apply Nat.eqb_eq in Ey, Ex.
    rewrite (cmp_space y x x x) in E by congruence. destruct cmp_weak as (Ir & _). rewrite Ir in E. discriminate.
  Qed.
  Lemma stable_sort_filter : forall s l, filter (in_space s) (stable_sort l) = filter (in_space s) l.
  Proof.
    induction l as [|x l IH]; [reflexivity|]. cbn [Reo_Model.stable_sort]. rewrite sinsert_filter.
    cbn [filter]. now rewrite IH.
  Qed.
  Lemma stable_keeps : forall l, keeps_space_order l (stable_sort l).
  Proof. intros l. split; [apply stable_sort_perm|]. intros s. apply (stable_sort_filter s l). Qed.

  (** Lists with the same spaces at every position and the same indices of every space are equal. *)
  Lemma by_space : forall l l', spaces l = spaces l' ->
    (forall s, filter (in_space s) l = filter (in_space s) l') -> l = l'.
  Proof.
    induction l as [|x l IH]; intros [|y l'] E F; cbn in E; try discriminate; [reflexivity|].
    injection E as E1 E2. pose proof (F (i_space x)) as F1. cbn [filter] in F1. unfold in_space in F1.
    rewrite Nat.eqb_refl, <- E1, Nat.eqb_refl in F1. injection F1 as -> F1.
    f_equal. apply IH; [exact E2|]. intros s. pose proof (F s) as F2. cbn [filter] in F2.
    destruct (in_space s y); [now injection F2|exact F2].
  Qed.

  Lemma stable_sort_inj : forall l l', spaces l = spaces l' -> stable_sort l = stable_sort l' -> l = l'.
  Proof.
    intros l l' E S. apply by_space; [exact E|]. intros s.
    rewrite <- (stable_sort_filter s l), <- (stable_sort_filter s l'). now rewrite S.
  Qed.

  Lemma sorted_spaces : forall l l', spaces l = spaces l' -> StronglySorted le l -> StronglySorted le l'.
  Proof.
    induction l as [|x l IH]; intros [|y l'] E S; cbn in E; try discriminate; [constructor|].
    injection E as E1 E2. inversion S; subst. constructor; [eauto|].
    clear - E1 E2 H2. revert l' E2. induction l as [|z l IHl]; intros [|z' l'] E2; cbn in E2; try discriminate; [constructor|].
    injection E2 as E3 E4. inversion H2; subst. constructor; [|eauto].
    unfold le in *. rewrite <- H1. apply cmp_space; congruence.
  Qed.

  Lemma stable_sort_eq_self : forall l l', spaces l = spaces l' -> stable_sort l = l' -> l = l'.
  Proof.
    intros l l' E S. rewrite <- S. symmetry. apply stable_sort_id.
    eapply sorted_spaces; [symmetry; exact E|]. rewrite <- S. apply stable_sort_sorted.
  Qed.

  (** ** The rewritten tensor *)
  Variable isort : (idx -> idx -> bool) -> list idx -> list idx.
  Variable psort : (idx * idx -> idx * idx -> bool) -> list (idx * idx) -> list (idx * idx).
  Hypothesis Hi : sorting isort.
  Hypothesis Hp : sorting psort.
  Notation rewrite_tensor := (rewrite_tensor asize lay isort psort).
  Notation sorted_braket := (sorted_braket asize lay isort psort).

  Lemma sort_bra_symm : forall t, sort_bra asize lay t = true -> t_symm t = Symm.
  Proof. intros t. unfold sort_bra, is_Symm. destruct (t_symm t); cbn; intros; [reflexivity|discriminate..]. Qed.
  Lemma sort_ket_symm : forall t, sort_ket asize lay t = true -> t_symm t = Symm.
  Proof. intros t. unfold sort_ket, is_Symm. destruct (t_symm t); cbn; intros; [reflexivity|discriminate..]. Qed.
  Lemma swap_bk : forall t, swap_braket asize lay t = true -> t_bksymm t = BKSymm.
  Proof.
    intros t. unfold swap_braket, is_BKSymm. destruct (t_bksymm t); [reflexivity|rewrite !andb_false_r; discriminate..].
  Qed.
  Lemma particles_facts : forall t, sort_particles asize lay t = true ->
    sort_bra asize lay t = false /\ sort_ket asize lay t = false /\ length (t_bra t) = length (t_ket t) /\ t_colsymm t = ColSymm.
  Proof.
    intros t. unfold sort_particles. rewrite !andb_true_iff, !negb_true_iff.
    intros (((((A & B) & C) & D) & E) & F). apply Nat.eqb_eq in D. unfold is_ColSymm in E.
    destruct (t_colsymm t); [auto|discriminate].
  Qed.

  Lemma map_fst_combine : forall (l m : list idx), length l = length m -> map fst (combine l m) = l.
  Proof. induction l as [|x l IH]; intros [|y m] E; cbn in *; try discriminate; [reflexivity|]. f_equal. auto. Qed.
  Lemma map_snd_combine : forall (l m : list idx), length l = length m -> map snd (combine l m) = m.
  Proof. induction l as [|x l IH]; intros [|y m] E; cbn in *; try discriminate; [reflexivity|]. f_equal. auto. Qed.

  Lemma sorted_braket_perm : forall t b k, sorted_braket t = (b, k) ->
    Permutation (t_bra t) b /\ Permutation (t_ket t) k.
  Proof.
    intros t b k. unfold Reo_Model.sorted_braket. destruct (sort_particles asize lay t) eqn:Ep.
    - destruct (particles_facts t Ep) as (-> & -> & El & _). intros E; injection E as <- <-.
      destruct (Hp _ (combine (t_bra t) (t_ket t)) (pair_cmp_weak (bra_over_ket asize t))) as (P & _).
      split.
      + rewrite <- (map_fst_combine _ _ El) at 1. now apply Permutation_map.
      + rewrite <- (map_snd_combine _ _ El) at 1. now apply Permutation_map.
    - intros E; injection E as <- <-. split.
      + destruct (sort_bra asize lay t); [|reflexivity]. apply (Hi _ _ cmp_weak).
      + destruct (sort_ket asize lay t); [|reflexivity]. apply (Hi _ _ cmp_weak).
  Qed.

  Lemma sorted_braket_value : forall V (T : list idx -> list idx -> list idx -> V) t b k x,
    respects T (t_symm t) (t_bksymm t) (t_colsymm t) -> sorted_braket t = (b, k) ->
    T b k x = T (t_bra t) (t_ket t) x.
  Proof.
    intros V T t b k x (RS & RC & RB) E. destruct (sorted_braket_perm t b k E) as (Pb & Pk).
    destruct (sort_particles asize lay t) eqn:Ep.
    - unfold Reo_Model.sorted_braket in E. rewrite Ep in E.
      destruct (particles_facts t Ep) as (Eb & Ek & El & Ec). rewrite Eb, Ek in E. injection E as <- <-.
      destruct (Hp _ (combine (t_bra t) (t_ket t)) (pair_cmp_weak (bra_over_ket asize t))) as (P & _).
      rewrite (RC Ec _ _ x P). now rewrite map_fst_combine, map_snd_combine by exact El.
    - unfold Reo_Model.sorted_braket in E. rewrite Ep in E.
      destruct (sort_bra asize lay t) eqn:Eb; [apply RS; auto; now apply sort_bra_symm|].
      destruct (sort_ket asize lay t) eqn:Ek; [apply RS; auto; now apply sort_ket_symm|].
      now injection E as <- <-.
  Qed.

  (** Form of the storage order. *)
  Lemma storage_form : forall on t, exists b k x,
    Permutation (t_bra t) b /\ Permutation (t_ket t) k /\
    (x = stable_sort (t_aux t) \/ x = t_aux t) /\
    (forall V (T : list idx -> list idx -> list idx -> V), respects T (t_symm t) (t_bksymm t) (t_colsymm t) ->
        forall y, T b k y = T (t_bra t) (t_ket t) y) /\
    exists f s, ((f = b /\ s = k) \/ (f = k /\ s = b /\ t_bksymm t = BKSymm)) /\
    (storage_order asize lay isort psort on t = x ++ f ++ s \/ storage_order asize lay isort psort on t = f ++ s ++ x).
  Proof.
    intros on t. unfold storage_order, Reo_Model.rewrite_tensor.
    assert (U : exists b k x,
      Permutation (t_bra t) b /\ Permutation (t_ket t) k /\ (x = stable_sort (t_aux t) \/ x = t_aux t) /\
      (forall V (T : list idx -> list idx -> list idx -> V), respects T (t_symm t) (t_bksymm t) (t_colsymm t) ->
        forall y, T b k y = T (t_bra t) (t_ket t) y) /\
      exists f s, ((f = b /\ s = k) \/ (f = k /\ s = b /\ t_bksymm t = BKSymm)) /\
      (all_indices t = x ++ f ++ s \/ all_indices t = f ++ s ++ x)).
    { exists (t_bra t), (t_ket t), (t_aux t). repeat split; auto. exists (t_bra t), (t_ket t). split; auto. }
    destruct on; cbn [negb]; [|exact U]. destruct (_ && _); [exact U|].
    destruct (sorted_braket t) as [b k] eqn:Es. destruct (sorted_braket_perm t b k Es) as (Pb & Pk).
    exists b, k, (stable_sort (t_aux t)). repeat split; auto.
    { intros V T RT y. eapply sorted_braket_value; eauto. }
    cbn [all_indices t_bra t_ket t_aux app]. unfold all_indices; cbn [t_bra t_ket t_aux app].
    destruct (swap_braket asize lay t) eqn:Ew.
    - exists k, b. split; [right; split; auto; split; auto; now apply swap_bk|].
      destruct (prioritize_aux asize lay t); [left; reflexivity|right; now rewrite app_assoc].
    - exists b, k. split; [left; auto|]. destruct (prioritize_aux asize lay t); [left; reflexivity|right; now rewrite app_assoc].
  Qed.

  Lemma app_inj_len : forall A (a b c d : list A), length a = length c -> a ++ b = c ++ d -> a = c /\ b = d.
  Proof.
    induction a as [|x a IH]; intros b [|y c] d L E; cbn in *; try discriminate; [auto|].
    injection E as -> E. destruct (IH b c d) as [-> ->]; auto.
  Qed.

  Lemma mixed : forall (P : idx -> Prop) (x w w' x' : list idx),
    length x = length x' -> length w = length w' -> x ++ w = w' ++ x' ->
    (forall i, In i x -> P i) -> (forall i, In i w' -> ~ P i) -> x = x' /\ w = w'.
  Proof.
    intros P [|i x] w w' x' Lx Lw E Hx Hw.
    - destruct x'; [|discriminate]. rewrite app_nil_r in E. auto.
    - destruct w' as [|j w'].
      + destruct w; [|discriminate]. rewrite app_nil_r in E. auto.
      + exfalso. injection E as -> _. apply (Hw j (or_introl Logic.eq_refl)), Hx. now left.
  Qed.

  Lemma in_spaces_perm : forall l l' s, Permutation l l' -> In s (spaces l') -> In s (spaces l).
  Proof. intros l l' s P H. unfold spaces in *. apply (Permutation_in s (Permutation_sym (Permutation_map i_space P))). exact H. Qed.

  Lemma storage_inj : forall on V (T : list idx -> list idx -> list idx -> V) t u,
    respects T (t_symm t) (t_bksymm t) (t_colsymm t) -> same_array t u ->
    storage_order asize lay isort psort on t = storage_order asize lay isort psort on u ->
    element T t = element T u.
  Proof.
    intros on V T t u RT (_ & Es & Eb & Ec & Lb & Lk & Lbk & Ex & Disj) E.
    destruct (storage_form on t) as (b & k & x & Pb & Pk & Fx & Vt & f & s & FS & O1).
    destruct (storage_form on u) as (b' & k' & x' & Pb' & Pk' & Fx' & Vu & f' & s' & FS' & O2).
    assert (RT' : respects T (t_symm u) (t_bksymm u) (t_colsymm u)) by now rewrite <- Es, <- Eb, <- Ec.
    specialize (Vt V T RT). specialize (Vu V T RT').
    assert (Px : Permutation (t_aux t) x) by (destruct Fx as [->| ->]; [apply stable_sort_perm|reflexivity]).
    assert (Px' : Permutation (t_aux u) x') by (destruct Fx' as [->| ->]; [apply stable_sort_perm|reflexivity]).
    assert (Lx : length x = length x').
    { rewrite <- (Permutation_length Px), <- (Permutation_length Px'). unfold spaces in Ex.
      rewrite <- (map_length i_space (t_aux t)), Ex. apply map_length. }
    assert (Lf : length f = length f' /\ length s = length s').
    { pose proof (Permutation_length Pb). pose proof (Permutation_length Pk).
      pose proof (Permutation_length Pb'). pose proof (Permutation_length Pk').
      destruct FS as [[-> ->]|(-> & -> & B)], FS' as [[-> ->]|(-> & -> & B')];
        try (rewrite <- Eb in B'); try specialize (Lbk B); try specialize (Lbk B'); lia. }
    destruct Lf as [Lf Ls].
    assert (Dt : forall i, In i x -> In (i_space i) (spaces (t_aux t))).
    { intros i Hi0. apply (in_spaces_perm _ _ _ Px). unfold spaces. now apply in_map. }
    assert (Bt : forall i, In i (f' ++ s') -> In (i_space i) (spaces (t_bra u ++ t_ket u))).
    { intros i Hi0. apply (in_spaces_perm _ (b' ++ k')); [now apply Permutation_app|]. unfold spaces. apply in_map.
      destruct FS' as [[-> ->]|(-> & -> & _)]; [exact Hi0|]. rewrite in_app_iff in *. tauto. }
    assert (Du : forall i, In i x' -> In (i_space i) (spaces (t_aux t))).
    { intros i Hi0. rewrite Ex. apply (in_spaces_perm _ _ _ Px'). unfold spaces. now apply in_map. }
    assert (Bu : forall i, In i (f ++ s) -> In (i_space i) (spaces (t_bra t ++ t_ket t))).
    { intros i Hi0. apply (in_spaces_perm _ (b ++ k)); [now apply Permutation_app|]. unfold spaces. apply in_map.
      destruct FS as [[-> ->]|(-> & -> & _)]; [exact Hi0|]. rewrite in_app_iff in *. tauto. }
    assert (Main : x = x' /\ f ++ s = f' ++ s').
    { rewrite E in O1.
      assert (LL : length (f ++ s) = length (f' ++ s')) by (rewrite !app_length; lia).
      destruct O1 as [O1|O1], O2 as [O2|O2]; rewrite O2 in O1; rewrite ?(app_assoc f), ?(app_assoc f') in O1.
      - destruct (app_inj_len _ _ _ _ _ (eq_sym Lx) O1) as [A B]. auto.
      - symmetry in O1. destruct (mixed (fun i => In (i_space i) (spaces (t_aux t))) _ _ _ _ Lx LL O1) as [A B]; auto.
        intros i Hi1 Hi2. apply (proj2 (Disj _ Hi2)). now apply Bt.
      - destruct (mixed (fun i => In (i_space i) (spaces (t_aux t))) _ _ _ _ (eq_sym Lx) (eq_sym LL) O1) as [A B]; auto.
        intros i Hi1 Hi2. apply (proj1 (Disj _ Hi2)). now apply Bu.
      - destruct (app_inj_len _ _ _ _ _ (eq_sym LL) O1) as [A B]. auto. }
    destruct Main as [<- Efs]. destruct (app_inj_len _ _ _ _ _ Lf Efs) as [<- <-].
    assert (Ea : t_aux t = t_aux u).
    { destruct Fx as [X1|X1], Fx' as [X2|X2].
      - apply stable_sort_inj; [exact Ex|congruence].
      - apply stable_sort_eq_self; [exact Ex|congruence].
      - symmetry. apply stable_sort_eq_self; [now symmetry|congruence].
      - congruence. }
    unfold element. rewrite <- Vt, <- Vu, Ea. destruct RT as (_ & _ & RB).
    destruct FS as [[-> ->]|(-> & -> & B)], FS' as [[-> ->]|(-> & -> & B')]; try reflexivity.
    - rewrite <- Eb in B'. now apply RB.
    - symmetry. now apply RB.
  Qed.
End R.
