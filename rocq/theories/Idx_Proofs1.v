(** Proofs: get_unique_indices. *)
From Coq Require Import List Arith Bool Lia.
From Verif Require Import Idx_Model Idx_Spec.
Import ListNotations.

Lemma slot_eqb_eq a b : slot_eqb a b = true <-> a = b.
Proof. destruct a, b; cbn; split; congruence. Qed.
Lemma slot_eqb_refl a : slot_eqb a a = true.
Proof. destruct a; reflexivity. Qed.

Lemma mem_in x l : mem x l = true <-> In x l.
Proof.
  unfold mem. rewrite existsb_exists. split.
  - intros [y [H E]]. apply Nat.eqb_eq in E. subst. exact H.
  - intros H. exists x. split; auto. apply Nat.eqb_refl.
Qed.
Lemma mem_false x l : mem x l = false <-> ~ In x l.
Proof. rewrite <- mem_in. destruct (mem x l); split; congruence. Qed.

Lemma times_app x l m : times x (l ++ m) = times x l + times x m.
Proof. unfold times. rewrite filter_app, app_length. reflexivity. Qed.
Lemma times_cons x o l : times x (o :: l) = (if Nat.eqb (snd o) x then 1 else 0) + times x l.
Proof. unfold times, idx in *. cbn [filter]. destruct (Nat.eqb (snd o) x); reflexivity. Qed.
Lemma times_pos x l : 1 <= times x l <-> exists s, In (s, x) l.
Proof.
  induction l as [|[s y] l IH]; cbn [times filter].
  - cbn. split; [lia|intros [s []]].
  - rewrite times_cons. cbn [snd]. destruct (Nat.eqb y x) eqn:E.
    + apply Nat.eqb_eq in E. subst. split; [intros _; exists s; left; reflexivity|lia].
    + apply Nat.eqb_neq in E. cbn. rewrite IH. split.
      * intros [s' H]. exists s'. auto.
      * intros [s' [H|H]]; [congruence|eauto].
Qed.

Lemma filter_ext_in' {X} (f g : X -> bool) l : (forall x, In x l -> f x = g x) -> filter f l = filter g l.
Proof.
  induction l as [|x l IH]; cbn; intros H; auto. rewrite (H x (or_introl eq_refl)), IH; auto.
Qed.

Lemma once_in s x l : In x (once s l) <-> In (s, x) l /\ times x l = 1.
Proof.
  unfold once. rewrite in_map_iff. split.
  - intros [[s' y] [E H]]. cbn in E. subst y. apply filter_In in H as [H1 H2]. apply andb_prop in H2 as [H2 H3].
    apply slot_eqb_eq in H2. cbn in H2, H3. subst s'. apply Nat.eqb_eq in H3. auto.
  - intros [H1 H2]. exists (s, x). split; auto. apply filter_In. cbn. rewrite slot_eqb_refl, H2. auto.
Qed.

Lemma times_one_nodup l (p : slot * idx -> bool) :
  (forall o, p o = true -> In o l -> times (snd o) l = 1) -> NoDup (map snd (filter p l)).
Proof.
  induction l as [|o l IH]; intros H; cbn [filter]; [constructor|].
  assert (HT : forall o', p o' = true -> In o' l -> times (snd o') l = 1).
  { intros o' H1 H2. specialize (H o' H1 (or_intror H2)). rewrite times_cons in H.
    assert (1 <= times (snd o') l) by (apply times_pos; exists (fst o'); destruct o'; exact H2).
    destruct (Nat.eqb (snd o) (snd o')); lia. }
  destruct (p o) eqn:E; [|apply IH; exact HT]. cbn [map]. constructor; [|apply IH; exact HT].
  intros HI. apply in_map_iff in HI as [o' [E2 HI]]. apply filter_In in HI as [HI _].
  specialize (H o E (or_introl eq_refl)). rewrite times_cons, Nat.eqb_refl in H.
  assert (1 <= times (snd o) l) by (apply times_pos; exists (fst o'); rewrite <- E2; destruct o'; exact HI). lia.
Qed.

Lemma once_nodup s l : NoDup (once s l).
Proof.
  unfold once. apply times_one_nodup. intros o H _. apply andb_prop in H as [_ H]. apply Nat.eqb_eq in H. exact H.
Qed.

Lemma remove_one_filter x l : NoDup l -> remove_one x l = filter (fun y => negb (Nat.eqb x y)) l.
Proof.
  induction l as [|y l IH]; intros H; cbn; auto. inversion H; subst. destruct (Nat.eqb x y) eqn:E; cbn.
  - apply Nat.eqb_eq in E. subst. symmetry. rewrite (filter_ext_in' _ (fun _ => true)).
    + clear. induction l as [|z l IH2]; cbn; auto. f_equal. exact IH2.
    + intros z Hz. apply negb_true_iff, Nat.eqb_neq. intros ->. contradiction.
  - f_equal. apply IH. assumption.
Qed.

Lemma map_filter_snd {X} (f : idx -> bool) (l : list (X * idx)) :
  filter f (map snd l) = map snd (filter (fun o => f (snd o)) l).
Proof. induction l as [|o l IH]; cbn; auto. destruct (f (snd o)); cbn; rewrite IH; reflexivity. Qed.

Lemma filter_filter {X} (f g : X -> bool) l : filter f (filter g l) = filter (fun x => g x && f x) l.
Proof. induction l as [|x l IH]; cbn; auto. destruct (g x); cbn; [destruct (f x); rewrite IH; reflexivity|exact IH]. Qed.

(** one more occurrence *)
Lemma once_snoc_new s l t x : times x l = 0 -> once s (l ++ [(t, x)]) = once s l ++ (if slot_eqb t s then [x] else []).
Proof.
  intros H. unfold once. rewrite filter_app, map_app. f_equal.
  - f_equal. apply filter_ext_in'. intros [u y] Hy. cbn [fst snd]. rewrite times_app, times_cons. cbn [snd].
    destruct (Nat.eqb x y) eqn:E.
    + apply Nat.eqb_eq in E. subst. assert (1 <= times y l) by (apply times_pos; eauto). lia.
    + cbn. rewrite Nat.add_0_r. reflexivity.
  - cbn [filter]. cbn [fst snd]. rewrite times_app, H, times_cons. cbn [snd]. rewrite Nat.eqb_refl. cbn.
    rewrite andb_true_r. destruct (slot_eqb t s); reflexivity.
Qed.
Lemma once_snoc_seen s l t x : 1 <= times x l -> once s (l ++ [(t, x)]) = remove_one x (once s l).
Proof.
  intros H. rewrite remove_one_filter by apply once_nodup. unfold once. rewrite filter_app, map_app.
  replace (filter _ [(t, x)]) with (@nil (slot * idx)).
  - cbn. rewrite app_nil_r, map_filter_snd, filter_filter. f_equal. apply filter_ext_in'.
    intros [u y] Hy. cbn [fst snd]. rewrite times_app, times_cons. cbn [snd]. change (times y []) with 0.
    destruct (Nat.eqb x y) eqn:E; cbn [negb].
    + apply Nat.eqb_eq in E. subst. replace (Nat.eqb (times y l + (1 + 0)) 1) with false by (symmetry; apply Nat.eqb_neq; lia).
      rewrite !andb_false_r. reflexivity.
    + rewrite !Nat.add_0_r, andb_true_r. reflexivity.
  - cbn [filter fst snd]. rewrite times_app, times_cons. cbn [snd]. rewrite Nat.eqb_refl.
    replace (Nat.eqb (times x l + (1 + times x [])) 1) with false by (symmetry; apply Nat.eqb_neq; lia).
    rewrite andb_false_r. reflexivity.
Qed.

(** the common form of the loops *)
Definition push (s : slot) (x : idx) (g : groups) : groups :=
  match s with
  | Bra => mkg (gbra g ++ [x]) (gket g) (gaux g)
  | Ket => mkg (gbra g) (gket g ++ [x]) (gaux g)
  | _ => mkg (gbra g) (gket g) (gaux g ++ [x])
  end.
Definition gstep (a : acc) (o : slot * idx) : acc :=
  let (g, seen) := a in
  if mem (snd o) seen then (drop (snd o) g, seen) else (push (fst o) (snd o) g, snd o :: seen).

Definition slots_ok (l : list (slot * idx)) : Prop := forall o, In o l -> fst o <> Proto.
Definition acc_ok (l : list (slot * idx)) (a : acc) : Prop :=
  fst a = once_groups l /\ forall x, mem x (snd a) = true <-> 1 <= times x l.

Lemma gstep_ok l a o : fst o <> Proto -> acc_ok l a -> acc_ok (l ++ [o]) (gstep a o).
Proof.
  intros HP [H1 H2]. destruct a as [g seen]. destruct o as [s x]. cbn [fst snd] in *. unfold gstep. cbn [fst snd].
  destruct (mem x seen) eqn:E.
  - assert (T := proj1 (H2 x) E). split.
    + cbn [fst]. rewrite H1. unfold once_groups, drop. cbn [gbra gket gaux]. rewrite !once_snoc_seen by exact T. reflexivity.
    + intros y. cbn [snd]. rewrite H2, times_app, times_cons. cbn [snd]. destruct (Nat.eqb x y) eqn:E2; [|cbn; lia].
      apply Nat.eqb_eq in E2. subst. lia.
  - assert (T : times x l = 0). { destruct (times x l) eqn:ET; auto. assert (mem x seen = true) by (apply H2; lia). congruence. }
    split.
    + cbn [fst]. rewrite H1. unfold once_groups. rewrite !once_snoc_new by exact T.
      destruct s; cbn; rewrite ?app_nil_r; congruence.
    + intros y. cbn [snd]. rewrite times_app, times_cons. cbn [snd]. change (mem y (x :: seen)) with (Nat.eqb y x || mem y seen).
      rewrite Nat.eqb_sym, orb_true_iff, H2. destruct (Nat.eqb x y); cbn; [|rewrite Nat.add_0_r]; intuition (try lia; congruence).
Qed.

Lemma gsteps_ok m l a : slots_ok m -> acc_ok l a -> acc_ok (l ++ m) (fold_left gstep m a).
Proof.
  revert l a. induction m as [|o m IH]; intros l a HP H; cbn [fold_left]; [rewrite app_nil_r; exact H|].
  replace (l ++ o :: m) with ((l ++ [o]) ++ m) by (rewrite <- app_assoc; reflexivity).
  apply IH; [intros o' Ho; apply HP; right; exact Ho|]. apply gstep_ok; auto. apply HP. left. reflexivity.
Qed.

Lemma acc_start : acc_ok [] (no_groups, []).
Proof. split; auto. intros x. cbn. split; [congruence|unfold times; cbn; lia]. Qed.

Lemma factor_gsteps a g : factor a g = fold_left gstep (groups_occ g) a.
Proof.
  unfold factor, groups_occ. rewrite !fold_left_app.
  assert (F : forall (f : acc -> idx -> acc) s l b, (forall c x, f c x = gstep c (s, x)) -> fold_left f l b = fold_left gstep (map (pair s) l) b).
  { intros f s l. induction l as [|x l IH]; intros b H; cbn; auto. rewrite H. apply IH. exact H. }
  rewrite (F factor_bra Bra), (F factor_ket Ket), (F factor_aux Aux); auto; intros [g' seen] x; reflexivity.
Qed.

Lemma tensor_gsteps t : tensor_unique t = fst (fold_left gstep (tensor_occ t) (no_groups, [])).
Proof.
  unfold tensor_unique, tensor_occ. rewrite !fold_left_app. f_equal.
  assert (B : forall l b, gket (fst b) = [] -> gaux (fst b) = [] ->
     fold_left tensor_bra l b = fold_left gstep (map (pair Bra) l) b /\
     gaux (fst (fold_left gstep (map (pair Bra) l) b)) = []).
  { induction l as [|x l IH]; intros [g seen] H1 H2; cbn [fold_left map fst] in *; [auto|].
    assert (E : tensor_bra (g, seen) x = gstep (g, seen) (Bra, x)).
    { unfold tensor_bra, gstep, drop, push. cbn [fst snd]. rewrite H1, H2. reflexivity. }
    rewrite E. apply IH; unfold gstep, drop, push; cbn [fst snd]; destruct (mem x seen); cbn; rewrite ?H1, ?H2; reflexivity. }
  assert (K : forall l b, gaux (fst b) = [] -> fold_left tensor_ket l b = fold_left gstep (map (pair Ket) l) b).
  { induction l as [|x l IH]; intros [g seen] H2; cbn [fold_left map fst] in *; [auto|].
    assert (E : tensor_ket (g, seen) x = gstep (g, seen) (Ket, x)).
    { unfold tensor_ket, gstep, drop, push. cbn [fst snd]. rewrite H2. reflexivity. }
    rewrite E. apply IH. unfold gstep, drop, push; cbn [fst snd]; destruct (mem x seen); cbn; rewrite ?H2; reflexivity. }
  assert (A : forall l b, fold_left tensor_aux l b = fold_left gstep (map (pair Aux) l) b).
  { induction l as [|x l IH]; intros [g seen]; cbn [fold_left map]; [auto|]. rewrite <- IH. reflexivity. }
  destruct (B (tbra t) (no_groups, []) eq_refl eq_refl) as [B1 B2]. rewrite A, K, B1; auto. rewrite B1. exact B2.
Qed.

Lemma groups_occ_slots g : slots_ok (groups_occ g).
Proof.
  intros o H. unfold groups_occ in H. rewrite !in_app_iff, !in_map_iff in H.
  destruct H as [[x [<- _]]|[[x [<- _]]|[x [<- _]]]]; discriminate.
Qed.
Lemma tensor_occ_slots t : slots_ok (tensor_occ t).
Proof. apply (groups_occ_slots (mkg (tbra t) (tket t) (taux t))). Qed.

Lemma tensor_unique_once t : tensor_unique t = once_groups (tensor_occ t).
Proof.
  rewrite tensor_gsteps. destruct (gsteps_ok (tensor_occ t) [] (no_groups, []) (tensor_occ_slots t) acc_start) as [H _]. exact H.
Qed.

(** products *)
Lemma unique_prod l :
  get_unique_indices (Prod l) = bind (unique_all l) (fun gs => Ret (once_groups (flat_map groups_occ gs))).
Proof.
  cbn [get_unique_indices].
  assert (G : forall l p a, acc_ok p a ->
    (fix go l a {struct l} := match l with
             | [] => Ret a
             | x :: l' => bind (get_unique_indices x) (fun g => go l' (factor a g))
             end) l a =
    bind (unique_all l) (fun gs => Ret (fold_left gstep (flat_map groups_occ gs) a))).
  { clear l. induction l as [|x l IH]; intros p a H; [reflexivity|]. cbn [unique_all].
    destruct (get_unique_indices x) as [g| |]; cbn [bind]; auto. rewrite factor_gsteps.
    rewrite (IH (p ++ groups_occ g)); [|apply gsteps_ok; [apply groups_occ_slots|exact H]].
    destruct (unique_all l) as [gs| |]; cbn [bind]; auto. cbn [flat_map]. rewrite fold_left_app. reflexivity. }
  rewrite (G l [] _ acc_start). destruct (unique_all l) as [gs| |]; cbn [bind]; auto. f_equal.
  assert (S : slots_ok (flat_map groups_occ gs)).
  { intros o Ho. apply in_flat_map in Ho as [g [_ Ho]]. eapply groups_occ_slots. exact Ho. }
  destruct (gsteps_ok _ [] _ S acc_start) as [H _]. exact H.
Qed.

(** ** relation to the slots of the tensors *)

Lemma times_groups_once y p : slots_ok p -> times y (groups_occ (once_groups p)) = if Nat.eqb (times y p) 1 then 1 else 0.
Proof.
  intros HP.
  assert (T : forall s l, times y (map (pair s) l) = count_occ Nat.eq_dec l y).
  { intros s l. induction l as [|x l IH]; [reflexivity|]. cbn [map]. rewrite times_cons, IH. cbn [snd count_occ].
    destruct (Nat.eq_dec x y) as [->|E]; [rewrite Nat.eqb_refl|apply Nat.eqb_neq in E; rewrite E]; reflexivity. }
  unfold groups_occ, once_groups. cbn [gbra gket gaux]. rewrite !times_app, !T.
  assert (C : forall s, count_occ Nat.eq_dec (once s p) y <= 1) by (intros s; apply (proj1 (NoDup_count_occ Nat.eq_dec _)); apply once_nodup).
  assert (Z : forall s, ~ In y (once s p) -> count_occ Nat.eq_dec (once s p) y = 0) by (intros s H; apply count_occ_not_In; exact H).
  assert (O : forall s, In y (once s p) -> count_occ Nat.eq_dec (once s p) y = 1).
  { intros s H. apply (count_occ_In Nat.eq_dec) in H. specialize (C s). lia. }
  destruct (Nat.eqb (times y p) 1) eqn:E.
  - apply Nat.eqb_eq in E. assert (E' : 1 <= times y p) by lia. apply times_pos in E' as [s Hs].
    assert (U : forall s', s' <> s -> ~ In y (once s' p)).
    { intros s' NE HI. apply once_in in HI as [HI _]. clear - E Hs HI NE.
      induction p as [|[u z] p IH]; [contradiction|]. rewrite times_cons in E. cbn [snd] in E.
      destruct Hs as [Hs|Hs]; destruct HI as [HI|HI].
      - congruence.
      - inversion Hs; subst. rewrite Nat.eqb_refl in E. assert (1 <= times y p) by (apply times_pos; eauto). lia.
      - inversion HI; subst. rewrite Nat.eqb_refl in E. assert (1 <= times y p) by (apply times_pos; eauto). lia.
      - assert (1 <= times y p) by (apply times_pos; eauto). destruct (Nat.eqb z y); [lia|]. apply IH; auto. }
    assert (I : In y (once s p)) by (apply once_in; auto).
    destruct s; [| | |exfalso; apply (HP _ Hs); reflexivity].
    + rewrite (O Bra I), (Z Ket), (Z Aux); auto; apply U; discriminate.
    + rewrite (O Ket I), (Z Bra), (Z Aux); auto; apply U; discriminate.
    + rewrite (O Aux I), (Z Bra), (Z Ket); auto; apply U; discriminate.
  - apply Nat.eqb_neq in E. rewrite !Z; auto; intros HI; apply once_in in HI as [_ HI]; contradiction.
Qed.

Lemma once_app_filter s l (p : idx -> bool) :
  (forall x, In x (once s l) -> p x = true) -> filter p (once s l) = once s l.
Proof. intros H. induction (once s l) as [|x m IH]; cbn; auto. rewrite H by (left; reflexivity). f_equal. apply IH. intros y Hy. apply H. right. exact Hy. Qed.

Definition ps_once (ps : list (list (slot * idx))) : list (slot * idx) := flat_map (fun p => groups_occ (once_groups p)) ps.

Lemma times_concat y ps : times y (concat ps) = fold_right (fun p n => times y p + n) 0 ps.
Proof. induction ps as [|p ps IH]; cbn [concat fold_right]; [reflexivity|]. rewrite times_app, IH. reflexivity. Qed.

Lemma times_ps_once y ps : (forall p, In p ps -> slots_ok p) ->
  times y (ps_once ps) = fold_right (fun p n => (if Nat.eqb (times y p) 1 then 1 else 0) + n) 0 ps.
Proof.
  unfold ps_once. induction ps as [|p ps IH]; intros H; cbn [flat_map fold_right]; [reflexivity|].
  rewrite times_app, times_groups_once, IH; auto; [intros q Hq; apply H; right; exact Hq|apply H; left; reflexivity].
Qed.

Lemma once_ps s ps : s <> Proto -> (forall p, In p ps -> slots_ok p) ->
  (forall y, times y (concat ps) <= 2) -> once s (ps_once ps) = once s (concat ps).
Proof.
  intros HS HP H2.
  assert (KEY : forall y p, In p ps -> times y p = 1 -> Nat.eqb (times y (ps_once ps)) 1 = Nat.eqb (times y (concat ps)) 1).
  { intros y p Hp H1. specialize (H2 y). rewrite times_ps_once by exact HP. rewrite times_concat in *.
    assert (E : fold_right (fun p n => (if Nat.eqb (times y p) 1 then 1 else 0) + n) 0 ps <= fold_right (fun p n => times y p + n) 0 ps).
    { clear. induction ps as [|q ps IH]; cbn; [lia|]. destruct (Nat.eqb (times y q) 1) eqn:E; [apply Nat.eqb_eq in E|]; lia. }
    assert (P1 : 1 <= fold_right (fun p n => (if Nat.eqb (times y p) 1 then 1 else 0) + n) 0 ps).
    { clear - Hp H1. induction ps as [|q ps IH]; cbn; [contradiction|]. destruct Hp as [->|Hp]; [rewrite H1, Nat.eqb_refl; lia|]. specialize (IH Hp). lia. }
    assert (P2 : fold_right (fun p n => times y p + n) 0 ps = 2 -> fold_right (fun p n => (if Nat.eqb (times y p) 1 then 1 else 0) + n) 0 ps = 2).
    { clear - Hp H1. intros H2. induction ps as [|q ps IH]; cbn in *; [contradiction|]. destruct Hp as [->|Hp].
      - rewrite H1, Nat.eqb_refl in *. assert (E : fold_right (fun p n => times y p + n) 0 ps = 1) by lia. clear - E. cut (fold_right (fun p n => (if Nat.eqb (times y p) 1 then 1 else 0) + n) 0 ps = 1); [lia|].
        induction ps as [|q ps IH]; cbn in *; [lia|]. destruct (times y q) as [|[|n]] eqn:EQ; cbn in *.
        + apply IH. exact E.
        + f_equal. clear IH. assert (E0 : fold_right (fun p n => times y p + n) 0 ps = 0) by lia. clear - E0.
          induction ps as [|q ps IH]; cbn in *; [lia|]. assert (times y q = 0) by lia. rewrite H. cbn. apply IH. lia.
        + lia.
      - destruct (times y q) as [|[|n]] eqn:EQ; cbn.
        + apply IH; auto.
        + f_equal. assert (E : fold_right (fun p n => times y p + n) 0 ps = 1) by lia. clear - E.
          induction ps as [|q ps IH]; cbn in *; [lia|]. destruct (times y q) as [|[|n]] eqn:EQ; cbn in *.
          * apply IH. exact E.
          * f_equal. assert (E0 : fold_right (fun p n => times y p + n) 0 ps = 0) by lia. clear - E0.
            induction ps as [|q ps IH]; cbn in *; [lia|]. assert (times y q = 0) by lia. rewrite H. cbn. apply IH. lia.
          * lia.
        + exfalso. assert (1 <= fold_right (fun p n => times y p + n) 0 ps).
          { clear - Hp H1. induction ps as [|q ps IH]; cbn; [contradiction|]. destruct Hp as [->|Hp]; [lia|]. specialize (IH Hp). lia. }
          lia. }
    destruct (Nat.eqb (fold_right (fun p n => times y p + n) 0 ps) 1) eqn:EB.
    - apply Nat.eqb_eq in EB. apply Nat.eqb_eq. lia.
    - apply Nat.eqb_neq in EB. apply Nat.eqb_neq. lia. }
  (* list level *)
  unfold once at 1.
  assert (F : forall qs, incl qs ps ->
    map snd (filter (fun o => slot_eqb (fst o) s && Nat.eqb (times (snd o) (ps_once ps)) 1) (ps_once qs)) =
    map snd (filter (fun o => slot_eqb (fst o) s && Nat.eqb (times (snd o) (concat ps)) 1) (concat qs))).
  { induction qs as [|q qs IH]; intros HQ; [reflexivity|].
    unfold ps_once at 2. cbn [flat_map concat]. fold (ps_once qs). rewrite !filter_app, !map_app. f_equal; [|apply IH; intros z Hz; apply HQ; right; exact Hz].
    assert (Hq : In q ps) by (apply HQ; left; reflexivity).
    assert (SEL : forall s', map snd (filter (fun o => slot_eqb (fst o) s && Nat.eqb (times (snd o) (ps_once ps)) 1) (map (pair s') (once s' q)))
              = if slot_eqb s' s then filter (fun y => Nat.eqb (times y (ps_once ps)) 1) (once s' q) else []).
    { intros s'. induction (once s' q) as [|z m IHm]; cbn; [destruct (slot_eqb s' s); reflexivity|].
      destruct (slot_eqb s' s) eqn:ES; cbn; [|exact IHm]. destruct (Nat.eqb (times z (ps_once ps)) 1); cbn; rewrite IHm; reflexivity. }
    unfold groups_occ, once_groups. cbn [gbra gket gaux]. rewrite !filter_app, !map_app, !SEL.
    assert (R : map snd (filter (fun o => slot_eqb (fst o) s && Nat.eqb (times (snd o) (concat ps)) 1) q)
              = filter (fun y => Nat.eqb (times y (ps_once ps)) 1) (once s q)).
    { unfold once. rewrite map_filter_snd, filter_filter. f_equal. apply filter_ext_in'. intros [u y] Hy. cbn [fst snd].
      destruct (slot_eqb u s); cbn [andb]; auto. destruct (Nat.eqb (times y q) 1) eqn:E1; cbn [andb].
      - apply Nat.eqb_eq in E1. symmetry. apply (KEY y q Hq E1).
      - apply Nat.eqb_neq in E1. apply Nat.eqb_neq. intros E. apply E1.
        assert (1 <= times y q) by (apply times_pos; eauto). rewrite times_concat in E.
        assert (times y q <= fold_right (fun p n => times y p + n) 0 ps).
        { clear - Hq. induction ps as [|p ps IH]; cbn; [contradiction|]. destruct Hq as [->|Hq]; [lia|]. specialize (IH Hq). lia. }
        lia. }
    rewrite R. destruct s; cbn [slot_eqb]; rewrite ?app_nil_r; try reflexivity. congruence. }
  apply F. apply incl_refl.
Qed.

Lemma occ_slots : forall e, slots_ok (occ e).
Proof.
  fix IH 1. intros [|t|c a|l|l].
  - intros o [].
  - apply tensor_occ_slots.
  - intros o [].
  - destruct l as [|x l]; [intros o []|apply (IH x)].
  - cbn [occ]. induction l as [|x l IHl]; [intros o []|]. cbn [flat_map]. intros o Ho. apply in_app_or in Ho as [Ho|Ho]; [apply (IH x o Ho)|apply IHl; exact Ho].
Qed.

Lemma unique_once : forall e, no_operators e = true -> (forall x, times x (occ e) <= 2) ->
  get_unique_indices e = Ret (once_groups (occ e)).
Proof.
  fix IH 1. intros [|t|c a|l|l] HN H2.
  - reflexivity.
  - cbn [get_unique_indices occ]. f_equal. apply tensor_unique_once.
  - discriminate.
  - destruct l as [|x l]; [reflexivity|]. exact (IH x HN H2).
  - rewrite unique_prod. cbn [occ no_operators] in *.
    assert (U : unique_all l = Ret (map (fun x => once_groups (occ x)) l)).
    { assert (H2' : forall x y, In y l -> times x (occ y) <= 2).
      { intros x y Hy. specialize (H2 x). clear - Hy H2. induction l as [|z l IHl]; cbn [flat_map In] in *; [contradiction|]. rewrite times_app in H2.
        destruct Hy as [->|Hy]; [lia|]. apply IHl; auto. lia. }
      clear H2. induction l as [|x l IHl]; [reflexivity|]. cbn [unique_all map forallb] in *. apply andb_prop in HN as [HN1 HN2].
      rewrite (IH x HN1 (fun y => H2' y x (or_introl eq_refl))). cbn [bind]. rewrite IHl; auto. intros a y Hy. apply H2'. right. exact Hy. }
    rewrite U. cbn [bind]. f_equal. rewrite flat_map_concat_map, map_map, <- flat_map_concat_map.
    set (ps := map occ l). replace (flat_map (fun x => groups_occ (once_groups (occ x))) l) with (ps_once ps).
    + assert (HP : forall p, In p ps -> slots_ok p) by (intros p Hp; apply in_map_iff in Hp as [x [<- _]]; apply occ_slots).
      assert (H3 : forall y, times y (concat ps) <= 2) by (intros y; unfold ps; rewrite <- flat_map_concat_map; apply H2).
      rewrite (flat_map_concat_map occ). fold ps. unfold once_groups. rewrite !once_ps; auto; discriminate.
    + unfold ps_once, ps. rewrite !flat_map_concat_map, map_map. reflexivity.
Qed.
