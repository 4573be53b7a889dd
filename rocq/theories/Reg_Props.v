(** Final theorems about index spaces, the registry and concrete contractions (C38, C51, C53-C59). *)
From Coq Require Import List NArith Bool Arith Lia Sorting.Sorted.
From Verif Require Import Reg_Model Reg_Spec Reg_Proofs Reg_Contract Reg_Conv Reg_Memo.
Import ListNotations.
Open Scope N_scope.

(** ** C38: intersection *)

(** Idempotent. *)
Theorem C38_idempotent : forall r a, intersection r a a = Ret a.
Proof. exact intersection_self. Qed.

(** For spaces with the same quantum numbers, after any history of the registry: it does not
    depend on the order of the arguments; the result contains exactly the common states; and an
    exception is thrown exactly when there are common states but no registered space consists of
    them. *)
Theorem C38_same_quantum_numbers_partial : forall l a b,
  let r := history l in
  registered r a -> registered r b -> sqn a = sqn b ->
  intersection r a b = intersection r b a /\
  (forall s, intersection r a b = Ret s -> forall x, in_space x s <-> in_space x a /\ in_space x b) /\
  (intersection r a b = Threw <->
     (exists x, in_space x a /\ in_space x b) /\
     ~ exists s, registered r s /\ forall x, in_space x s <-> in_space x a /\ in_space x b).
Proof.
  intros l a b r Ha Hb E. assert (W : unambiguous r) by apply history_unambiguous.
  split; [apply intersection_comm_same; auto|].
  assert (RS : forall s, intersection r a b = Ret s -> forall x, in_space x s <-> in_space x a /\ in_space x b).
  { intros s H. destruct (intersection_ret r a b s W Ha Hb H) as [[-> ->]|[(_ & HN & _)|[_ [(_ & H1 & H2)|(H1 & -> & _)]]]].
    - intros x. tauto.
    - contradiction.
    - apply inter_states; auto.
    - intros x. split; [intros HH; exfalso; eapply null_type_empty; [|exact HH]; reflexivity|].
      intros [[H3 _] [H4 _]]. exfalso. apply (proj1 (land_zero_bits _ _) H1 (fst x)). auto. }
  split; [exact RS|]. split.
  - intros H. apply intersection_threw in H as (_ & H1 & H2). split.
    + apply nonzero_bit in H1 as [k Hk]. rewrite N.land_spec, andb_true_iff in Hk. destruct Hk as [K1 K2].
      destruct (N.eq_dec (sqn a) 0) as [Z|Z].
      * exists (k, None). unfold in_space. cbn. rewrite <- E. auto.
      * apply nonzero_bit in Z as [j Hj]. exists (k, Some j). unfold in_space. cbn. rewrite <- E. auto.
    + intros [s [Hs HS]]. set (c := mks [] (N.land (sty a) (sty b)) (sqn a) 0).
      assert (HC : forall x, in_space x c <-> in_space x s).
      { intros x. rewrite HS. apply (inter_states a b c); auto. }
      apply (same_states c s) in HC; [|exact H1]. cbn in HC. eapply retrieve_attr_none; [exact H2|exact Hs|]. intuition congruence.
  - intros [[x Hx] HN]. destruct (intersection r a b) as [s| |] eqn:EI; auto.
    + exfalso. destruct (intersection_ret r a b s W Ha Hb EI) as [[-> ->]|[(_ & HQ & _)|[_ [(HR & _)|(H1 & -> & _)]]]].
      * apply HN. exists b. split; [auto|]. intros y. tauto.
      * contradiction.
      * apply HN. exists s. split; [exact HR|]. apply RS. reflexivity.
      * apply (RS null eq_refl) in Hx. eapply null_type_empty; [|exact Hx]. reflexivity.
    + exfalso. eapply intersection_not_asserted. exact EI.
Qed.

(** Spaces without a common quantum number: the null space, and indeed nothing is shared. *)
Theorem C38_disjoint_quantum_numbers : forall r a b,
  N.land (sqn a) (sqn b) = 0 -> sqn a <> sqn b ->
  intersection r a b = Ret null /\ intersection r b a = Ret null /\ forall x, ~ (in_space x a /\ in_space x b).
Proof.
  intros r a b H1 H2. assert (E : forall u v, N.land (sqn u) (sqn v) = 0 -> sqn u <> sqn v -> intersection r u v = Ret null).
  { intros u v U1 U2. unfold intersection. destruct (space_eqb u v) eqn:E; [apply space_eqb_iff in E; tauto|].
    rewrite U1. cbn [N.eqb andb]. apply N.eqb_neq in U2. rewrite U2. reflexivity. }
  split; [apply E; auto|]. split; [apply E; [rewrite N.land_comm; exact H1|congruence]|]. apply no_common_qn; auto.
Qed.

(** ** C53: union, and the predicates that announce whether union and intersection exist *)

Theorem C53_union : forall l a b,
  let r := history l in
  registered r a -> registered r b -> sqn a = sqn b ->
  unIon r a b = unIon r b a /\ unIon r a a = Ret a /\
  (forall s, unIon r a b = Ret s -> registered r s /\ forall x, in_space x s <-> in_space x a \/ in_space x b) /\
  (unIon r a b = Threw <->
     a <> b /\ forall s, registered r s -> sty s = N.lor (sty a) (sty b) -> sqn s = sqn a -> is_null s = true).
Proof.
  intros l a b r Ha Hb E. assert (W : unambiguous r) by apply history_unambiguous.
  assert (CT : forall u, registered r u -> contains r u = true).
  { intros u Hu. unfold contains. rewrite (retrieve_attr_in r u W Hu). reflexivity. }
  assert (U : forall u v, registered r u -> registered r v -> sqn u = sqn v ->
    unIon r u v = if space_eqb u v then Ret u else
      if is_null (find_by_attr r (N.lor (sty u) (sty v)) (sqn u)) then Threw else Ret (find_by_attr r (N.lor (sty u) (sty v)) (sqn u))).
  { intros u v Hu Hv EQ. unfold unIon. rewrite (CT u Hu), (CT v Hv), EQ, N.eqb_refl. cbn [negb]. reflexivity. }
  rewrite (U a b), (U b a), (U a a); auto.
  split; [|split; [|split]].
  - rewrite (space_eqb_sym b a), (N.lor_comm (sty b)), <- E. destruct (space_eqb a b) eqn:EQ; auto.
    rewrite (space_eqb_registered r a b W Ha Hb EQ). reflexivity.
  - assert (X : space_eqb a a = true) by (apply space_eqb_iff; auto). rewrite X. reflexivity.
  - intros s. destruct (space_eqb a b) eqn:EQ.
    + intros H. apply Ret_inj in H. subst s. split; auto. rewrite (space_eqb_registered r a b W Ha Hb EQ). tauto.
    + destruct (is_null _) eqn:EN; [discriminate|]. intros H. apply Ret_inj in H. subst s.
      destruct (find_by_attr_spec r (N.lor (sty a) (sty b)) (sqn a)) as [(H1 & H2 & H3)|[H1 _]].
      * split; auto. apply union_states; auto.
      * rewrite H1 in EN. discriminate.
  - destruct (space_eqb a b) eqn:EQ.
    + split; [discriminate|]. intros [H _]. exfalso. apply H. eapply space_eqb_registered; eauto.
    + destruct (find_by_attr_spec r (N.lor (sty a) (sty b)) (sqn a)) as [(H1 & H2 & H3)|[H1 HN]].
      * destruct (is_null _) eqn:EN.
        -- split; auto. intros _. split.
           ++ intros ->. assert (space_eqb b b = true) by (apply space_eqb_iff; auto). congruence.
           ++ intros s Hs S1 S2. assert (ES : s = find_by_attr r (N.lor (sty a) (sty b)) (sqn a)) by (apply (W s _ Hs H1); congruence).
              rewrite ES. exact EN.
        -- split; [discriminate|]. intros [_ H]. rewrite (H _ H1 H2 H3) in EN. discriminate.
      * rewrite H1, null_null. split; auto. intros _. split.
        -- intros ->. assert (space_eqb b b = true) by (apply space_eqb_iff; auto). congruence.
        -- intros s Hs S1 S2. exfalso. eapply retrieve_attr_none; eauto.
Qed.

(** If valid_unIon answers true for spaces with the same quantum numbers, the union exists. *)
Theorem C53_valid_union_partial : forall l a b,
  let r := history l in
  registered r a -> registered r b -> sqn a = sqn b -> valid_unIon r a b = true ->
  exists s, unIon r a b = Ret s /\ forall x, in_space x s <-> in_space x a \/ in_space x b.
Proof.
  intros l a b r Ha Hb E V. destruct (C53_union l a b Ha Hb E) as (_ & _ & H1 & H2). fold r in H1, H2.
  destruct (unIon r a b) as [s| |] eqn:EU.
  - exists s. split; auto. apply H1. reflexivity.
  - exfalso. destruct (proj1 H2 eq_refl) as [_ H3]. unfold valid_unIon in V. rewrite E, N.eqb_refl in V.
    rewrite andb_true_r in V. destruct (negb (bits_includes (sty a) (sty b))) eqn:EI.
    + destruct (find_by_attr_spec r (N.lor (sty a) (sty b)) (sqn b)) as [(F1 & F2 & F3)|[F1 _]].
      * rewrite (H3 _ F1 F2) in V by congruence. discriminate.
      * rewrite F1 in V. discriminate.
    + unfold bits_includes in V. rewrite N.land_diag, N.eqb_refl in V. cbn in V. discriminate.
  - exfalso. unfold unIon in EU. destruct (contains r a), (contains r b); cbn in EU; try discriminate.
    destruct (space_eqb a b); [discriminate|]. destruct (sqn a =? sqn b); cbn in EU; [|discriminate].
    destruct (is_null _); discriminate.
Qed.

(** If valid_intersection answers true for spaces with the same quantum numbers, the intersection
    exists and is not null. *)
Theorem C53_valid_intersection_partial : forall l a b,
  let r := history l in
  registered r a -> registered r b -> sqn a = sqn b -> valid_intersection r a b = true ->
  exists s, intersection r a b = Ret s /\ is_null s = false /\ forall x, in_space x s <-> in_space x a /\ in_space x b.
Proof.
  intros l a b r Ha Hb E V. destruct (C38_same_quantum_numbers_partial l a b Ha Hb E) as (_ & H1 & H2). fold r in H1, H2.
  unfold valid_intersection in V. apply andb_prop in V as [V1 V2]. apply negb_true_iff, N.eqb_neq in V1.
  rewrite <- E, N.land_diag in V2. destruct (intersection r a b) as [s| |] eqn:EI.
  - exists s. split; auto. split; [|apply H1; reflexivity]. destruct (is_null s) eqn:EN; auto. exfalso.
    apply is_null_iff in EN as (EN & _). assert (W : unambiguous r) by apply history_unambiguous.
    destruct (intersection_ret r a b s W Ha Hb EI) as [[-> ->]|[(_ & HN & _)|[_ [(_ & S1 & _)|(S1 & _)]]]].
    + rewrite N.land_diag in V1. contradiction.
    + contradiction.
    + congruence.
    + contradiction.
  - exfalso. apply intersection_threw in EI as (_ & _ & EI). rewrite EI in V2. discriminate.
  - exfalso. eapply intersection_not_asserted. exact EI.
Qed.

(** ** C54: adding, removing, looking up *)

Theorem C54_unambiguous : forall l, unambiguous (history l).
Proof. exact history_unambiguous. Qed.

(** The spaces are kept in increasing order of their keys. *)
Theorem C54_ordered : forall l, StronglySorted (fun a b => key_ltb (skey a) (skey b) = true) (spaces (history l)).
Proof. exact history_sorted. Qed.

Theorem C54_add : forall r s,
  (forall r', add r s = Ret r' -> forall x, registered r' x <-> x = s \/ registered r x) /\
  (add r s = Threw <-> exists x, registered r x /\ (skey x = skey s \/ (sty x = sty s /\ sqn x = sqn s))) /\
  add r s <> Asserted.
Proof.
  intros r s. split; [|split; [apply add_threw|apply add_not_asserted]].
  intros r' H. apply add_ret in H as (_ & H & _). exact H.
Qed.

Theorem C54_remove : forall r s x, registered (remove r s) x <-> registered r x /\ skey x <> skey s.
Proof. exact remove_in. Qed.

Theorem C54_lookup : forall l s t q,
  let r := history l in
  (retrieve_attr r t q = Some s <-> registered r s /\ sty s = t /\ sqn s = q) /\
  (find_key r (skey s) = Some s <-> registered r s).
Proof.
  intros l s t q r. assert (W : unambiguous r) by apply history_unambiguous. split; split.
  - apply retrieve_attr_some.
  - intros (H & <- & <-). apply retrieve_attr_in; auto.
  - intros H. apply find_key_some in H. tauto.
  - intros H. apply find_key_in; auto.
Qed.

Lemma take_until_app p k k' : existsb p k = false -> take_until p (k ++ k') = k ++ take_until p k'.
Proof.
  induction k as [|c k IH]; cbn; intros H; auto. apply orb_false_elim in H as [H1 H2]. rewrite H1, IH; auto.
Qed.

Lemma reduce_key_index k rest :
  existsb (N.eqb underscore) k = false -> reduce_key (k ++ underscore :: rest) = k.
Proof.
  intros H. unfold reduce_key. rewrite existsb_app. cbn [existsb]. rewrite N.eqb_refl, orb_true_r.
  rewrite take_until_app by exact H. cbn. rewrite app_nil_r. reflexivity.
Qed.

(** A space whose key contains no underscore is found by the label of each of its indices, key
    followed by an underscore and anything; and by its key if that contains no digit either,
    except as the first character. *)
Theorem C54_label : forall l s rest,
  let r := history l in
  registered r s -> existsb (N.eqb underscore) (skey s) = false ->
  retrieve_label r (skey s ++ underscore :: rest) = Some s /\
  (existsb is_digit (tl (skey s)) = false -> retrieve_label r (skey s) = Some s).
Proof.
  intros l s rest r H U. assert (W : unambiguous r) by apply history_unambiguous. unfold retrieve_label. split.
  - rewrite reduce_key_index by exact U. apply find_key_in; auto.
  - intros D. replace (reduce_key (skey s)) with (skey s); [apply find_key_in; auto|].
    unfold reduce_key. rewrite U. destruct (skey s) as [|c k]; auto. cbn in D. destruct (is_digit c) eqn:E; auto.
    rewrite <- (app_nil_r (c :: k)) at 2. rewrite take_until_app; [cbn; rewrite app_nil_r; reflexivity|].
    cbn. rewrite E. exact D.
Qed.

(** ** C55: registering unions and intersections *)

Lemma fold_attr_ret f c t q :
  fold_attr f c = Ret (t, q) -> (2 <= length c)%nat /\
  exists x c', c = x :: c' /\ t = fold_left (fun a s => f a (sty s)) c' (sty x) /\ q = fold_left (fun a s => f a (sqn s)) c' (sqn x).
Proof.
  destruct c as [|x [|y c]]; cbn; try discriminate. intros H. split; [lia|]. exists x, (y :: c). split; auto.
  apply Ret_inj in H. cbn [fold_left]. revert H. generalize (f (sty x) (sty y)) (f (sqn x) (sqn y)).
  induction c as [|z c IH]; cbn; intros u v H.
  - inversion H; auto.
  - apply IH. exact H.
Qed.

Lemma fold_lor_bits {X} (g : X -> N) c a k :
  N.testbit (fold_left (fun n s => N.lor n (g s)) c a) k = true <->
  N.testbit a k = true \/ exists s, In s c /\ N.testbit (g s) k = true.
Proof.
  revert a; induction c as [|s c IH]; intros a; cbn.
  - split; auto. intros [H|[s [[] _]]]; auto.
  - rewrite IH, N.lor_spec, orb_true_iff. split.
    + intros [[H|H]|[z [H1 H2]]]; eauto.
    + intros [H|[z [[->|H1] H2]]]; eauto.
Qed.

Lemma fold_land_bits {X} (g : X -> N) c a k :
  N.testbit (fold_left (fun n s => N.land n (g s)) c a) k = true <->
  N.testbit a k = true /\ forall s, In s c -> N.testbit (g s) k = true.
Proof.
  revert a; induction c as [|s c IH]; intros a; cbn.
  - split; [intros H; split; [exact H|intros s []]|tauto].
  - rewrite IH, N.land_spec, andb_true_iff. split.
    + intros [[H1 H2] H3]. split; auto. intros z [->|HZ]; auto.
    + intros [H1 H2]. split; auto.
Qed.

(** add_unIon adds one space under the given key; its subspaces and quantum numbers are those of
    the components. The same for add_intersection. *)
Theorem C55_add_union : forall r k c r',
  add_unIon r k c = Ret r' ->
  (2 <= length c)%nat /\
  exists s, skey s = k /\ (forall x, registered r' x <-> x = s \/ registered r x) /\ ~ registered r s /\
    (forall j, N.testbit (sty s) j = true <-> exists x, In x c /\ N.testbit (sty x) j = true) /\
    (forall j, N.testbit (sqn s) j = true <-> exists x, In x c /\ N.testbit (sqn x) j = true).
Proof.
  intros r k c r' H. apply bind_ret in H as [[t q] [H1 H]]. apply bind_ret in H as [n [H2 H]]. cbn [fst snd] in *.
  apply fold_attr_ret in H1 as [L (x & c' & -> & -> & ->)]. split; [exact L|].
  apply add_ret in H as (H3 & H4 & _). eexists. split; [|split; [exact H4|split]]; [reflexivity| |].
  - intros HR. apply H3 in HR as [HR _]. apply HR. reflexivity.
  - cbn. split; intros j; rewrite fold_lor_bits; split.
    + intros [HH|[s [HI HH]]]; eauto.
    + intros [s [[->|HI] HH]]; eauto.
    + intros [HH|[s [HI HH]]]; eauto.
    + intros [s [[->|HI] HH]]; eauto.
Qed.

Theorem C55_add_intersection : forall r k c r',
  add_intersection r k c = Ret r' ->
  (2 <= length c)%nat /\
  exists s, skey s = k /\ (forall x, registered r' x <-> x = s \/ registered r x) /\ ~ registered r s /\
    (forall j, N.testbit (sty s) j = true <-> forall x, In x c -> N.testbit (sty x) j = true) /\
    (forall j, N.testbit (sqn s) j = true <-> forall x, In x c -> N.testbit (sqn x) j = true).
Proof.
  intros r k c r' H. apply bind_ret in H as [[t q] [H1 H]]. apply bind_ret in H as [n [H2 H]]. cbn [fst snd] in *.
  apply fold_attr_ret in H1 as [L (x & c' & -> & -> & ->)]. split; [exact L|].
  apply add_ret in H as (H3 & H4 & _). eexists. split; [|split; [exact H4|split]]; [reflexivity| |].
  - intros HR. apply H3 in HR as [HR _]. apply HR. reflexivity.
  - cbn. split; intros j; rewrite fold_land_bits; split.
    + intros [HH HI] s [->|HS]; auto.
    + intros HH. split; auto.
    + intros [HH HI] s [->|HS]; auto.
    + intros HH. split; auto.
Qed.

Lemma single_bit_throws r k t q n : compute_size r t q = n -> (exists j, t = 2 ^ j) -> (do m <- n; add r (mks k t q m)) = Threw.
Proof.
  intros <- HB. unfold compute_size. apply is_base_type_iff in HB. rewrite HB. unfold retrieve.
  destruct (retrieve_attr r t q) as [s|] eqn:E; cbn [bind]; auto.
  apply add_threw. apply retrieve_attr_some in E as (E1 & E2 & E3). exists s. cbn. auto.
Qed.

(** A union or an intersection that consists of one basis subspace can never be registered: an
    exception is thrown, whether or not there is such a space already. *)
Theorem C55_single_subspace_refuted : forall r k c t q,
  (exists j, t = 2 ^ j) ->
  (fold_attr N.lor c = Ret (t, q) -> add_unIon r k c = Threw) /\
  (fold_attr N.land c = Ret (t, q) -> add_intersection r k c = Threw).
Proof.
  intros r k c t q HB. unfold add_unIon, add_intersection. split; intros H; rewrite H; cbn [bind fst snd].
  - apply (single_bit_throws r k t q _ eq_refl HB).
  - apply (single_bit_throws r k t q _ eq_refl HB).
Qed.

(** ** C56: the memoized lists of base spaces *)

(** In histories without sharing copies, assignment and clear, and with the mask of an object set
    only before its lists are asked for: every query answers what is registered at that moment. *)
Theorem C56_base_spaces_partial : forall h c,
  simple_history h -> simple h c -> right_answer h c (snd (exec h c)).
Proof. intros h c H _. apply simple_answers. apply simple_history_inv. exact H. Qed.

(** ** C51: contracting two operators *)

(** After any history: if the decision whether two operators can be contracted is made, it is
    right: yes exactly if at some state that both spaces contain the vacuum expectation value is
    nonzero. *)
Theorem C51_can_contract : forall l m occ all a b v,
  let r := mkr (spaces (history l)) m occ all in
  proper r -> registered r (osp a) -> registered r (osp b) -> within r (osp a) -> within r (osp b) ->
  can_contract r a b = Ret v ->
  (v = true <-> exists x, in_space x (osp a) /\ in_space x (osp b) /\ vev occ (ocr a) (ocr b) x x = 1%nat).
Proof.
  intros l m occ all a b v r P Ha Hb Ca Cb H. apply (can_contract_ret r a b v); auto.
  intros u w Hu Hw. apply (history_unambiguous l u w Hu Hw).
Qed.

(** If moreover the occupied subspaces are the lowest bits, the contraction that is formed has the
    vacuum expectation value at every two states. *)
Theorem C51_contract_partial : forall l m occ all a b fs,
  let r := mkr (spaces (history l)) m occ all in
  proper r -> registered r (osp a) -> registered r (osp b) -> within r (osp a) -> within r (osp b) ->
  (exists k, occ = N.ones k) ->
  contract r a b = Ret fs ->
  forall x y, in_space x (osp a) -> in_space y (osp b) -> value fs x y = vev occ (ocr a) (ocr b) x y.
Proof.
  intros l m occ all a b fs r P Ha Hb Ca Cb O H x y Hx Hy. apply (contract_value r a b fs x y); auto.
  intros u w Hu Hw. apply (history_unambiguous l u w Hu Hw).
Qed.

(** ** C57: the ready-made registries *)

(** Every contraction of two operators over spaces of the conventions Minimal, SR, MinimalMR, MR
    and F12, with and without spin, is decided without an exception, decided rightly, and formed
    with the right value. *)
Theorem C57_conventions_partial : forall items spin a b,
  In items [min_sr_items; sr_items; min_mr_items; mr_items; f12_items] ->
  exists r, make items spin = Ret r /\
    (registered r (osp a) -> registered r (osp b) -> sty (osp a) <> 0 -> sty (osp b) <> 0 ->
     exists v, can_contract r a b = Ret v /\
       (v = true <-> exists x, in_space x (osp a) /\ in_space x (osp b) /\ vev (vacocc r) (ocr a) (ocr b) x x = 1%nat) /\
       (v = true -> exists fs, contract r a b = Ret fs /\
          forall x y, in_space x (osp a) -> in_space y (osp b) -> value fs x y = vev (vacocc r) (ocr a) (ocr b) x y)).
Proof.
  intros items spin a b HI. apply good_contractions.
  destruct HI as [<-|[<-|[<-|[<-|[<-|[]]]]]];
    [apply good_min_sr|apply good_sr|apply good_min_mr|apply good_mr|apply good_f12].
Qed.

(** In the convention QCiFS (make_legacy_spaces) no annihilator can be contracted with anything on
    its right: the unoccupied space is not registered, and an exception is thrown. *)
Theorem C57_QCiFS_refuted : forall spin,
  exists r, make legacy_items spin = Ret r /\
    forall a b, registered r (osp a) -> ocr a = false -> can_contract r a b = Threw.
Proof.
  intros spin. destruct (make legacy_items spin) as [r| |] eqn:E; [|destruct spin; vm_compute in E; discriminate|destruct spin; vm_compute in E; discriminate].
  exists r. split; [reflexivity|]. intros a b Ha Hc.
  assert (HF : forallb (fun s => match either (contains_occupied r s) false (contains_unoccupied r s) true with Threw => true | _ => false end) (spaces r) = true).
  { destruct spin; vm_compute in E; injection E as <-; vm_compute; reflexivity. }
  clear E. rewrite forallb_forall in HF. specialize (HF (osp a) Ha).
  assert (G : forall m : res bool, match m with Threw => true | _ => false end = true -> m = Threw) by (intros [?| |]; congruence).
  assert (HE : is_qpannihilator r a = Threw) by (unfold is_qpannihilator; rewrite Hc; apply G; exact HF).
  unfold can_contract. rewrite HE. reflexivity.
Qed.

(** ** C58: the bitsets *)

Lemma mk_bits_ok b : b < 2 ^ 31 -> mk_bits b = Ret b.
Proof.
  intros H. unfold mk_bits, reserved. replace (N.land b (2 ^ 31)) with 0; [reflexivity|].
  symmetry. apply land_zero_bits. intros k [H1 H2]. rewrite N.pow2_bits_eqb in H2. apply N.eqb_eq in H2. subst k.
  destruct (N.eq_dec b 0) as [->|E]; [discriminate|].
  rewrite N.bits_above_log2 in H1; [discriminate|]. apply N.log2_lt_pow2; lia.
Qed.

Lemma small_bits b : (forall k, N.testbit b k = true -> k < 31) -> b < 2 ^ 31.
Proof.
  intros H. destruct (N.eq_dec b 0) as [->|E]; [reflexivity|]. apply N.log2_lt_pow2; [lia|]. apply H. apply N.bit_log2. exact E.
Qed.

Lemma small_bits_inv b k : b < 2 ^ 31 -> N.testbit b k = true -> k < 31.
Proof.
  intros H Hk. destruct (N.lt_ge_cases k 31) as [L|L]; auto. destruct (N.eq_dec b 0) as [->|E]; [rewrite N.bits_0 in Hk; discriminate|].
  apply N.log2_lt_pow2 in H; [|lia]. rewrite N.bits_above_log2 in Hk by lia. discriminate.
Qed.

(** Union, intersection and symmetric difference of two constructible bitsets can be constructed
    and are those of the sets of bits; inclusion is inclusion. *)
Theorem C58_bitsets : forall a b,
  a < 2 ^ 31 -> b < 2 ^ 31 ->
  (exists u, bits_unIon a b = Ret u /\ u < 2 ^ 31 /\ forall k, N.testbit u k = N.testbit a k || N.testbit b k) /\
  (exists u, bits_intersection a b = Ret u /\ u < 2 ^ 31 /\ forall k, N.testbit u k = N.testbit a k && N.testbit b k) /\
  (exists u, bits_xOr a b = Ret u /\ u < 2 ^ 31 /\ forall k, N.testbit u k = xorb (N.testbit a k) (N.testbit b k)) /\
  (bits_includes a b = true <-> forall k, N.testbit b k = true -> N.testbit a k = true).
Proof.
  intros a b Ha Hb.
  assert (S1 : N.lor a b < 2 ^ 31).
  { apply small_bits. intros k Hk. rewrite N.lor_spec in Hk. apply orb_true_iff in Hk as [Hk|Hk]; [apply (small_bits_inv a)|apply (small_bits_inv b)]; assumption. }
  assert (S2 : N.land a b < 2 ^ 31).
  { apply small_bits. intros k Hk. rewrite N.land_spec in Hk. apply andb_prop in Hk as [Hk _]. apply (small_bits_inv a); assumption. }
  assert (S3 : N.lxor a b < 2 ^ 31).
  { apply small_bits. intros k Hk. rewrite N.lxor_spec in Hk.
    destruct (N.testbit a k) eqn:E1; [apply (small_bits_inv a); assumption|]. rewrite xorb_false_l in Hk. apply (small_bits_inv b); assumption. }
  split; [|split; [|split]].
  - exists (N.lor a b). split; [apply mk_bits_ok; exact S1|]. split; [exact S1|]. intros k. apply N.lor_spec.
  - exists (N.land a b). split; [apply mk_bits_ok; exact S2|]. split; [exact S2|]. intros k. apply N.land_spec.
  - exists (N.lxor a b). split; [apply mk_bits_ok; exact S3|]. split; [exact S3|]. intros k. apply N.lxor_spec.
  - unfold bits_includes. rewrite N.eqb_eq. split.
    + intros H k Hk. rewrite <- H, N.land_spec in Hk. apply andb_prop in Hk. tauto.
    + intros H. apply N.bits_inj. intros k. rewrite N.land_spec. specialize (H k).
      destruct (N.testbit b k); [rewrite H; auto|apply andb_false_r].
Qed.

(** The complement of a constructible bitset never satisfies the precondition of the constructor
    it is converted with. *)
Theorem C58_complement_refuted : forall a, a < 2 ^ 31 -> bits_not a = Asserted.
Proof.
  intros a H. unfold bits_not, mk_bits. destruct (N.land _ reserved =? 0) eqn:E; auto. apply N.eqb_eq in E. exfalso.
  apply (proj1 (land_zero_bits _ _) E 31). split; [|reflexivity]. rewrite N.lxor_spec, N.ones_spec_low by lia.
  destruct (N.testbit a 31) eqn:E2; auto. apply (small_bits_inv a 31 H) in E2. lia.
Qed.

(** ** C59: occupied spaces for particular quantum numbers *)

(** With assertions enabled setting them never succeeds, whatever is registered. *)
Theorem C59_with_assertions_refuted : forall r m, throw_if_missing_any true r m <> Ret tt.
Proof.
  intros r m. unfold throw_if_missing_any.
  assert (I : forall s n m', missing_inner true s n m' [] = Ret (Some []) \/ missing_inner true s n m' [] = Asserted).
  { intros s n m'. induction m' as [|[q t] m' IH]; cbn; auto. destruct (attr_eqb s t q); auto. }
  induction (spaces r) as [|s l IH]; cbn; [discriminate|].
  destruct (I s (length m) m) as [->| ->]; [exact IH|discriminate].
Qed.

(** Without assertions: an empty map is refused, ... *)
Theorem C59_empty_map_refuted : forall a r, throw_if_missing_any a r [] = Threw.
Proof. intros a r. unfold throw_if_missing_any. induction (spaces r) as [|s l IH]; cbn; auto. Qed.

Section Missing.
  Variable m : list (N * N).
  Hypothesis Hm : NoDup (map fst m).

  (** what has been found so far: distinct keys of the map, each matched by a space seen *)
  Definition found_ok (seen : list space) (f : list N) : Prop :=
    NoDup f /\ forall q, In q f -> exists t s, In (q, t) m /\ In s seen /\ attr_eqb s t q = true.

  Lemma found_length seen f : found_ok seen f -> (length f <= length m)%nat.
  Proof.
    intros [H1 H2]. rewrite <- (map_length fst m). apply NoDup_incl_length; auto.
    intros q Hq. destruct (H2 q Hq) as (t & s & HI & _). apply in_map_iff. exists (q, t). auto.
  Qed.

  Lemma inner_ok seen s m' f :
    incl m' m -> In s seen -> found_ok seen f ->
    match missing_inner false s (length m) m' f with
    | Ret None => exists f', found_ok seen f' /\ length f' = length m
    | Ret (Some f') => found_ok seen f' /\ incl f f' /\
        (forall q t, In (q, t) m' -> attr_eqb s t q = true -> In q f') /\
        (f <> f' -> (length f' < length m)%nat)
    | _ => False
    end.
  Proof.
    revert f. induction m' as [|[q t] m' IH]; intros f HI HS HF; cbn [missing_inner].
    - split; auto. split; [apply incl_refl|]. split; [intros ? ? []|congruence].
    - destruct (attr_eqb s t q) eqn:E.
      + destruct (existsb (N.eqb q) f) eqn:EX; cbn [negb andb].
        * destruct (Nat.eqb (length f) (length m)) eqn:EL.
          -- exists f. apply Nat.eqb_eq in EL. auto.
          -- assert (HI' : incl m' m) by (intros z Hz; apply HI; right; exact Hz).
             specialize (IH f HI' HS HF). destruct (missing_inner false s (length m) m' f) as [[f'|]| |]; auto.
             destruct IH as (I1 & I2 & I3 & I4). split; auto. split; auto. split; auto.
             intros q' t' [HE|HE] HA; eauto. inversion HE; subst. apply existsb_exists in EX as [z [Z1 Z2]].
             apply N.eqb_eq in Z2. subst. auto.
        * assert (HF' : found_ok seen (q :: f)).
          { destruct HF as [F1 F2]. split.
            - constructor; auto. intros HQ. assert (existsb (N.eqb q) f = true) by (apply existsb_exists; exists q; split; auto; apply N.eqb_refl). congruence.
            - intros z [<-|Hz]; auto. exists t, s. split; auto. apply HI. left. reflexivity. }
          destruct (Nat.eqb (length (q :: f)) (length m)) eqn:EL.
          -- exists (q :: f). apply Nat.eqb_eq in EL. auto.
          -- assert (HI' : incl m' m) by (intros z Hz; apply HI; right; exact Hz).
             specialize (IH (q :: f) HI' HS HF'). destruct (missing_inner false s (length m) m' (q :: f)) as [[f'|]| |]; auto.
             destruct IH as (I1 & I2 & I3 & I4). split; auto. split; [intros z Hz; apply I2; right; exact Hz|].
             split.
             ++ intros q' t' [HE|HE] HA; eauto. inversion HE; subst. apply I2. left. reflexivity.
             ++ intros _. destruct (list_eq_dec N.eq_dec (q :: f) f') as [<-|NE]; auto.
                apply Nat.eqb_neq in EL. assert (LL := found_length _ _ HF'). lia.
      + assert (HI' : incl m' m) by (intros z Hz; apply HI; right; exact Hz).
        specialize (IH f HI' HS HF). destruct (missing_inner false s (length m) m' f) as [[f'|]| |]; auto.
        destruct IH as (I1 & I2 & I3 & I4). split; auto. split; auto. split; auto.
        intros q' t' [HE|HE] HA; eauto. inversion HE; subst. congruence.
  Qed.

  Lemma outer_ok todo : forall seen f,
    found_ok seen f -> (length f < length m)%nat ->
    (forall q t s, In (q, t) m -> In s seen -> attr_eqb s t q = true -> In q f) ->
    (missing_outer false todo m f = Ret tt <->
       forall q t, In (q, t) m -> exists s, In s (seen ++ todo) /\ attr_eqb s t q = true) /\
    missing_outer false todo m f <> Asserted.
  Proof.
    induction todo as [|s todo IH]; intros seen f HF HL HC; cbn [missing_outer].
    - split; [|discriminate]. split; [discriminate|]. intros H. exfalso. rewrite app_nil_r in H.
      assert (incl (map fst m) f).
      { intros q Hq. apply in_map_iff in Hq as [[q' t] [<- HI]]. destruct (H q' t HI) as [s [S1 S2]]. eapply HC; eauto. }
      apply NoDup_incl_length in H0; auto. rewrite map_length in H0. lia.
    - assert (HF' : found_ok (seen ++ [s]) f).
      { destruct HF as [F1 F2]. split; auto. intros q Hq. destruct (F2 q Hq) as (t & s' & A & B & C). exists t, s'. split; auto. split; auto. apply in_or_app; auto. }
      assert (HS : In s (seen ++ [s])) by (apply in_or_app; right; left; reflexivity).
      assert (HI := inner_ok (seen ++ [s]) s m f (incl_refl m) HS HF').
      destruct (missing_inner false s (length m) m f) as [[f'|]| |]; try contradiction.
      + destruct HI as (I1 & I2 & I3 & I4).
        assert (HL' : (length f' < length m)%nat).
        { destruct (list_eq_dec N.eq_dec f f') as [<-|NE]; auto. }
        destruct (IH (seen ++ [s]) f' I1 HL') as [IH1 IH2].
        { intros q t s' A B C. apply in_app_or in B as [B|[<-|[]]]; eauto. }
        rewrite <- app_assoc in IH1. cbn in IH1. auto.
      + split; [|discriminate]. split; auto. intros _ q t HQ. destruct HI as (f' & [F1 F2] & FL).
        assert (HA : incl (map fst m) f').
        { apply NoDup_length_incl; auto; [rewrite map_length; lia|].
          intros z Hz. destruct (F2 z Hz) as (t' & _ & A & _). apply in_map_iff. exists (z, t'). auto. }
        assert (HQ' : In q f') by (apply HA; apply in_map_iff; exists (q, t); auto).
        destruct (F2 q HQ') as (t' & s' & A & B & C). assert (t' = t).
        { clear - Hm HQ A. induction m as [|[a b] mm IH]; cbn in *; [tauto|]. inversion Hm; subst.
          assert (NI : forall v, In (q, v) mm -> In q (map fst mm)) by (intros v Hv; apply in_map_iff; exists (q, v); auto).
          destruct HQ as [HQ|HQ]; destruct A as [A|A]; try congruence; auto.
          - inversion HQ; subst. exfalso. eauto.
          - inversion A; subst. exfalso. eauto. }
        subst t'. exists s'. split; auto. apply in_app_or in B as [B|[<-|[]]]; apply in_or_app; auto. right. left. reflexivity.
  Qed.
End Missing.

(** ... and a nonempty one is accepted exactly if for every entry there is a registered space. *)
Theorem C59_without_assertions : forall r m,
  m <> [] -> NoDup (map fst m) ->
  (throw_if_missing_any false r m = Ret tt <->
     forall q t, In (q, t) m -> exists s, registered r s /\ sty s = t /\ sqn s = q) /\
  throw_if_missing_any false r m <> Asserted.
Proof.
  intros r m H1 H2. destruct (outer_ok m H2 (spaces r) [] []) as [HA HB].
  - split; [constructor|intros q []].
  - destruct m; [congruence|cbn; lia].
  - intros q t s _ [].
  - split; [|exact HB]. unfold throw_if_missing_any. rewrite HA. cbn [app]. split; intros H q t HQ.
    + destruct (H q t HQ) as [s [A B]]. apply attr_eqb_iff in B. exists s. auto.
    + destruct (H q t HQ) as [s (A & B & C)]. exists s. split; auto. apply attr_eqb_iff. auto.
Qed.
