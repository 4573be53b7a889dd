(** Lemmas about the connectivity tables. *)
From Coq Require Import NArith ZArith List Arith Lia Bool Sorted Permutation Relations.
From Verif Require Import Bits_Model Bits_Spec Bits_Proofs Opt_Model Opt_Spec Opt_Proofs1.
Import ListNotations.
Local Arguments Nat.ltb : simpl never.
Local Arguments N.shiftl : simpl never.
Local Arguments N.sub : simpl never.

(* ---------- popcount and subsets ---------- *)
Lemma popcount_le a b : subset_of a b -> popcount a <= popcount b.
Proof.
  intros H. rewrite <- !nbits_length. apply NoDup_incl_length; [apply nbits_NoDup|].
  intros k Hk. apply nbits_In. apply H. apply nbits_In. auto.
Qed.

Lemma popcount_lt a b k : subset_of a b -> has b k -> ~ has a k -> popcount a < popcount b.
Proof.
  intros H Hb Ha. rewrite <- !nbits_length.
  change (S (length (nbits a))) with (length (k :: nbits a)).
  unfold lt. change (S (length (nbits a))) with (length (k :: nbits a)).
  apply NoDup_incl_length.
  - constructor; [rewrite nbits_In; auto|apply nbits_NoDup].
  - intros j [<-|Hj]; apply nbits_In; auto. apply H. apply nbits_In. auto.
Qed.

Lemma nonzero_has a : a <> 0%N <-> exists k, has a k.
Proof.
  split.
  - intros H. destruct (nbits a) as [|k l] eqn:E.
    + exfalso. apply H. apply has_ext. intros i. rewrite <- nbits_In, E, has_zero. reflexivity.
    + exists k. apply nbits_In. rewrite E. left; auto.
  - intros (k & Hk) ->. rewrite has_zero in Hk. auto.
Qed.

Lemma nodup_app {A} (l1 l2 : list A) :
  NoDup l1 -> NoDup l2 -> (forall x, In x l1 -> ~ In x l2) -> NoDup (l1 ++ l2).
Proof.
  induction 1 as [|x l Hx N IH]; cbn; intros N2 D; auto.
  constructor.
  - rewrite in_app_iff. intros [H|H]; [auto|]. apply (D x); auto.
  - apply IH; auto.
Qed.

Lemma splits_perm n a b : splits n a b -> Permutation (nbits n) (nbits a ++ nbits b).
Proof.
  intros Hs. apply NoDup_Permutation.
  - apply nbits_NoDup.
  - apply nodup_app; try apply nbits_NoDup. intros i. rewrite !nbits_In. specialize (Hs i). tauto.
  - intros i. rewrite in_app_iff, !nbits_In. specialize (Hs i). tauto.
Qed.

(* ---------- carriers ---------- *)
Definition Car (m : list (nat * N)) (k i : nat) : Prop := exists c, In (k, c) m /\ has c i.

Lemma carrier_or_keys x mk m y : In y (map fst (carrier_or x mk m)) <-> y = x \/ In y (map fst m).
Proof.
  induction m as [|(z & c) m IH]; cbn; [intuition|].
  destruct (Nat.ltb_spec x z); [cbn; intuition|].
  destruct (Nat.eqb_spec x z); [subst; cbn; intuition|].
  cbn. rewrite IH. intuition.
Qed.

Lemma carrier_or_sorted x mk m : StronglySorted lt (map fst m) -> StronglySorted lt (map fst (carrier_or x mk m)).
Proof.
  intros S. induction m as [|(z & c) m IH]; cbn; [repeat constructor|].
  inversion S as [|? ? S' F]; subst. cbn in *.
  destruct (Nat.ltb_spec x z).
  - cbn. constructor; auto. constructor; auto.
    rewrite Forall_forall in *. intros y Hy. specialize (F y Hy). lia.
  - destruct (Nat.eqb_spec x z); cbn; [subst; constructor; auto|].
    constructor; auto. rewrite Forall_forall in *. intros y Hy.
    apply carrier_or_keys in Hy as [->|Hy]; [lia|auto].
Qed.

Lemma carrier_or_Car x mk m k i :
  Car (carrier_or x mk m) k i <-> Car m k i \/ (k = x /\ has mk i).
Proof.
  unfold Car. induction m as [|(z & c) m IH]; cbn [carrier_or].
  - split.
    + intros (c & [E|[]] & H). injection E as <- <-. auto.
    + intros [(c & [] & _)|(-> & H)]. exists mk. split; [left; auto|auto].
  - destruct (Nat.ltb_spec x z).
    + split.
      * intros (d & [E|Hd] & Hi); [injection E as <- <-; auto|eauto].
      * intros [(d & Hd & Hi)|(-> & Hi)]; [exists d; split; [right|]; auto|].
        exists mk. split; [left|]; auto.
    + destruct (Nat.eqb_spec x z).
      * subst. split.
        -- intros (d & [E|Hd] & Hi).
           ++ injection E as <- <-. apply has_lor in Hi as [Hi|Hi]; auto.
              left. exists c. split; [left|]; auto.
           ++ left. exists d. split; [right|]; auto.
        -- intros [(d & [E|Hd] & Hi)|(-> & Hi)].
           ++ injection E as -> ->. exists (N.lor d mk). split; [left; auto|]. apply has_lor; auto.
           ++ exists d. split; [right|]; auto.
           ++ exists (N.lor c mk). split; [left; auto|]. apply has_lor; auto.
      * split.
        -- intros (d & [E|Hd] & Hi).
           ++ injection E as -> ->. left. exists d. split; [left|]; auto.
           ++ destruct (proj1 IH) as [(d' & H1 & H2)|]; eauto. left. exists d'. split; [right|]; auto.
        -- intros [(d & [E|Hd] & Hi)|(-> & Hi)].
           ++ injection E as -> ->. exists d. split; [left|]; auto.
           ++ destruct (proj2 IH) as (d' & H1 & H2); eauto. exists d'. split; [right|]; auto.
           ++ destruct (proj2 IH) as (d' & H1 & H2); auto. exists d'. split; [right|]; auto.
Qed.

Definition contr (net : list (list nat)) (tixs : list nat) (i j : nat) : Prop :=
  i <> j /\ exists k, k <> 0 /\ ~ In k tixs /\ In k (nth i net []) /\ In k (nth j net []).

Lemma carriers_ok net tixs :
  StronglySorted lt (map fst (carriers net tixs)) /\
  (forall k i, Car (carriers net tixs) k i <-> k <> 0 /\ ~ In k tixs /\ In k (nth i net [])).
Proof.
  assert (Inner : forall t l m, StronglySorted lt (map fst m) ->
    let r := fold_left (fun m ix => if negb (nonnull ix) then m else if contains tixs ix then m
       else carrier_or ix (N.shiftl 1 (N.of_nat t)) m) l m in
    StronglySorted lt (map fst r) /\
    (forall k i, Car r k i <-> Car m k i \/ (i = t /\ k <> 0 /\ ~ In k tixs /\ In k l))).
  { intros t. induction l as [|x l IH]; cbn [fold_left]; intros m S.
    - split; auto. intros. split; auto. intros [|(_ & _ & _ & [])]; auto.
    - destruct (nonnull x) eqn:En; cbn [negb].
      + destruct (contains tixs x) eqn:Ec.
        * destruct (IH m S) as (S1 & I1). split; auto. intros k i. rewrite I1.
          apply contains_In in Ec. cbn [In]. intuition; subst; tauto.
        * destruct (IH _ (carrier_or_sorted x (N.shiftl 1 (N.of_nat t)) m S)) as (S1 & I1).
          split; auto. intros k i. rewrite I1, carrier_or_Car, has_shiftl1.
          assert (Hx : ~ In x tixs) by (rewrite <- contains_In, Ec; discriminate).
          assert (Hn : x <> 0). { unfold nonnull in En. destruct (Nat.eqb_spec x 0); [discriminate|auto]. }
          cbn [In]. intuition; subst; tauto.
      + destruct (IH m S) as (S1 & I1). split; auto. intros k i. rewrite I1.
        assert (x = 0). { unfold nonnull in En. destruct (Nat.eqb_spec x 0); [auto|discriminate]. }
        cbn [In]. intuition; subst; tauto. }
  assert (Outer : forall A m, StronglySorted lt (map fst m) ->
    let r := fold_left (fun m k => fold_left (fun m ix => if negb (nonnull ix) then m else if contains tixs ix then m
       else carrier_or ix (N.shiftl 1 (N.of_nat k)) m) (nth k net []) m) A m in
    StronglySorted lt (map fst r) /\
    (forall k i, Car r k i <-> Car m k i \/ (In i A /\ k <> 0 /\ ~ In k tixs /\ In k (nth i net [])))).
  { induction A as [|a A IH]; cbn [fold_left]; intros m S.
    - split; auto. intros. split; auto. intros [|([] & _)]; auto.
    - destruct (Inner a (nth a net []) m S) as (S1 & I1).
      destruct (IH _ S1) as (S2 & I2). split; auto.
      intros k i. rewrite I2, I1. cbn [In]. intuition; subst; tauto. }
  destruct (Outer (seq 0 (length net)) [] ltac:(constructor)) as (S1 & I1).
  split; auto. intros k i. unfold carriers. rewrite I1. split.
  - intros [(c & [] & _)|]; tauto.
  - intros (H1 & H2 & H3). right. split; auto. apply in_seq. split; [lia|]. cbn.
    destruct (Nat.ltb_spec i (length net)); auto. rewrite nth_overflow in H3 by lia. destruct H3.
Qed.

Lemma sorted_keys_unique (m : list (nat * N)) k c c' :
  StronglySorted lt (map fst m) -> In (k, c) m -> In (k, c') m -> c = c'.
Proof.
  induction m as [|(y & d) m IH]; cbn; intros S; [tauto|].
  inversion S as [|? ? S' F]; subst. rewrite Forall_forall in F.
  intros [E|H] [E'|H'].
  - congruence.
  - injection E as -> ->. specialize (F k (in_map fst _ _ H')). lia.
  - injection E' as -> ->. specialize (F k (in_map fst _ _ H)). lia.
  - auto.
Qed.

Lemma adjacency_ok net tixs i j :
  has (contractible_adjacency net tixs i) j <-> contr net tixs i j.
Proof.
  unfold contractible_adjacency.
  assert (Inner : forall cm l (adj : nat -> N) x y,
    has (fold_left (fun adj b => vupd adj b (N.lor (adj b) (N.ldiff cm (N.shiftl 1 (N.of_nat b))))) l adj x) y
    <-> has (adj x) y \/ (In x l /\ has cm y /\ x <> y)).
  { intros cm. induction l as [|b l IH]; cbn [fold_left]; intros adj x y.
    - cbn. tauto.
    - rewrite IH. unfold vupd. destruct (Nat.eqb_spec x b) as [->|Hne].
      + rewrite has_lor, has_ldiff, has_shiftl1. cbn [In].
        destruct (Nat.eq_dec b y); [subst; tauto|]. split; intros HH; intuition congruence.
      + cbn [In]. split; intros HH; intuition congruence. }
  assert (Outer : forall (cs : list (nat * N)) (adj : nat -> N) x y,
    has (fold_left (fun (adj : nat -> N) (kv : nat * N) => let cm := snd kv in
       if Nat.ltb (popcount cm) 2 then adj
       else fold_left (fun adj b => vupd adj b (N.lor (adj b) (N.ldiff cm (N.shiftl 1 (N.of_nat b))))) (on_bits_index 64 cm) adj)
       cs adj x) y
    <-> has (adj x) y \/ exists k c, In (k, c) cs /\ has c x /\ has c y /\ x <> y).
  { induction cs as [|(k & c) cs IH]; cbn [fold_left]; intros adj x y.
    - split; auto. intros [|(? & ? & [] & _)]; auto.
    - rewrite IH. cbn [snd]. destruct (Nat.ltb_spec (popcount c) 2).
      + split.
        * intros [|(k' & c' & H1 & H2)]; auto. right. exists k', c'. split; [right|]; tauto.
        * intros [|(k' & c' & [E|H1] & H2 & H3 & H4)]; auto.
          -- injection E as <- <-. exfalso.
             assert (popcount c >= 2); [|lia].
             rewrite <- nbits_length. change 2 with (length [x; y]).
             apply NoDup_incl_length.
             ++ repeat constructor; cbn; intuition.
             ++ intros z [<-|[<-|[]]]; apply nbits_In; auto.
          -- right. exists k', c'. auto.
      + rewrite Inner, on_bits_index_eq, nbits_In. split.
        * intros [[|(H1 & H2 & H3)]|(k' & c' & H1 & H2)]; auto.
          -- right. exists k, c. split; [left|]; auto.
          -- right. exists k', c'. split; [right|]; tauto.
        * intros [|(k' & c' & [E|H1] & H2 & H3 & H4)]; auto.
          -- injection E as <- <-. auto.
          -- right. exists k', c'. auto. }
  rewrite Outer. destruct (carriers_ok net tixs) as (S & C).
  rewrite has_zero. unfold contr. split.
  - intros [[]|(k & c & H1 & H2 & H3 & H4)]. split; auto.
    pose proof (proj1 (C k i) (ex_intro _ c (conj H1 H2))).
    pose proof (proj1 (C k j) (ex_intro _ c (conj H1 H3))). exists k. tauto.
  - intros (Hij & k & H1 & H2 & H3 & H4). right.
    destruct (proj2 (C k i) (conj H1 (conj H2 H3))) as (c & Hc & Hi).
    destruct (proj2 (C k j) (conj H1 (conj H2 H4))) as (c' & Hc' & Hj).
    rewrite <- (sorted_keys_unique _ _ _ _ S Hc Hc') in Hj. eauto 8.
Qed.

Lemma contr_sym net tixs i j : contr net tixs i j -> contr net tixs j i.
Proof. intros (H & k & H1 & H2 & H3 & H4). split; [auto|]. exists k. auto. Qed.

Lemma contr_nil net i j : contr net [] i j <-> contractible net i j.
Proof.
  unfold contr, contractible. split; intros (H & k & K); split; auto; exists k; cbn in *; tauto.
Qed.

(* ---------- breadth-first search ---------- *)
Section BFS.
  Variable adj : nat -> N.

  Definition rel (n : N) (x y : nat) : Prop := has n x /\ has n y /\ has (adj x) y.

  Lemma next_spec frontier : forall y,
    has (fold_left (fun nx b => N.lor nx (adj b)) (on_bits_index 64 frontier) 0%N) y
    <-> exists x, has frontier x /\ has (adj x) y.
  Proof.
    intros y. rewrite on_bits_index_eq.
    assert (G : forall l a, has (fold_left (fun nx b => N.lor nx (adj b)) l a) y
      <-> has a y \/ exists x, In x l /\ has (adj x) y).
    { induction l as [|b l IH]; cbn [fold_left]; intros a.
      - split; auto. intros [|(? & [] & _)]; auto.
      - rewrite IH, has_lor. cbn [In]. split.
        + intros [[|]|(x & ? & ?)]; eauto.
        + intros [|(x & [<-|?] & ?)]; eauto. }
    rewrite G, has_zero. split.
    - intros [[]|(x & Hx & H)]. exists x. rewrite nbits_In in Hx. auto.
    - intros (x & Hx & H). right. exists x. rewrite nbits_In. auto.
  Qed.

  Lemma bfs_some n fuel : forall reached frontier,
    popcount (N.ldiff n reached) < fuel -> exists r, bfs adj n fuel reached frontier = Some r.
  Proof.
    induction fuel as [|fuel IH]; intros reached frontier Hf; [lia|].
    cbn [bfs]. destruct (N.eqb_spec frontier 0); [eauto|].
    set (next := N.land _ (N.ldiff n reached)).
    destruct (N.eq_dec next 0) as [E|E].
    - rewrite E. destruct fuel; cbn; eauto.
    - apply IH. apply nonzero_has in E as (k & Hk).
      assert (has (N.ldiff n reached) k) by (apply has_land in Hk; tauto).
      pose proof (popcount_lt (N.ldiff n (N.lor reached next)) (N.ldiff n reached) k) as P.
      assert (popcount (N.ldiff n (N.lor reached next)) < popcount (N.ldiff n reached)); [|lia].
      apply P; auto.
      + intros i. rewrite !has_ldiff, has_lor. tauto.
      + rewrite has_ldiff, has_lor. tauto.
  Qed.

  Lemma bfs_correct n start fuel : forall reached frontier r,
    (forall x, has frontier x -> has reached x) ->
    (forall x, has reached x -> clos_refl_trans nat (rel n) start x) ->
    (forall x, has reached x -> has n x) ->
    (forall x y, has reached x -> ~ has frontier x -> has n y -> has (adj x) y -> has reached y) ->
    bfs adj n fuel reached frontier = Some r ->
    (forall x, has reached x -> has r x) /\
    (forall x, has r x -> clos_refl_trans nat (rel n) start x) /\
    (forall x y, has r x -> has n y -> has (adj x) y -> has r y).
  Proof.
    induction fuel as [|fuel IH]; intros reached frontier r F R Rn C.
    - cbn [bfs]. destruct (N.eqb_spec frontier 0); [|discriminate].
      intros E. injection E as <-. subst. repeat split; auto.
      intros x y Hx. apply C; auto. rewrite has_zero. auto.
    - cbn [bfs]. destruct (N.eqb_spec frontier 0).
      + intros E. injection E as <-. subst. repeat split; auto.
        intros x y Hx. apply C; auto. rewrite has_zero. auto.
      + set (next := N.land _ (N.ldiff n reached)). intros E.
        assert (Hnext : forall y, has next y <-> (exists x, has frontier x /\ has (adj x) y) /\ has n y /\ ~ has reached y).
        { intros y. unfold next. rewrite has_land, next_spec, has_ldiff. tauto. }
        destruct (IH (N.lor reached next) next r) as (H1 & H2 & H3); auto.
        * intros x Hx. apply has_lor. auto.
        * intros x Hx. apply has_lor in Hx as [Hx|Hx]; auto.
          apply Hnext in Hx as ((z & Hz & Hzx) & Hn & _).
          apply rt_trans with z; auto. apply rt_step. repeat split; auto.
        * intros x Hx. apply has_lor in Hx as [Hx|Hx]; auto. apply Hnext in Hx. tauto.
        * intros x y Hx Hnx Hy Hxy. apply has_lor in Hx as [Hx|Hx]; [|tauto].
          apply has_lor. destruct (has_dec reached y); auto.
          destruct (has_dec frontier x).
          -- right. apply Hnext. eauto.
          -- left. eapply C; eauto.
        * repeat split; auto. intros x Hx. apply H1. apply has_lor. auto.
  Qed.
End BFS.

Lemma lowest_bit_has n : n <> 0%N -> has n (countr_zero n) /\ lowest_bit n = N.shiftl 1 (N.of_nat (countr_zero n)).
Proof.
  intros H. split.
  - apply nbits_In. rewrite (clear_lowest n 64 H). left. auto.
  - unfold lowest_bit. destruct (N.eqb_spec n 0); [contradiction|auto].
Qed.

Lemma bfs_terminates adj n :
  n <> 0%N -> bfs adj n (S (popcount n)) (lowest_bit n) (lowest_bit n) <> None.
Proof.
  intros H. destruct (bfs_some adj n (S (popcount n)) (lowest_bit n) (lowest_bit n)) as (r & E).
  - apply Nat.lt_succ_r. apply popcount_le. intros i Hi. apply has_ldiff in Hi. tauto.
  - congruence.
Qed.

Lemma connected_subsets_ok adj n :
  (forall x y, has (adj x) y -> has (adj y) x) ->
  connected_subsets adj n = true <-> connected_by (fun x y => has (adj x) y) (nbits n).
Proof.
  intros Sym. unfold connected_subsets.
  destruct (Nat.leb_spec (popcount n) 1) as [Hp|Hp].
  - split; auto. intros _ i j Hi Hj.
    rewrite <- nbits_length in Hp. destruct (nbits n) as [|a [|b l]]; cbn in *; [tauto| |lia].
    destruct Hi as [<-|[]], Hj as [<-|[]]. apply rt_refl.
  - assert (Hn : n <> 0%N) by (intros ->; cbn in Hp; lia).
    destruct (lowest_bit_has n Hn) as (Hlow & El).
    set (s := countr_zero n) in *.
    destruct (bfs adj n (S (popcount n)) (lowest_bit n) (lowest_bit n)) as [r|] eqn:E;
      [|exfalso; eapply bfs_terminates; eauto].
    destruct (bfs_correct adj n s (S (popcount n)) (lowest_bit n) (lowest_bit n) r) as (H1 & H2 & H3); auto.
    { intros x Hx. rewrite El, has_shiftl1 in Hx. subst. apply rt_refl. }
    { intros x Hx. rewrite El, has_shiftl1 in Hx. subst. auto. }
    { intros x y Hx Hy. contradiction. }
    assert (Hs : has r s) by (apply H1; rewrite El, has_shiftl1; auto).
    assert (Rel : forall x y, (In x (nbits n) /\ In y (nbits n) /\ has (adj x) y) <-> rel adj n x y).
    { intros x y. unfold rel. rewrite !nbits_In. tauto. }
    assert (Rch : forall x, clos_refl_trans nat (rel adj n) s x -> has r x).
    { intros x Hx. apply clos_rt_rtn1 in Hx. induction Hx as [|y z (Hy & Hz & Hyz) _ IH]; auto.
      eapply H3; eauto. }
    assert (Conv : forall x y, clos_refl_trans nat (rel adj n) x y ->
       clos_refl_trans nat (fun x y => In x (nbits n) /\ In y (nbits n) /\ has (adj x) y) x y).
    { intros x y Hxy. induction Hxy; [apply rt_step, Rel; auto|apply rt_refl|eapply rt_trans; eauto]. }
    assert (Conv' : forall x y, clos_refl_trans nat (fun x y => In x (nbits n) /\ In y (nbits n) /\ has (adj x) y) x y ->
       clos_refl_trans nat (rel adj n) x y).
    { intros x y Hxy. induction Hxy; [apply rt_step, Rel; auto|apply rt_refl|eapply rt_trans; eauto]. }
    assert (SymR : forall x y, clos_refl_trans nat (rel adj n) x y -> clos_refl_trans nat (rel adj n) y x).
    { intros x y Hxy. induction Hxy; [|apply rt_refl|eapply rt_trans; eauto].
      apply rt_step. unfold rel in *. intuition. }
    rewrite N.eqb_eq. split.
    + intros -> i j Hi Hj. apply nbits_In in Hi, Hj. apply Conv.
      apply rt_trans with s; auto.
    + intros HC. apply has_ext. intros i. split; intros Hi.
      * specialize (H2 i Hi). apply clos_rt_rtn1 in H2. destruct H2 as [|y z (Hy & Hz & _) _]; auto.
      * apply Rch. apply Conv'. apply HC; apply nbits_In; auto.
Qed.

Lemma connected_by_ext E E' A : (forall x y, E x y <-> E' x y) -> connected_by E A <-> connected_by E' A.
Proof.
  intros H. unfold connected_by. split; intros HC i j Hi Hj; specialize (HC i j Hi Hj).
  - clear Hi Hj. induction HC as [x y (? & ? & ?)| |]; [apply rt_step; rewrite <- H; auto|apply rt_refl|eapply rt_trans; eauto].
  - clear Hi Hj. induction HC as [x y (? & ? & ?)| |]; [apply rt_step; rewrite H; auto|apply rt_refl|eapply rt_trans; eauto].
Qed.

Lemma connected_by_In E A B : (forall x, In x A <-> In x B) -> connected_by E A <-> connected_by E B.
Proof.
  intros H. unfold connected_by. split; intros HC i j Hi Hj.
  - specialize (HC i j (proj2 (H i) Hi) (proj2 (H j) Hj)).
    clear Hi Hj. induction HC as [x y (? & ? & ?)| |]; [apply rt_step; rewrite <- !H; auto|apply rt_refl|].
    eapply rt_trans; eauto.
  - specialize (HC i j (proj1 (H i) Hi) (proj1 (H j) Hj)).
    clear Hi Hj. induction HC as [x y (? & ? & ?)| |]; [apply rt_step; rewrite !H; auto|apply rt_refl|].
    eapply rt_trans; eauto.
Qed.

Lemma connected_net net n :
  connected_subsets (contractible_adjacency net []) n = true <-> connected_set net (nbits n).
Proof.
  rewrite connected_subsets_ok.
  - apply connected_by_ext. intros. rewrite adjacency_ok. apply contr_nil.
  - intros x y. rewrite !adjacency_ok. apply contr_sym.
Qed.

(* ---------- every connected set of two or more splits into two connected sets ---------- *)
Lemma exit_edge (E : nat -> nat -> Prop) (n a : N) s z :
  clos_refl_trans nat (fun x y => In x (nbits n) /\ In y (nbits n) /\ E x y) s z ->
  has a s -> ~ has a z -> exists x y, has a x /\ ~ has a y /\ has n y /\ E x y.
Proof.
  intros H. apply clos_rt_rt1n in H. induction H as [|x y z (Hx & Hy & Hxy) _ IH]; [tauto|].
  intros Ha Hz. destruct (has_dec a y) as [Hay|Hay].
  - apply IH; auto.
  - exists x, y. rewrite nbits_In in Hy. auto.
Qed.

Lemma connected_grow (E : nat -> nat -> Prop) (a : N) x y :
  (forall u v, E u v -> E v u) ->
  connected_by E (nbits a) -> has a x -> E x y ->
  connected_by E (nbits (N.lor a (N.shiftl 1 (N.of_nat y)))).
Proof.
  intros Sym C Hx Hxy. set (b := N.lor a (N.shiftl 1 (N.of_nat y))).
  assert (Hb : forall k, has b k <-> has a k \/ k = y).
  { intros k. unfold b. rewrite has_lor, has_shiftl1. tauto. }
  assert (Old : forall i j, has a i -> has a j ->
    clos_refl_trans nat (fun x y => In x (nbits b) /\ In y (nbits b) /\ E x y) i j).
  { intros i j Hi Hj. specialize (C i j (proj2 (nbits_In _ _) Hi) (proj2 (nbits_In _ _) Hj)).
    clear Hi Hj. induction C as [u v (Hu & Hv & Huv)| |]; [|apply rt_refl|eapply rt_trans; eauto].
    apply rt_step. rewrite !nbits_In, !Hb. rewrite nbits_In in Hu, Hv. auto. }
  assert (Step : forall u v, has b u -> has b v -> E u v ->
     clos_refl_trans nat (fun x y => In x (nbits b) /\ In y (nbits b) /\ E x y) u v).
  { intros u v Hu Hv Huv. apply rt_step. rewrite !nbits_In. auto. }
  assert (Bx : has b x) by (apply Hb; auto). assert (By : has b y) by (apply Hb; auto).
  intros i j Hi Hj. apply nbits_In, Hb in Hi. apply nbits_In, Hb in Hj.
  destruct Hi as [Hi| ->], Hj as [Hj| ->].
  - auto.
  - apply rt_trans with x; auto.
  - apply rt_trans with x; auto.
  - apply rt_refl.
Qed.

Lemma connected_split (E : nat -> nat -> Prop) (n : N) :
  (forall u v, E u v -> E v u) ->
  connected_by E (nbits n) -> 2 <= popcount n ->
  exists l r, splits n l r /\ l <> 0%N /\ r <> 0%N /\
    connected_by E (nbits l) /\ connected_by E (nbits r).
Proof.
  intros Sym C Hp.
  assert (Hn : n <> 0%N) by (intros ->; cbn in Hp; lia).
  assert (G : forall k, 1 <= k -> k < popcount n ->
    exists a, subset_of a n /\ popcount a = k /\ connected_by E (nbits a)).
  { induction k as [|k IH]; intros H1 H2; [lia|].
    destruct k as [|k].
    - apply nonzero_has in Hn as (i & Hi). exists (N.shiftl 1 (N.of_nat i)). split; [|split].
      + intros j Hj. apply has_shiftl1 in Hj. subst. auto.
      + apply popcount_1. eauto.
      + rewrite nbits_single. intros u v [<-|[]] [<-|[]]. apply rt_refl.
    - destruct IH as (a & Ha & Hpa & Ca); [lia|lia|].
      assert (exists s, has a s) as (s & Hs). { apply nonzero_has. intros ->. cbn in Hpa. lia. }
      assert (exists z, has n z /\ ~ has a z) as (z & Hz & Hza).
      { destruct (N.eq_dec (N.ldiff n a) 0) as [E0|E0].
        - exfalso. assert (popcount n <= popcount a); [|lia]. apply popcount_le.
          intros i Hi. destruct (has_dec a i); auto. exfalso.
          assert (has (N.ldiff n a) i) by (apply has_ldiff; auto). rewrite E0, has_zero in H0. auto.
        - apply nonzero_has in E0 as (z & Hz). apply has_ldiff in Hz. eauto. }
      destruct (exit_edge E n a s z) as (x & y & Hx & Hy & Hny & Hxy); auto.
      { apply C; apply nbits_In; auto. }
      exists (N.lor a (N.shiftl 1 (N.of_nat y))). split; [|split].
      + intros i Hi. apply has_lor in Hi as [Hi|Hi]; auto. apply has_shiftl1 in Hi. subst. auto.
      + rewrite <- nbits_length in *. rewrite <- Hpa.
        assert (P : Permutation (nbits (N.lor a (N.shiftl 1 (N.of_nat y)))) (y :: nbits a)).
        { apply NoDup_Permutation.
          - apply nbits_NoDup.
          - constructor; [rewrite nbits_In; auto|apply nbits_NoDup].
          - intros i. cbn. rewrite !nbits_In, has_lor, has_shiftl1. intuition. }
        rewrite (Permutation_length P). reflexivity.
      + eapply connected_grow; eauto. }
  destruct (G (popcount n - 1)) as (a & Ha & Hpa & Ca); [lia|lia|].
  exists a, (N.lxor a n).
  assert (Hs : splits n (N.lxor a n) a) by (apply lxor_compl; auto).
  assert (Hp1 : popcount (N.lxor a n) = 1).
  { rewrite <- nbits_length in *.
    assert (P := splits_perm _ _ _ (proj1 (splits_sym _ _ _) Hs)).
    apply Permutation_length in P. rewrite app_length in P. rewrite <- !nbits_length in *. lia. }
  split; [apply splits_sym; auto|]. split; [intros ->; cbn in Hpa; lia|].
  split; [intros E0; rewrite E0 in Hp1; cbn in Hp1; lia|]. split; auto.
  apply popcount_1 in Hp1 as (k & ->). rewrite nbits_single.
  intros u v [<-|[]] [<-|[]]. apply rt_refl.
Qed.
