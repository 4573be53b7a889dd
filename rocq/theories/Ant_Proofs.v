(** * Proofs about the enumeration of arrangements and its antisymmetry *)
From Coq Require Import List Arith Lia Bool ZArith Permutation Sorted Factorial.
From Verif Require Import Alg_Model Alg_Spec Alg_Proofs2 Alg_Props Ant_Model Ant_Spec.
Import ListNotations.

(** ** Relation with [next_permutation_parity] *)
Lemma swapcount_loop_parity s b p :
  next_perm_loop Nat.ltb p s b =
  option_map (fun r : bool * list nat * nat => (fst r, Z.rem (p + Z.of_nat (snd r)) 2)) (swapcount_loop s b).
Proof.
  revert s. induction b as [|x b IH]; intros s; cbn [next_perm_loop swapcount_loop]; [reflexivity|].
  destruct s as [|y s]; [reflexivity|].
  destruct (Nat.ltb x y).
  - destruct (swap_pivot Nat.ltb x (rev (y :: s))) as [[z rsw]|]; [|reflexivity].
    cbn [option_map fst snd]. do 2 f_equal. f_equal. rewrite Nat2Z.inj_add. change (Z.of_nat 1) with 1%Z. lia.
  - destruct b as [|x' b']; [reflexivity|]. apply IH.
Qed.

Lemma swapcount_next_parity l p : 2 <= length l ->
  next_permutation_parity Nat.ltb p l =
  option_map (fun r : bool * list nat * nat => (fst r, Z.rem (p + Z.of_nat (snd r)) 2)) (swapcount_next l).
Proof.
  intros L. unfold next_permutation_parity, swapcount_next.
  destruct (rev l) as [|y [|z b]] eqn:E.
  - apply (f_equal (@length nat)) in E. rewrite rev_length in E. cbn in E. lia.
  - apply (f_equal (@length nat)) in E. rewrite rev_length in E. cbn in E. lia.
  - apply swapcount_loop_parity.
Qed.

Lemma swapcount_loop_length s b r : swapcount_loop s b = Some r -> length (snd (fst r)) = length s + length b.
Proof.
  revert s r. induction b as [|x b IH]; intros s r H; cbn [swapcount_loop] in H; [discriminate|].
  destruct s as [|y s]; [discriminate|].
  destruct (Nat.ltb x y).
  - assert (SP : forall x l z q, swap_pivot Nat.ltb x l = Some (z, q) -> length q = length l).
    { clear. intros x l. induction l as [|w l IH]; intros z q E; cbn [swap_pivot] in E; [discriminate|].
      destruct (Nat.ltb x w); [injection E as <- <-; reflexivity|].
      destruct (swap_pivot Nat.ltb x l) as [[z1 q1]|]; [|discriminate]. cbn [option_map fst snd] in E.
      injection E as <- <-. cbn. f_equal. eauto. }
    destruct (swap_pivot Nat.ltb x (rev (y :: s))) as [[z rsw]|] eqn:E; [|discriminate].
    apply SP in E. rewrite rev_length in E. injection H as <-. cbn [fst snd].
    rewrite app_length, rev_length. cbn [length] in *. lia.
  - destruct b as [|x' b'].
    + apply (f_equal (fun o => match o with Some r => length (snd (fst r)) | None => 0 end)) in H.
      cbn [fst snd] in H. rewrite <- H, rev_length. cbn. lia.
    + apply IH in H. rewrite H. cbn. lia.
Qed.

Lemma swapcount_next_length l r : swapcount_next l = Some r -> length (snd (fst r)) = length l.
Proof.
  unfold swapcount_next. intros H. rewrite <- (rev_length l).
  destruct (rev l) as [|y [|z b]] eqn:E.
  - injection H as <-. cbn. rewrite <- rev_length, E. reflexivity.
  - injection H as <-. cbn. rewrite <- rev_length, E. reflexivity.
  - apply swapcount_loop_length in H. rewrite H. reflexivity.
Qed.

Definition entry (groups : list (nat * nat)) (qp : list nat * Z) : Z * list nat :=
  (if Z.eqb (snd qp) 0 then 1%Z else (-1)%Z, fst qp).

Lemma rem_total t k : Z.rem (Z.of_nat (t mod 2) + Z.of_nat k) 2 = Z.of_nat ((t + k) mod 2).
Proof.
  rewrite Z.rem_mod_nonneg by lia. rewrite Nat2Z.inj_mod, Nat2Z.inj_mod, Nat2Z.inj_add.
  change (Z.of_nat 2) with 2%Z. rewrite Zplus_mod_idemp_l. reflexivity.
Qed.

Lemma gen_loop_calls groups : forall fuel t l calls fin, 2 <= length l ->
  antisym_loop Nat.ltb fuel (Z.of_nat (t mod 2)) l = Some (calls, fin) ->
  exists cs, calls = (l, Z.of_nat (t mod 2)) :: cs /\
    gen_loop groups fuel t l =
      Some (map (entry groups) (filter (fun qp => is_canonical groups (fst qp)) cs)).
Proof.
  induction fuel as [|f IH]; intros t l calls fin L H; [discriminate|].
  cbn [antisym_loop gen_loop] in *. rewrite swapcount_next_parity in H by assumption.
  destruct (swapcount_next l) as [[[[] l'] k]|] eqn:E; cbn [option_map fst snd] in H; [| |discriminate].
  - rewrite rem_total in H.
    destruct (antisym_loop Nat.ltb f (Z.of_nat ((t + k) mod 2)) l') as [[calls' fin']|] eqn:E2; [|discriminate].
    cbn [option_map fst snd] in H. injection H as <- <-.
    apply IH in E2; [|apply swapcount_next_length in E; cbn in E; lia].
    destruct E2 as (cs & -> & G). rewrite G. eexists. split; [reflexivity|].
    cbn [filter fst]. destruct (is_canonical groups l'); [|reflexivity].
    cbn [map]. unfold entry at 2. cbn [fst snd]. do 2 f_equal. f_equal.
    destruct (Nat.eqb_spec ((t + k) mod 2) 0) as [->|N]; [reflexivity|].
    destruct (Z.eqb_spec (Z.of_nat ((t + k) mod 2)) 0); [lia|reflexivity].
  - injection H as <- <-. exists []. split; reflexivity.
Qed.

(** ** Groups *)
Lemma is_sorted_SS l : NoDup l -> is_sorted l = true <-> StronglySorted lt l.
Proof.
  induction l as [|x l IH]; intros ND; [split; [constructor|reflexivity]|].
  inversion ND as [|? ? Nx ND']; subst. specialize (IH ND').
  destruct l as [|y l].
  - split; [intros _; repeat constructor|reflexivity].
  - change (is_sorted (x :: y :: l)) with (negb (Nat.ltb y x) && is_sorted (y :: l)).
    rewrite andb_true_iff, IH, negb_true_iff, Nat.ltb_ge. split.
    + intros [L S]. constructor; [assumption|]. inversion S as [|? ? S' F]; subst.
      assert (x < y) by (assert (x <> y) by (intros ->; apply Nx; left; reflexivity); lia).
      constructor; [assumption|]. eapply Forall_impl; [|exact F]. cbn. intros. lia.
    + intros S. inversion S as [|? ? S' F]; subst. split; [|assumption].
      inversion F; subst. lia.
Qed.

Fixpoint groups_of (start : nat) (ranks : list nat) : list (nat * nat) :=
  match ranks with
  | [] => []
  | r :: rs => (start, start + r) :: groups_of (start + r) rs
  end.

Lemma skipn_skipn' {A} (a b : nat) (l : list A) : skipn a (skipn b l) = skipn (b + a) l.
Proof. revert l. induction b as [|b IH]; intros l; [reflexivity|]. destruct l; cbn; [apply skipn_nil|apply IH]. Qed.

Lemma NoDup_firstn {A} n (l : list A) : NoDup l -> NoDup (firstn n l).
Proof. intros H. rewrite <- (firstn_skipn n l) in H.
  revert H. generalize (skipn n l). generalize (firstn n l). clear. intros u v. induction u as [|x u IH]; intros H; [constructor|].
  inversion H; subst. constructor; [rewrite in_app_iff in *; tauto|auto]. Qed.
Lemma NoDup_skipn {A} n (l : list A) : NoDup l -> NoDup (skipn n l).
Proof. revert l. induction n as [|n IH]; intros [|x l] H; cbn; auto. inversion H; auto. Qed.

Lemma canonical_split ranks : forall start q, NoDup q ->
  is_canonical (groups_of start ranks) q = true <-> Forall (StronglySorted lt) (split_by ranks (skipn start q)).
Proof.
  induction ranks as [|r rs IH]; intros start q ND; cbn [groups_of split_by].
  - split; [constructor|reflexivity].
  - unfold is_canonical. cbn [forallb fst snd]. fold (is_canonical (groups_of (start + r) rs) q).
    rewrite andb_true_iff, IH by assumption. rewrite Forall_cons_iff, skipn_skipn'.
    replace (start + r - start) with r by lia.
    rewrite is_sorted_SS by (apply NoDup_firstn, NoDup_skipn, ND). reflexivity.
Qed.

Lemma seq_sorted_ltb n s : in_sorted_order Nat.ltb (seq s n).
Proof.
  unfold in_sorted_order. revert s. induction n as [|n IH]; intros s; cbn; constructor; auto.
  apply Forall_forall. intros x Hx. apply in_seq in Hx. cbn. try apply Nat.ltb_ge. lia.
Qed.

Lemma inversions_seq n s : inversions Nat.ltb (seq s n) = 0.
Proof.
  revert s. induction n as [|n IH]; intros s; [reflexivity|]. cbn [seq inversions]. rewrite IH.
  rewrite (proj2 (length_zero_iff_nil _)); [reflexivity|].
  assert (forall l, (forall y, In y l -> s < y) -> filter (fun y => Nat.ltb y s) l = []) as F.
  { clear. induction l as [|y l IH]; intros H; [reflexivity|]. cbn [filter].
    destruct (Nat.ltb_spec y s); [specialize (H y (or_introl eq_refl)); lia|]. apply IH. intros z Hz. apply H. right. exact Hz. }
  apply F. intros y Hy. apply in_seq in Hy. lia.
Qed.

Lemma SS_seq n s : StronglySorted lt (seq s n).
Proof.
  revert s. induction n as [|n IH]; intros s; constructor; auto. apply Forall_forall. intros x Hx. apply in_seq in Hx. lia.
Qed.
Lemma SS_app_inv {A} (R : A -> A -> Prop) u v : StronglySorted R (u ++ v) ->
  StronglySorted R u /\ StronglySorted R v /\ (forall x y, In x u -> In y v -> R x y).
Proof.
  induction u as [|x u IH]; cbn; intros H; [repeat split; [constructor|assumption|intros ? ? []]|].
  inversion H as [|? ? H1 H2]; subst. apply IH in H1 as (A1 & A2 & A3). rewrite Forall_forall in H2. split; [|split].
  - constructor; [assumption|]. apply Forall_forall. intros y Hy. apply H2, in_or_app. auto.
  - assumption.
  - intros a b [<-|Ha] Hb; [apply H2, in_or_app; auto|auto].
Qed.
Lemma SS_split (R : nat -> nat -> Prop) ranks : forall q, StronglySorted R q -> Forall (StronglySorted R) (split_by ranks q).
Proof.
  induction ranks as [|r rs IH]; intros q H; cbn [split_by]; constructor.
  - rewrite <- (firstn_skipn r q) in H. apply SS_app_inv in H. tauto.
  - apply IH. rewrite <- (firstn_skipn r q) in H. apply SS_app_inv in H. tauto.
Qed.

(** The enumeration: exactly the distinct arrangements, each once, with its sign. *)
Lemma gen_loop_spec ranks n fuel : fact n <= fuel ->
  exists r, gen_loop (groups_of 0 ranks) fuel 0 (seq 0 n) = Some r /\
    NoDup (map snd ((1%Z, seq 0 n) :: r)) /\
    (forall q, In q (map snd ((1%Z, seq 0 n) :: r)) <-> distinct_arrangement ranks n q) /\
    (forall s q, In (s, q) ((1%Z, seq 0 n) :: r) -> s = parity_sign q).
Proof.
  intros Hf.
  destruct (antisym_all Nat.ltb (seq 0 n) (nat_ltb_total _) (seq_sorted_ltb n 0) (seq_NoDup n 0) fuel)
    as (calls & E & Lc & ND & C & X); [rewrite seq_length; assumption|].
  assert (Id : distinct_arrangement ranks n (seq 0 n)).
  { split; [apply Permutation_refl|]. apply SS_split, SS_seq. }
  unfold antisymmetric_permutation in E. rewrite seq_length in E.
  destruct (Nat.leb_spec n 1) as [L|L].
  - injection E as <-. exists []. split.
    { destruct fuel as [|f]; [pose proof (lt_O_fact n); lia|]. cbn [gen_loop].
      destruct n as [|[|n]]; [reflexivity|reflexivity|lia]. }
    split; [cbn; constructor; [intros []|constructor]|]. split.
    + intros q. cbn [map snd]. split.
      * intros [<-|[]]. exact Id.
      * intros [P _]. apply C in P. exact P.
    + intros s q [H|[]]. injection H as <- <-. unfold parity_sign. rewrite inversions_seq. reflexivity.
  - change 0%Z with (Z.of_nat (0 mod 2)) in E. apply (gen_loop_calls (groups_of 0 ranks)) in E; [|rewrite seq_length; lia].
    destruct E as (cs & -> & G). rewrite G. eexists. split; [reflexivity|].
    cbn [map fst] in ND. inversion ND as [|? ? N0 ND']; subst.
    assert (Q : forall q, In q (map snd (map (entry (groups_of 0 ranks))
                 (filter (fun qp => is_canonical (groups_of 0 ranks) (fst qp)) cs)))
                <-> In q (map fst cs) /\ is_canonical (groups_of 0 ranks) q = true).
    { intros q. rewrite map_map. cbn [entry snd]. rewrite !in_map_iff. split.
      - intros (qp & <- & H). apply filter_In in H as [H1 H2]. split; [eauto|assumption].
      - intros ((qp & <- & H1) & H2). exists qp. split; [reflexivity|]. apply filter_In. auto. }
    split; [|split].
    + cbn [map snd]. constructor.
      * intros H. apply Q in H as [H _]. auto.
      * rewrite map_map. cbn [entry snd]. clear - ND'. induction cs as [|c cs IH]; [constructor|].
        cbn [map fst] in ND'. inversion ND' as [|? ? N ND'']; subst. cbn [filter].
        destruct (is_canonical (groups_of 0 ranks) (fst c)); [|auto]. cbn [map]. constructor; [|auto].
        intros H. apply N. apply in_map_iff in H as (c' & E & H). apply filter_In in H as [H _]. rewrite <- E. apply in_map. exact H.
    + intros q. cbn [map snd In]. rewrite Q. split.
      * intros [<-|[H K]]; [exact Id|]. assert (P : Permutation (seq 0 n) q) by (apply C; right; exact H).
        split; [exact P|]. apply (canonical_split ranks 0 q); [|exact K].
        eapply Permutation_NoDup; [exact P|apply seq_NoDup].
      * intros [P K]. pose proof P as P'. apply C in P. cbn [map fst In] in P. destruct P as [P|P]; [left; exact P|].
        right. split; [exact P|]. apply (canonical_split ranks 0 q); [|exact K].
        eapply Permutation_NoDup; [exact P'|apply seq_NoDup].
    + intros s q [H|H].
      * injection H as <- <-. unfold parity_sign. rewrite inversions_seq. reflexivity.
      * apply in_map_iff in H as ((q', p) & H & K). injection H as <- <-. apply filter_In in K as [K _].
        cbn [fst snd]. rewrite (X q' p) by (right; exact K). unfold parity_sign.
        destruct (Nat.even (inversions Nat.ltb q')); reflexivity.
Qed.
