(** Connectivity: the pruning removes exactly the patterns that miss a required connection or make
    an avoided one. *)
From Coq Require Import List NArith ZArith Bool Arith Lia Permutation.
From Verif Require Import Wick_Model Wick_Spec Wick_Proofs1 Wick_Proofs2 Wick_Proofs3 Wick_Proofs4 Wick_Proofs5 Wick_Proofs7.
Import ListNotations.

Section Masks.
  Definition maskp (pairs : list (nat * nat)) (i j : nat) : bool :=
    existsb (fun p => (Nat.eqb (fst p) i && Nat.eqb (snd p) j) || (Nat.eqb (fst p) j && Nat.eqb (snd p) i)) pairs.

  Lemma maskp_spec pairs i j : maskp pairs i j = true <-> In (i, j) pairs \/ In (j, i) pairs.
  Proof.
    unfold maskp. rewrite existsb_exists. split.
    - intros ([a b] & Hin & H). cbn in H. apply orb_true_iff in H. rewrite !andb_true_iff, !Nat.eqb_eq in H.
      destruct H as [[-> ->]|[-> ->]]; auto.
    - intros [H|H]; [exists (i, j)|exists (j, i)]; (split; [exact H|]); cbn; rewrite !Nat.eqb_refl; rewrite ?orb_true_r; reflexivity.
  Qed.

  Lemma fold_masks pairs : forall m n, length m = n -> (forall p, In p pairs -> fst p < n /\ snd p < n) ->
    length (fold_left (fun m p => reset_bit (reset_bit m (fst p) (snd p)) (snd p) (fst p)) pairs m) = n /\
    forall a b, a < n -> bit (fold_left (fun m p => reset_bit (reset_bit m (fst p) (snd p)) (snd p) (fst p)) pairs m) a b = negb (maskp pairs a b) && bit m a b.
  Proof.
    induction pairs as [|p pairs IH]; intros m n Hm Hp; [split; [exact Hm|reflexivity]|]. cbn [fold_left].
    destruct (Hp p (or_introl eq_refl)) as (H1 & H2).
    destruct (IH (reset_bit (reset_bit m (fst p) (snd p)) (snd p) (fst p)) n) as (Hl & Hb).
    - rewrite !length_reset. exact Hm.
    - intros q Hq. apply Hp. right. exact Hq.
    - split; [exact Hl|]. intros a b Ha. rewrite Hb by exact Ha. rewrite !bit_reset by (rewrite ?length_reset; lia).
      unfold maskp. cbn [existsb]. fold (maskp pairs a b). rewrite (Nat.eqb_sym a (fst p)), (Nat.eqb_sym b (snd p)), (Nat.eqb_sym a (snd p)), (Nat.eqb_sym b (fst p)).
      destruct (maskp pairs a b), (fst p =? a), (snd p =? b), (fst p =? b), (snd p =? a); reflexivity.
  Qed.

  Lemma masks_bit n pairs masks a b : connection_masks n pairs = Some masks -> pairs <> [] -> a < n -> b < 32 ->
    length masks = n /\ bit masks a b = negb (maskp pairs a b).
  Proof.
    unfold connection_masks. destruct (forallb _ pairs) eqn:E; [|discriminate]. rewrite forallb_forall in E.
    intros H Hne Ha Hb. destruct pairs as [|p0 ps]; [congruence|]. injection H as <-. set (pairs := p0 :: ps) in *.
    destruct (fold_masks pairs (repeat (N.ones 32) n) n) as (Hl & Hbit).
    - apply repeat_length.
    - intros p Hp. specialize (E p Hp). apply andb_true_iff in E. rewrite !Nat.ltb_lt in E. exact E.
    - split; [exact Hl|]. rewrite Hbit by exact Ha. replace (bit (repeat (N.ones 32) n) a b) with true; [apply andb_true_r|].
      symmetry. unfold bit. assert (En : nth a (repeat (N.ones 32) n) 0%N = N.ones 32).
      { clear - Ha. revert a Ha. induction n as [|n IH]; intros a Ha; [lia|]. destruct a; cbn; [reflexivity|]. apply IH. lia. }
      rewrite En. apply N.ones_spec_low. lia.
  Qed.

  Lemma masks_nil n pairs masks : connection_masks n pairs = Some masks -> n <> 0 -> (masks = [] <-> pairs = []).
  Proof.
    intros H Hn. destruct pairs as [|p ps]; [unfold connection_masks in H; cbn in H; injection H as <-; tauto|].
    split; [|discriminate]. intros ->. destruct (masks_bit n (p :: ps) [] 0 0 H) as (E & _); [discriminate|lia|lia|]. cbn in E. congruence.
  Qed.
End Masks.

Section Connect.
  Context {I : Type}.
  Notation op := (op I).
  Notation T := (nat * op)%type.
  Variable can_contract : op -> op -> bool.
  Variable target avoided : list N.
  Notation allow := (allow (I := I) target avoided).
  Notation needs := (needs (I := I) target).
  Notation eligible := (eligible can_contract allow).
  Notation path_ok := (path_ok can_contract allow).

  Lemma filter_len_le {X} (f g : X -> bool) l : (forall x, In x l -> f x = true -> g x = true) -> length (filter f l) <= length (filter g l).
  Proof.
    induction l as [|x l IH]; intros H; [cbn; lia|]. cbn. specialize (IH (fun y Hy => H y (or_intror Hy))).
    destruct (f x) eqn:E; [rewrite (H x (or_introl eq_refl) E); cbn; lia|]. destruct (g x); cbn; lia.
  Qed.
  Lemma filter_len_le1 (f g : nat -> bool) i0 l : NoDup l -> (forall x, In x l -> f x = true -> g x = true \/ x = i0) -> length (filter f l) <= S (length (filter g l)).
  Proof.
    induction l as [|x l IH]; intros Hn H; [cbn; lia|]. apply NoDup_cons_iff in Hn. destruct Hn as (Hx & Hn).
    destruct (Nat.eq_dec x i0) as [->|Hne].
    - cbn. pose proof (filter_len_le f g l) as H1. destruct (f i0), (g i0); cbn;
        (assert (length (filter f l) <= length (filter g l)); [apply H1; intros y Hy E; destruct (H y (or_intror Hy) E) as [Ez|Ez]; [exact Ez|subst y; contradiction]|lia]).
    - cbn. specialize (IH Hn (fun y Hy => H y (or_intror Hy))). destruct (f x) eqn:E; [|destruct (g x); cbn; lia].
      destruct (H x (or_introl eq_refl) E) as [->|]; [cbn; lia|contradiction].
  Qed.

  Lemma needs_mono prev m k : needs (prev ++ m) k <= needs prev k.
  Proof.
    unfold Wick_Proofs4.needs. apply filter_len_le. intros i _ H. unfold joinedb in *. rewrite existsb_app in H.
    destruct (existsb _ prev); [cbn in H; discriminate|]. cbn in *. destruct (existsb _ m); [cbn in H; discriminate|exact H].
  Qed.

  Lemma needs_step prev x y k : needs prev k <= needs (prev ++ [(x, y)]) k + (if Nat.eqb (fst x) k || Nat.eqb (fst y) k then 1 else 0).
  Proof.
    unfold Wick_Proofs4.needs.
    destruct (Nat.eqb_spec (fst x) k) as [<-|E1]; [|destruct (Nat.eqb_spec (fst y) k) as [<-|E2]]; cbn [orb].
    - rewrite Nat.add_1_r. apply (filter_len_le1 _ _ (fst y)); [apply seq_NoDup|]. intros i _ H. rewrite joinedb_app.
      destruct (Nat.eq_dec i (fst y)) as [->|Hi]; [auto|]. left. destruct (joinedb prev (fst x) i); [discriminate|]. cbn [orb] in *.
      rewrite Nat.eqb_refl. cbn [andb]. replace (Nat.eqb (fst y) i) with false by (symmetry; apply Nat.eqb_neq; lia). cbn [orb].
      destruct (Nat.eqb_spec (fst x) i) as [<-|]; [|exact H]. destruct (Nat.eqb_spec (fst y) (fst x)) as [Ez|]; [congruence|exact H].
    - rewrite Nat.add_1_r. apply (filter_len_le1 _ _ (fst x)); [apply seq_NoDup|]. intros i _ H. rewrite joinedb_app.
      destruct (Nat.eq_dec i (fst x)) as [->|Hi]; [auto|]. left. destruct (joinedb prev (fst y) i); [discriminate|]. cbn [orb] in *.
      replace (Nat.eqb (fst x) i) with false by (symmetry; apply Nat.eqb_neq; lia). replace (Nat.eqb (fst x) (fst y)) with false by (symmetry; apply Nat.eqb_neq; lia). exact H.
    - rewrite Nat.add_0_r. apply filter_len_le. intros i _ H. rewrite joinedb_app.
      replace (Nat.eqb (fst x) k) with false by (symmetry; apply Nat.eqb_neq; lia). replace (Nat.eqb (fst y) k) with false by (symmetry; apply Nat.eqb_neq; lia).
      rewrite andb_false_r. cbn [andb]. rewrite !orb_false_r. exact H.
  Qed.

  Lemma members_split k (v1 : list T) y v2 : length (members k (v1 ++ y :: v2)) = length (members k (v1 ++ v2)) + (if Nat.eqb (fst y) k then 1 else 0).
  Proof. rewrite !members_app, !app_length. unfold members at 2. cbn [filter]. destruct (Nat.eqb (fst y) k); cbn [map length]; unfold members; lia. Qed.
  Lemma members_head k (x : T) v : length (members k (x :: v)) = length (members k v) + (if Nat.eqb (fst x) k then 1 else 0).
  Proof. apply (members_split k [] x v). Qed.

  Lemma needs_bound v m : full_matching v m -> forall prev k, needs (prev ++ m) k = 0 -> needs prev k <= length (members k v).
  Proof.
    induction 1 as [|x v1 y v2 m Hm IH]; intros prev k H.
    - rewrite app_nil_r in H. lia.
    - specialize (IH (prev ++ [(x, y)]) k). rewrite <- app_assoc in IH. specialize (IH H).
      pose proof (needs_step prev x y k) as H1. rewrite members_head, members_split.
      destruct (Nat.eqb (fst x) k), (Nat.eqb (fst y) k); cbn [orb] in H1; lia.
  Qed.

  Definition avoid_ok (m : list (T * T)) : Prop := match avoided with [] => True | _ => forall x y, In (x, y) m -> bit avoided (fst x) (fst y) = true end.
  Definition target_ok (v : list T) (m : list (T * T)) : Prop :=
    match target with [] => True | _ => forall k, members k v <> [] -> needs m k = 0 end.

  Lemma allow_iff prev cur x y : allow prev cur x y = true <->
    match avoided with [] => True | _ => bit avoided (fst x) (fst y) = true end /\
    match target with [] => True | _ => needs (prev ++ [(x, y)]) (fst x) <= length (members (fst x) cur) - 1 /\ needs (prev ++ [(x, y)]) (fst y) <= length (members (fst y) cur) - 1 end.
  Proof.
    unfold Wick_Proofs4.allow. rewrite andb_true_iff. destruct avoided, target; rewrite ?andb_true_iff, ?Nat.leb_le; tauto.
  Qed.

  Lemma path_sound v m : full_matching v m -> NoDup v -> forall prev, path_ok prev v m ->
    admissible can_contract m /\ avoid_ok m /\
    match target with [] => True | _ => forall k, members k v <> [] -> needs (prev ++ m) k = 0 end.
  Proof.
    induction 1 as [|x v1 y v2 m Hm IH]; intros Hn prev Hp.
    - split; [intros ? ? []|]. split; [unfold avoid_ok; destruct avoided; auto; intros ? ? []|]. destruct target; auto. intros k Hk. elim Hk. reflexivity.
    - destruct Hp as (p & u1 & u2 & E & Hel & Hp).
      assert (Ep : p = []).
      { destruct p as [|a p]; [reflexivity|]. exfalso. cbn in E. injection E as <- E. apply NoDup_cons_iff in Hn. destruct Hn as (Hn & _). apply Hn. rewrite E. apply in_app_iff. right. left. reflexivity. }
      subst p. cbn [app] in *. injection E as E.
      apply NoDup_cons_iff in Hn. destruct Hn as (Hnx & Hn). destruct (split_unique v1 y v2 u1 u2 Hn E) as (<- & <-).
      pose proof (NoDup_remove_1 _ _ _ Hn) as Hn'.
      destruct (IH Hn' (prev ++ [(x, y)]) Hp) as (H1 & H2 & H3).
      unfold Wick_Proofs2.eligible in Hel. rewrite !andb_true_iff in Hel. destruct Hel as ((Hne & Hc) & Hal). apply allow_iff in Hal. destruct Hal as (Ha1 & Ha2).
      apply negb_true_iff, Nat.eqb_neq in Hne.
      split; [|split].
      + intros a b [E'|Hab]; [injection E' as <- <-; auto|apply H1; exact Hab].
      + unfold avoid_ok in *. destruct avoided; [exact Logic.I|]. intros a b [E'|Hab]; [injection E' as <- <-; exact Ha1|apply H2; exact Hab].
      + destruct target as [|t0 ts] eqn:Et; [exact Logic.I|]. rewrite <- Et in *. intros k Hk.
        replace (prev ++ (x, y) :: m) with ((prev ++ [(x, y)]) ++ m) by (rewrite <- app_assoc; reflexivity).
        destruct (members k (v1 ++ v2)) as [|a l] eqn:Em; [|apply H3; congruence].
        assert (El : length (members k (x :: v1 ++ y :: v2)) = (if Nat.eqb (fst y) k then 1 else 0) + (if Nat.eqb (fst x) k then 1 else 0)) by (rewrite members_head, members_split, Em; reflexivity).
        destruct (Nat.eqb_spec (fst x) k) as [Ex|Ex].
        * destruct (Nat.eqb_spec (fst y) k) as [Ey|Ey]; [congruence|]. rewrite Ex in Ha2. rewrite El in Ha2.
          pose proof (needs_mono (prev ++ [(x, y)]) m k). lia.
        * destruct (Nat.eqb_spec (fst y) k) as [Ey|Ey].
          -- rewrite Ey in Ha2. rewrite El in Ha2. pose proof (needs_mono (prev ++ [(x, y)]) m k). lia.
          -- destruct (members k (x :: v1 ++ y :: v2)); [congruence|cbn in El; lia].
  Qed.

  Lemma path_complete v m : full_matching v m -> forall prev, admissible can_contract m -> avoid_ok m ->
    match target with [] => True | _ => forall k, members k v <> [] -> needs (prev ++ m) k = 0 end -> path_ok prev v m.
  Proof.
    induction 1 as [|x v1 y v2 m Hm IH]; intros prev Had Hav Ht; [exact Logic.I|].
    cbn [Wick_Proofs7.path_ok]. exists [], v1, v2. split; [reflexivity|].
    destruct (Had x y (or_introl eq_refl)) as (Hne & Hc).
    split.
    - unfold Wick_Proofs2.eligible. rewrite !andb_true_iff. split; [split; [apply negb_true_iff, Nat.eqb_neq; exact Hne|exact Hc]|].
      apply allow_iff. split.
      + unfold avoid_ok in Hav. destruct avoided; [exact Logic.I|]. apply Hav. left. reflexivity.
      + destruct target as [|t0 ts] eqn:Et; [exact Logic.I|]. rewrite <- Et in *.
        assert (Hb : forall k, members k (x :: v1 ++ y :: v2) <> [] -> needs (prev ++ [(x, y)]) k <= length (members k (v1 ++ v2))).
        { intros k Hk. apply (needs_bound (v1 ++ v2) m Hm). rewrite <- app_assoc. apply Ht. exact Hk. }
        split.
        * rewrite members_head, members_split, Nat.eqb_refl. replace (Nat.eqb (fst y) (fst x)) with false by (symmetry; apply Nat.eqb_neq; auto).
          specialize (Hb (fst x)). rewrite !Nat.add_0_r, Nat.add_sub. apply Hb. unfold members. cbn [filter]. rewrite Nat.eqb_refl. discriminate.
        * rewrite members_head, members_split, Nat.eqb_refl. replace (Nat.eqb (fst x) (fst y)) with false by (symmetry; apply Nat.eqb_neq; auto).
          specialize (Hb (fst y)). rewrite !Nat.add_0_r, Nat.add_sub. apply Hb. intros Hz. apply (f_equal (@length _)) in Hz.
          rewrite members_head, members_split, Nat.eqb_refl in Hz. cbn in Hz. lia.
    - apply IH.
      + intros a b Hab. apply Had. right. exact Hab.
      + unfold avoid_ok in *. destruct avoided; auto. intros a b Hab. apply Hav. right. exact Hab.
      + destruct target as [|t0 ts] eqn:Et; [exact Logic.I|]. rewrite <- Et in *. intros k Hk. rewrite <- app_assoc. apply Ht.
        intros Hz. apply Hk. apply (f_equal (@length _)) in Hz. rewrite members_head, members_split in Hz. destruct (members k (v1 ++ v2)); [reflexivity|cbn in Hz; lia].
  Qed.
End Connect.
