(** Slots of tensors. *)
From Coq Require Import ZArith List Arith Bool Permutation Lia.
From Verif Require Import Tsr_Model Tsr_Spec Tsr_Proofs1.
Import ListNotations.

Definition nn (i : index) : bool := negb (ix_null i).

Lemma slot_null i : ix_null i = true -> slot i = None.
Proof. unfold slot. intros ->. auto. Qed.
Lemma slot_nn i : nn i = true -> slot i = Some i.
Proof. unfold slot, nn. destruct (ix_null i); cbn; auto. discriminate. Qed.
Lemma null_null : ix_null null_index = true.
Proof. reflexivity. Qed.

Lemma columns_nil_r b : columns b [] = map (fun x => (slot x, None)) b.
Proof. induction b as [|x b IH]; cbn; auto. rewrite IH. auto. Qed.
Lemma columns_swap b : forall k, columns k b = map flip (columns b k).
Proof.
  induction b as [|x b IH]; intros [|y k]; cbn; auto.
  - f_equal. rewrite map_map. cbn. rewrite columns_nil_r. apply map_ext. auto.
  - rewrite <- IH. auto.
  - f_equal. auto.
Qed.
Lemma columns_app b k : length b = length k -> forall b' k', columns (b ++ b') (k ++ k') = columns b k ++ columns b' k'.
Proof.
  revert k. induction b as [|x b IH]; intros [|y k] L b' k'; cbn; try discriminate; auto. rewrite IH; auto.
Qed.
Lemma filter_map_flip f cs : filter f (map flip cs) = map flip (filter (fun c => f (flip c)) cs).
Proof. induction cs as [|c cs IH]; cbn; auto. rewrite IH. destruct (f (flip c)); auto. Qed.
Lemma flip_paired c : paired (flip c) = paired c. Proof. destruct c as ([x|], [y|]); auto. Qed.
Lemma flip_bra_only c : bra_only (flip c) = ket_only c. Proof. destruct c as ([x|], [y|]); auto. Qed.
Lemma flip_ket_only c : ket_only (flip c) = bra_only c. Proof. destruct c as ([x|], [y|]); auto. Qed.
Lemma flip_flip c : flip (flip c) = c. Proof. destruct c; auto. Qed.
Lemma map_flip_flip cs : map flip (map flip cs) = cs.
Proof. rewrite map_map. rewrite <- (map_id cs) at 2. apply map_ext. apply flip_flip. Qed.

Definition opts {A B} (f : A -> option B) (l : list A) : list B :=
  flat_map (fun x => match f x with Some y => [y] | None => [] end) l.

Lemma opts_app {A B} (f : A -> option B) l m : opts f (l ++ m) = opts f l ++ opts f m.
Proof. apply flat_map_app. Qed.

(** the bra and the ket that canonicalize_slots makes of columns *)
Definition cbra cs := opts fst (filter paired cs) ++ opts fst (filter bra_only cs).
Definition cket cs : list index := opts snd (filter paired cs) ++ map (fun _ => null_index) (filter bra_only cs) ++ opts snd (filter ket_only cs).

Lemma take_pairs_ok b : forall k cb ck rb rk, take_pairs b k = (cb, ck, (rb, rk)) ->
  cb = opts fst (filter paired (columns b k)) /\ ck = opts snd (filter paired (columns b k)) /\
  filter nn rb = opts fst (filter bra_only (columns b k)) /\ filter nn rk = opts snd (filter ket_only (columns b k)).
Proof.
  induction b as [|x b IH]; intros k cb ck rb rk.
  - cbn. intros [= <- <- <- <-].
    assert (P : forall f, f (None, None) = false -> (forall y, f (None, Some y) = false) -> filter f (map (fun k0 : index => (@None index, slot k0)) k) = []).
    { intros f F1 F2. induction k as [|y k IHk]; cbn; auto. unfold slot. destruct (ix_null y); rewrite ?F1, ?F2; auto. }
    rewrite !(P paired), (P bra_only); auto. repeat split; auto.
    clear. induction k as [|y k IHk]; cbn; auto. unfold slot, nn. destruct (ix_null y); cbn; auto. f_equal. auto.
  - destruct k as [|y k].
    + cbn [take_pairs]. intros [= <- <- <- <-]. rewrite columns_nil_r.
      assert (P : forall f, f (None, None) = false -> (forall y, f (Some y, None) = false) -> filter f (map (fun k0 : index => (slot k0, @None index)) (x :: b)) = []).
      { intros f F1 F2. induction (x :: b) as [|y k IHk]; cbn; auto. unfold slot. destruct (ix_null y); rewrite ?F1, ?F2; auto. }
      rewrite !(P paired), (P ket_only); auto. repeat split; auto.
      clear. induction (x :: b) as [|y k IHk]; cbn; auto. unfold slot, nn. destruct (ix_null y); cbn; auto. f_equal. auto.
    + cbn [take_pairs]. destruct (take_pairs b k) as ((cb', ck'), (rb', rk')) eqn:E.
      destruct (IH _ _ _ _ _ E) as (H1 & H2 & H3 & H4). cbn [columns]. unfold slot.
      destruct (ix_null x) eqn:X, (ix_null y) eqn:Y; cbn [negb andb]; intros [= <- <- <- <-]; cbn [filter paired bra_only ket_only];
        unfold nn in *; rewrite ?X, ?Y; cbn [negb]; rewrite ?null_null; cbn [negb opts flat_map fst snd app]; auto.
      * rewrite H3, H4. auto.
      * rewrite H3, H4. auto.
      * rewrite H1, H2. auto.
Qed.

Lemma opts_length {A B} (f : A -> option B) l : (forall x, In x l -> f x <> None) -> length (opts f l) = length l.
Proof.
  unfold opts. induction l as [|x l IH]; intros H; cbn; auto. rewrite app_length, IH; auto; [|intros y Hy; apply H; right; auto].
  destruct (f x) eqn:E; cbn; auto. exfalso. apply (H x); [left; auto|auto].
Qed.
Lemma paired_fst cs : length (opts fst (filter paired cs)) = length (filter paired cs).
Proof. apply opts_length. intros ([x|], [y|]) H; cbn; try discriminate; apply filter_In in H; destruct H; discriminate. Qed.
Lemma paired_snd cs : length (opts snd (filter paired cs)) = length (filter paired cs).
Proof. apply opts_length. intros ([x|], [y|]) H; cbn; try discriminate; apply filter_In in H; destruct H; discriminate. Qed.
Lemma bra_only_fst cs : length (opts fst (filter bra_only cs)) = length (filter bra_only cs).
Proof. apply opts_length. intros ([x|], [y|]) H; cbn; try discriminate; apply filter_In in H; destruct H; discriminate. Qed.
Lemma ket_only_snd cs : length (opts snd (filter ket_only cs)) = length (filter ket_only cs).
Proof. apply opts_length. intros ([x|], [y|]) H; cbn; try discriminate; apply filter_In in H; destruct H; discriminate. Qed.

Lemma map_const_len {A B C} (z : C) (l : list A) (m : list B) : length l = length m -> map (fun _ => z) l = map (fun _ => z) m.
Proof. revert m. induction l as [|x l IH]; intros [|y m] L; cbn; try discriminate; auto. f_equal. auto. Qed.

(** the test for empty slots *)
Definition have_empty (t : tensor) : bool :=
  negb (length (t_bra t) =? t_bra_net t) || negb (length (t_ket t) =? t_ket_net t).

Lemma canon_slots_eq t : is_nonsymm (t_symm t) = true -> is_colsymm (t_col t) = true -> have_empty t = true ->
  let cs := columns (t_bra t) (t_ket t) in
  canonicalize_slots t = mktensor (t_label t) (cbra cs) (cket cs) (t_aux t) (t_symm t) (t_bk t) (t_col t)
     (length (filter paired cs) + length (filter bra_only cs)) (length (filter paired cs) + length (filter ket_only cs)).
Proof.
  intros E1 E2 E3 cs. unfold canonicalize_slots. fold (have_empty t). rewrite E1, E2, E3. cbn [andb].
  destruct (take_pairs (t_bra t) (t_ket t)) as ((cb, ck), (rb, rk)) eqn:E.
  destruct (take_pairs_ok _ _ _ _ _ _ E) as (H1 & H2 & H3 & H4). fold nn. change (fun i : index => negb (ix_null i)) with nn.
  rewrite H3, H4, H1, H2. unfold cbra, cket. fold cs. rewrite paired_fst, paired_snd, bra_only_fst, ket_only_snd.
  rewrite (map_const_len null_index (opts fst (filter bra_only cs)) (filter bra_only cs)) by apply bra_only_fst. reflexivity.
Qed.

Lemma canon_slots_keep t : is_nonsymm (t_symm t) && is_colsymm (t_col t) && have_empty t = false -> canonicalize_slots t = t.
Proof. unfold canonicalize_slots. fold (have_empty t). intros ->. auto. Qed.

(** all columns hold an index that is not null *)
Definition cols_ok (cs : list (option index * option index)) : Prop :=
  forall c, In c cs -> c <> (None, None) /\ (forall x, fst c = Some x -> nn x = true) /\ (forall x, snd c = Some x -> nn x = true).
Lemma columns_slot b : forall k c, In c (columns b k) ->
  (forall x, fst c = Some x -> nn x = true) /\ (forall x, snd c = Some x -> nn x = true).
Proof.
  assert (S : forall y x, slot y = Some x -> nn x = true).
  { intros y x. unfold slot, nn. destruct (ix_null y) eqn:E; [discriminate|]. intros [= <-]. rewrite E. auto. }
  induction b as [|x b IH]; intros k c.
  - cbn. intros H. apply in_map_iff in H. destruct H as (y & <- & _). cbn. split; [discriminate|]. eauto.
  - destruct k as [|y k]; cbn; intros [<-|H]; eauto; cbn; split; eauto; discriminate.
Qed.

Lemma columns_canon cs : cols_ok cs -> columns (cbra cs) (cket cs) = filter paired cs ++ filter bra_only cs ++ filter ket_only cs.
Proof.
  intros O. unfold cbra, cket. rewrite columns_app by (rewrite paired_fst, paired_snd; auto). f_equal.
  - assert (G : forall cs, cols_ok cs -> columns (opts fst (filter paired cs)) (opts snd (filter paired cs)) = filter paired cs).
    { clear. induction cs as [|c cs IH]; intros O; cbn; auto.
      assert (O' : cols_ok cs) by (intros d Hd; apply O; right; auto).
      destruct (O c (or_introl eq_refl)) as (_ & O1 & O2).
      destruct c as ([x|], [y|]); cbn; auto. rewrite (slot_nn _ (O1 _ eq_refl)), (slot_nn _ (O2 _ eq_refl)). f_equal. apply IH; auto. }
    auto.
  - rewrite <- (app_nil_r (opts fst (filter bra_only cs))). rewrite columns_app by (rewrite bra_only_fst, map_length; auto). f_equal.
    + assert (G : forall cs, cols_ok cs -> columns (opts fst (filter bra_only cs)) (map (fun _ => null_index) (filter bra_only cs)) = filter bra_only cs).
      { clear. induction cs as [|c cs IH]; intros O; cbn; auto.
        assert (O' : cols_ok cs) by (intros d Hd; apply O; right; auto).
        destruct (O c (or_introl eq_refl)) as (_ & O1 & O2).
        destruct c as ([x|], [y|]); cbn; auto. rewrite (slot_nn _ (O1 _ eq_refl)). f_equal. apply IH; auto. }
      auto.
    + assert (G : forall cs, cols_ok cs -> columns [] (opts snd (filter ket_only cs)) = filter ket_only cs).
      { clear. induction cs as [|c cs IH]; intros O; cbn; auto.
        assert (O' : cols_ok cs) by (intros d Hd; apply O; right; auto).
        destruct (O c (or_introl eq_refl)) as (_ & O1 & O2).
        destruct c as ([x|], [y|]); cbn; auto. rewrite (slot_nn _ (O2 _ eq_refl)). f_equal. apply IH; auto. }
      auto.
Qed.

Lemma split_perm cs : cols_ok cs -> Permutation cs (filter paired cs ++ filter bra_only cs ++ filter ket_only cs).
Proof.
  induction cs as [|c cs IH]; intros O; cbn; auto.
  assert (O' : cols_ok cs) by (intros d Hd; apply O; right; auto).
  destruct (O c (or_introl eq_refl)) as (N & _). specialize (IH O').
  destruct c as ([x|], [y|]); cbn; try congruence.
  - constructor. auto.
  - rewrite IH at 1. apply Permutation_middle.
  - rewrite IH at 1. rewrite !app_assoc. apply Permutation_middle.
Qed.

(* ---------- validation ---------- *)

Definition wf (t : tensor) : Prop :=
  validate_indices t = true /\ t_bra_net t = net_rank (t_bra t) /\ t_ket_net t = net_rank (t_ket t) /\
  is_nonsymm (t_symm t) || is_colsymm (t_col t) = true.

Lemma no_empty_cols b : forall k, length b = length k ->
  no_empty_column b k = true -> forall c, In c (columns b k) -> c <> (None, None).
Proof.
  induction b as [|x b IH]; intros [|y k] L; cbn; try discriminate; [tauto|].
  intros H. apply andb_true_iff in H. destruct H as (H1 & H2). intros c [<-|Hc]; eauto.
  unfold slot. destruct (ix_null x), (ix_null y); cbn in *; congruence.
Qed.
Lemma no_empty_firstn b : forall k, no_empty_column b k =
  no_empty_column (firstn (Nat.min (length b) (length k)) b) (firstn (Nat.min (length b) (length k)) k).
Proof. induction b as [|x b IH]; intros [|y k]; cbn; auto. rewrite <- IH. auto. Qed.

Lemma valid_cols t : wf t -> t_symm t = Nonsymm -> cols_ok (columns (t_bra t) (t_ket t)).
Proof.
  intros (V & _) N c Hc. split; [|apply (columns_slot _ _ _ Hc)].
  unfold validate_indices in V. rewrite N in V. cbn [is_nonsymm negb] in V.
  rewrite !andb_true_iff in V. destruct V as (((((V1 & V2) & _) & _) & _) & _).
  set (b := t_bra t) in *. set (k := t_ket t) in *. clearbody b k. clear N.
  revert k V1 V2 Hc. induction b as [|x b IH]; intros [|y k] V1 V2 Hc; cbn in Hc; [tauto| | |].
  - apply negb_true_iff in V2. cbn in V2. apply orb_false_iff in V2. destruct V2 as (Y & V2).
    destruct Hc as [<-|Hc]; [unfold slot; rewrite Y; discriminate|].
    apply in_map_iff in Hc. destruct Hc as (z & <- & Hz). unfold slot.
    destruct (ix_null z) eqn:Z; [|discriminate]. exfalso. 
    assert (X : existsb ix_null k = true) by (apply existsb_exists; exists z; auto). congruence.
  - apply negb_true_iff in V2. cbn in V2. apply orb_false_iff in V2. destruct V2 as (X & V2).
    destruct Hc as [<-|Hc]; [unfold slot; rewrite X; discriminate|].
    rewrite columns_nil_r in Hc. apply in_map_iff in Hc. destruct Hc as (z & <- & Hz). unfold slot.
    destruct (ix_null z) eqn:Z; [|discriminate]. exfalso. 
    assert (Q : existsb ix_null b = true) by (apply existsb_exists; exists z; auto). congruence.
  - cbn [no_empty_column] in V1. apply andb_true_iff in V1. destruct V1 as (V0 & V1).
    destruct Hc as [<-|Hc].
    + unfold slot. destruct (ix_null x), (ix_null y); cbn in *; congruence.
    + apply (IH k); auto. cbn [length Nat.min Nat.eqb] in V2.
      destruct (length b =? length k); [rewrite skipn_nil; auto|].
      change (S (length k) <? S (length b)) with (length k <? length b) in V2.
      destruct (length k <? length b); cbn [skipn] in V2; auto.
Qed.

(** swapping bra and ket does not change what is validated *)
Definition swapped (t : tensor) : tensor :=
  mktensor (t_label t) (t_ket t) (t_bra t) (t_aux t) (t_symm t) (t_bk t) (t_col t) (t_ket_net t) (t_bra_net t).
Lemma no_empty_sym b : forall k, no_empty_column k b = no_empty_column b k.
Proof. induction b as [|x b IH]; intros [|y k]; cbn; auto. rewrite IH, (andb_comm (ix_null y)). auto. Qed.
Lemma validate_swapped t : validate_indices (swapped t) = validate_indices t.
Proof.
  unfold validate_indices, swapped. cbn [t_symm t_bra t_ket t_aux].
  rewrite (no_empty_sym (t_bra t)), (Nat.min_comm (length (t_ket t))), (Nat.eqb_sym (length (t_ket t))).
  assert (L : (if length (t_bra t) =? length (t_ket t) then [] else if length (t_bra t) <? length (t_ket t) then t_ket t else t_bra t)
            = (if length (t_bra t) =? length (t_ket t) then [] else if length (t_ket t) <? length (t_bra t) then t_bra t else t_ket t)).
  { destruct (Nat.eqb_spec (length (t_bra t)) (length (t_ket t))); auto.
    destruct (Nat.ltb_spec (length (t_bra t)) (length (t_ket t))), (Nat.ltb_spec (length (t_ket t)) (length (t_bra t))); auto; lia. }
  cbv zeta. rewrite L. rewrite (andb_comm (negb (existsb ix_null (t_ket t))) (negb (existsb ix_null (t_bra t)))).
  rewrite <- !andb_assoc. f_equal. f_equal.
  rewrite !andb_assoc, (andb_comm (negb (has_duplicates (t_ket t)))). auto.
Qed.
Lemma wf_swapped t : wf t -> wf (swapped t).
Proof. intros (V & N1 & N2 & S). split; [rewrite validate_swapped; auto|]. cbn. auto. Qed.

Lemma has_dup_spec l : has_duplicates l = false <-> NoDup (map identity (filter nn l)).
Proof.
  induction l as [|x l IH]; cbn; [split; auto; constructor|].
  unfold nn at 1. destruct (ix_null x) eqn:X; cbn; auto.
  rewrite orb_false_iff, IH. split.
  - intros (E & N). constructor; auto. intros H. apply in_map_iff in H. destruct H as (y & Hy & H).
    apply filter_In in H. destruct H as (H & _).
    assert (T : existsb (fun j => ix_eqb x j) l = true).
    { apply existsb_exists. exists y. split; auto. apply ix_eqb_spec. auto. }
    congruence.
  - intros H. inversion H; subst. split; auto. destruct (existsb (fun j => ix_eqb x j) l) eqn:E; auto.
    apply existsb_exists in E. destruct E as (y & Hy & E). apply ix_eqb_spec in E. exfalso. apply H2.
    apply in_map_iff. exists y. split; auto. apply filter_In. split; auto. unfold nn, ix_null in *.
    destruct (ix_eqb y null_index) eqn:Y; auto. apply ix_eqb_spec in Y. rewrite <- E in Y. apply ix_eqb_spec in Y. congruence.
Qed.

(** what is in the bra, and in the ket, is what is in the columns *)
Lemma bra_of_columns b : forall k, filter nn b = opts fst (columns b k).
Proof.
  assert (N : forall x, (if nn x then [x] else []) = match slot x with Some y => [y] | None => [] end)
    by (intros x; unfold nn, slot; destruct (ix_null x); auto).
  induction b as [|x b IH]; intros k.
  - cbn. induction k; cbn; auto.
  - destruct k as [|y k]; cbn; rewrite <- N; [rewrite (IH [])|rewrite (IH k)]; destruct (nn x); auto.
Qed.
Lemma ket_of_columns b k : filter nn k = opts snd (columns b k).
Proof.
  rewrite (bra_of_columns k b), (columns_swap b k). unfold opts. rewrite flat_map_concat_map, map_map, <- flat_map_concat_map. auto.
Qed.
Lemma opts_perm {A B} (f : A -> option B) l m : Permutation l m -> Permutation (opts f l) (opts f m).
Proof. intros P. unfold opts. apply Permutation_flat_map. auto. Qed.

Lemma net_rank_columns b k : net_rank b = length (opts fst (columns b k)).
Proof. unfold net_rank. change (fun i : index => negb (ix_null i)) with nn. rewrite (bra_of_columns b k). auto. Qed.
Lemma net_rank_columns' b k : net_rank k = length (opts snd (columns b k)).
Proof. unfold net_rank. change (fun i : index => negb (ix_null i)) with nn. rewrite (ket_of_columns b k). auto. Qed.
