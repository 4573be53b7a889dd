(** * Theorems about the tensor block comparators *)
From Coq Require Import ZArith List Arith Bool Lia.
From Verif Require Import Tsr_Model Tsr_Spec Tsr_Proofs1 Blk_Model Blk_Spec Blk_Proofs.
Import ListNotations.

Definition holds (r : option bool) : bool := match r with Some b => b | None => false end.

Lemma space_loop_some c l : forall m, length l = length m -> space_loop c l m <> None.
Proof.
  induction l as [|x l IH]; intros [|y m] H; cbn in *; try discriminate.
  destruct (negb _); [discriminate|apply IH; lia].
Qed.
Lemma index_loop_some c sp l : forall m, length l = length m -> index_loop c sp l m <> None.
Proof.
  induction l as [|x l IH]; intros [|y m] H; cbn in *; try discriminate.
  destruct (negb _); [destruct (negb _); [discriminate|]|]; apply IH; lia.
Qed.
Lemma block_compare_some c t u : block_compare c t u <> None.
Proof.
  unfold block_compare. destruct (negb _); [discriminate|]. destruct (negb _); [discriminate|].
  destruct (Nat.eqb (num_indices t) (num_indices u)) eqn:E; cbn; [|discriminate].
  apply space_loop_some. apply Nat.eqb_eq in E. exact E.
Qed.

(** C137. Equality of blocks is: same label, same number of slots, same spaces in order; no assertion
    fails, whatever the tensors. *)
Theorem C137_equal : forall t u, exists b, block_equal t u = Some b /\ (b = true <-> same_block t u).
Proof.
  intros t u. exists (is_eq (bcmp (key_of t) (key_of u))). split; [apply block_equal_key|].
  rewrite <- key_same, <- (proj1 TO_bcmp (key_of t) (key_of u)). destruct (bcmp (key_of t) (key_of u)); cbn; intuition congruence.
Qed.

Theorem C137_no_assertion : forall t u specific,
  block_less t u <> None /\ specific_less specific t u <> None /\ specific_equal specific t u <> None.
Proof.
  intros t u sp. split; [apply block_compare_some|].
  assert (G : forall c, specific_compare c sp t u <> None).
  { intros c. unfold specific_compare. destruct (block_equal t u) as [[|]|] eqn:E.
    - apply index_loop_some. apply key_length. apply TO_bcmp. rewrite block_equal_key in E.
      destruct (bcmp (key_of t) (key_of u)); [reflexivity|discriminate|discriminate].
    - apply block_compare_some.
    - exfalso. exact (block_compare_some equal_to t u E). }
  split; apply G.
Qed.

(** C138. Over the spaces of one registry the order of blocks is a strict weak order, and exactly the
    tensors with the same block are not ordered. *)
Theorem C138_block_order_partial : forall S, one_registry S ->
  strict_weak_on (block_over S) (fun t u => holds (block_less t u)) same_block.
Proof.
  intros S R. apply (key_strict_weak _ key_of bcmp); [apply TO_bcmp| |].
  - intros t u Ht Hu. rewrite (block_less_key S) by auto. reflexivity.
  - intros t u _ _. apply key_same.
Qed.

(** C139. The same for the order that distinguishes specific indices, for all lists of specific
    indices; its equality is the same block with the specific indices at the same places. *)
Theorem C139_specific_equal : forall specific t u, exists b, specific_equal specific t u = Some b /\
  (b = true <-> same_block t u /\ same_specific specific t u).
Proof.
  intros sp t u. exists (is_eq (scmp_key (skey_of sp t) (skey_of sp u))). split; [apply specific_equal_key|].
  rewrite <- skey_same, <- (proj1 TO_scmp_key (skey_of sp t) (skey_of sp u)).
  destruct (scmp_key (skey_of sp t) (skey_of sp u)); cbn; intuition congruence.
Qed.

Theorem C139_specific_order_partial : forall S specific, one_registry S ->
  strict_weak_on (block_over S) (fun t u => holds (specific_less specific t u))
    (fun t u => same_block t u /\ same_specific specific t u).
Proof.
  intros S sp R. apply (key_strict_weak _ (skey_of sp) scmp_key); [apply TO_scmp_key| |].
  - intros t u Ht Hu. rewrite (specific_less_key S) by auto. reflexivity.
  - intros t u _ _. apply skey_same.
Qed.

(** Without specific indices it is the order of blocks. *)
Theorem C139_none_specific : forall t u, specific_equal [] t u = block_equal t u /\ specific_less [] t u = block_less t u.
Proof.
  intros t u.
  assert (L : forall c l m, length l = length m -> index_loop c [] l m = Some (c_fallback c)).
  { intros c l. induction l as [|x l IH]; intros [|y m] H; cbn in *; try discriminate; [reflexivity|].
    destruct (negb _); apply IH; lia. }
  assert (G : forall c, specific_compare c [] t u =
     if is_eq (bcmp (key_of t) (key_of u)) then Some (c_fallback c) else block_compare c t u).
  { intros c. unfold specific_compare. rewrite block_equal_key. destruct (bcmp (key_of t) (key_of u)) eqn:E; cbn; try reflexivity.
    apply L. apply key_length. apply TO_bcmp. exact E. }
  split; unfold specific_equal, specific_less; rewrite G.
  - rewrite block_equal_key. destruct (bcmp (key_of t) (key_of u)) eqn:E; cbn [is_eq]; try reflexivity;
      fold (block_equal t u); rewrite block_equal_key, E; reflexivity.
  - destruct (bcmp (key_of t) (key_of u)) eqn:E; cbn [is_eq]; try reflexivity.
    apply TO_bcmp in E.
    unfold block_less, block_compare. unfold key_of in E. injection E as E1 E2 E3 E4.
    rewrite E1, E2, E3, Z.eqb_refl, !Nat.eqb_refl. cbn [negb]. symmetry.
    assert (Q : forall l m, map ix_space l = map ix_space m -> space_loop less l m = Some false).
    { induction l as [|x l IH]; intros [|y m] H; cbn in *; try discriminate; [reflexivity|].
      injection H as H1 H2. rewrite H1, (proj2 (space_eqb_spec _ _) eq_refl). cbn. apply IH. exact H2. }
    apply Q. exact E4.
Qed.

(** C140. A map keyed by blocks: after any assignments, looking up a tensor gives the value of the
    last assignment to a tensor with the same block, and nothing if there is none. *)
Theorem C140_block_map_partial : forall (V : Type) S (same : btensor -> bool) q (assignments : list (btensor * V)),
  one_registry S -> block_over S q -> Forall (fun kv => block_over S (fst kv)) assignments ->
  (forall t, same t = true <-> same_block t q) ->
  map_find (fun t u => holds (block_less t u)) q (map_of (fun t u => holds (block_less t u)) assignments)
  = last_value same assignments None.
Proof.
  intros V S same q l R Hq F Hs. unfold map_of.
  pose proof (C138_block_order_partial S R) as W.
  rewrite (map_of_find (block_over S) _ _ W) by (auto; exact Logic.I). cbn [map_find].
  generalize (@None V). induction F as [|[k v] l Hk F IH]; intros o; cbn [last_value fst] in *; [reflexivity|].
  assert (E : equiv (fun t u => holds (block_less t u)) k q = same k).
  { apply eq_true_iff_eq. rewrite Hs. unfold equiv. rewrite andb_true_iff, !negb_true_iff.
    destruct W as (_ & _ & _ & W4). apply (W4 k q Hk Hq). }
  rewrite E. apply IH.
Qed.

(** ** Concrete cases, and what goes wrong without one registry *)
Module BlkExamples.
  Local Open Scope Z_scope.
  Definition occ := mkspace 3 1 10.
  Definition vir := mkspace 3 2 11.
  Definition I1 (s : space) (n : nat) := Idx s (Some n) None [].
  Definition reg (s : space) := s = occ \/ s = vir \/ s = null_space.

  Theorem registry_example : one_registry reg.
  Proof.
    intros s s' [H|[H|H]] [H'|[H'|H']]; subst; cbn; intros A B; try reflexivity; try discriminate.
  Qed.

  Definition t1 := mkB 7 [I1 occ 1; I1 vir 1] [] [].
  Definition t2 := mkB 7 [I1 occ 5] [null_index; I1 vir 3] [].
  Definition t3 := mkB 7 [I1 vir 1; I1 occ 1] [] [].

  Example over_reg : block_over reg t1 /\ block_over reg t2.
  Proof. split; intros x H; cbn in H; unfold reg; intuition (subst; cbn; auto). Qed.
  Example compare_examples :
    block_less t1 t3 = Some true /\ block_less t3 t1 = Some false /\ block_less t1 t2 = Some true /\
    block_equal t1 (mkB 7 [I1 occ 2] [I1 vir 9] []) = Some true /\
    specific_less [I1 occ 1] t1 (mkB 7 [I1 occ 2] [I1 vir 9] []) = Some true /\
    specific_equal [I1 occ 1] t1 (mkB 7 [I1 occ 2] [I1 vir 9] []) = Some false.
  Proof. vm_compute. repeat split. Qed.

  (** Spaces with the same attributes and different keys, as two registries can define them, are
      different but not ordered (space.hpp:593 compares keys for reserved attributes only). *)
  Definition occ' := mkspace 3 1 12.
  Definition r1 := mkB 7 [I1 occ 1; I1 occ 1] [] [].
  Definition r2 := mkB 7 [I1 occ' 1; I1 occ 1] [] [].
  Definition r3 := mkB 7 [I1 occ 1; I1 vir 1] [] [].

  (** Blocks that are different are taken for the same by the order. *)
  Theorem C138_order_refuted : exists t u, ~ same_block t u /\ block_less t u = Some false /\ block_less u t = Some false.
  Proof.
    exists r1, r2. split; [|split; reflexivity]. intros (_ & _ & H). vm_compute in H. discriminate.
  Qed.

  (** "Not ordered" is not transitive, which [std::map] requires. *)
  Theorem C138_transitive_refuted : exists t u v,
    (block_less t u = Some false /\ block_less u t = Some false) /\
    (block_less u v = Some false /\ block_less v u = Some false) /\ block_less t v = Some true.
  Proof. exists r1, r2, r3. repeat split. Qed.

  (** A map then loses an entry: the value assigned to one tensor is overwritten by an assignment to
      a tensor with a different block. *)
  Theorem C140_map_refuted : exists t u, ~ same_block t u /\
    map_find (fun a b => holds (block_less a b)) t
      (map_of (fun a b => holds (block_less a b)) [(t, 1); (u, 2)]) = Some 2.
  Proof.
    exists r1, r2. split; [|reflexivity]. intros (_ & _ & H). vm_compute in H. discriminate.
  Qed.
End BlkExamples.
