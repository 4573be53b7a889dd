(** Final theorems about sorting, permutations and loop counting. *)
From Coq Require Import ZArith List Arith Bool Permutation Sorted Relations Factorial Lia.
From Verif Require Import Alg_Model Alg_Spec Alg_Proofs1 Alg_Proofs2 Alg_Proofs3 Alg_Proofs4.
Import ListNotations.

(** ** C04 *)

(** bubble_sort terminates; the result is a sorted, stable rearrangement; the number of swaps is
    the number of inversions of the input. *)
Theorem C04_bubble_sort : forall (A : Type) (comp : A -> A -> bool), strict_weak comp ->
  forall l, exists r k, bubble_sort comp l = Some (r, k) /\
    Permutation l r /\ in_sorted_order comp r /\ same_order_of_equals comp l r /\
    k = inversions comp l.
Proof. intros A comp SW l. destruct (bubble_ok comp SW l) as (r & H). exists r, (inversions comp l). tauto. Qed.

(** The zipped form compares columns lexicographically, and the same holds for it. *)
Theorem C04_zipped : forall (A : Type) (comp : A -> A -> bool), strict_weak comp ->
  (forall a b, composite_compare comp a b = lex_pair comp a b) /\
  forall l, exists r k, bubble_sort (composite_compare comp) l = Some (r, k) /\
    Permutation l r /\ in_sorted_order (lex_pair comp) r /\ same_order_of_equals (lex_pair comp) l r /\
    k = inversions (lex_pair comp) l.
Proof.
  intros A comp SW. split; [apply composite_lex|]. intros l.
  destruct (bubble_ok _ (composite_sw comp SW) l) as (r & E & P & S & F).
  exists r, (inversions (composite_compare comp) l). repeat split; auto.
  - unfold in_sorted_order in *. clear - S. induction S; constructor; auto.
    eapply Forall_impl; [|eassumption]. cbn. intros. rewrite <- composite_lex. auto.
  - intros x. specialize (F x). erewrite filter_ext; [rewrite F; apply filter_ext|]; intros y; unfold equiv;
      rewrite !composite_lex; reflexivity.
  - clear. induction l as [|x l IH]; cbn; auto. rewrite IH. f_equal. f_equal. apply filter_ext. intros. apply composite_lex.
Qed.

(** The header's note says that [comp] need not be strict. With a non-strict comparison and two
    equal elements the sort does not terminate. *)
Theorem C04_nonstrict_refuted : exists l, forall fuel, bubble_loop Nat.leb fuel l = None.
Proof. exists [1; 1]. exact nonstrict_diverges. Qed.

Lemma nat_ltb_strict_weak : strict_weak Nat.ltb.
Proof.
  repeat split; intros *; rewrite ?Nat.ltb_lt, ?Nat.ltb_ge; lia.
Qed.

Example C04_ex : bubble_sort Nat.ltb [3; 1; 2; 1] = Some ([1; 1; 2; 3], 4).
Proof. reflexivity. Qed.
Example C04_ex_zip : bubble_sort (composite_compare Nat.ltb) [(2,5); (1,7); (2,3)] = Some ([(1,7); (2,3); (2,5)], 2).
Proof. reflexivity. Qed.

(** ** C05 *)

(** On a range of at least two elements: either there is a larger rearrangement, and the range
    becomes the next larger one; or there is none, and the range becomes sorted. The parity flag
    changes by the parity of the number of exchanges that turn the old range into the new one. *)
Theorem C05_next_permutation : forall (A : Type) (lt : A -> A -> bool) (l : list A) (p : Z),
  total_on lt l -> 2 <= length l ->
  exists b m p', next_permutation_parity lt p l = Some (b, m, p') /\
    (exists k, exchanges k l m /\ p' = Z.rem (p + Z.of_nat k) 2) /\
    (b = true -> lex_successor lt l m) /\
    (b = false -> (forall q, Permutation l q -> ~ lex lt l q) /\ Permutation l m /\ in_sorted_order lt m).
Proof.
  intros A lt l p (irr & tr & tri) Hl.
  destruct (next_spec lt l irr tr tri p l (incl_refl _)) as (b & m & p' & E & (k & K1 & K2 & _) & H).
  exists b, m, p'. split; auto. split; [exists k; auto|]. split; intros ->; auto.
  destruct H as (H1 & H2). split; auto. split; auto. eapply exchanges_perm; eauto.
Qed.

(** Shorter ranges are left alone. *)
Theorem C05_short : forall (A : Type) (lt : A -> A -> bool) (l : list A) (p : Z),
  length l <= 1 -> next_permutation_parity lt p l = Some (false, l, p).
Proof. intros A lt [|x [|y l]] p H; cbn in *; auto; lia. Qed.

(** For distinct elements the number of exchanges has the parity of the change of the number of
    inversions, so the flag tracks the sign of the permutation. *)
Theorem C05_sign : forall (A : Type) (lt : A -> A -> bool) (l m : list A) k,
  total_on lt l -> NoDup l -> exchanges k l m ->
  Nat.odd (inversions lt m) = xorb (Nat.odd (inversions lt l)) (Nat.odd k).
Proof. intros A lt l m k (irr & tr & tri) N E. eapply exchanges_sign; eauto. Qed.

Lemma nat_ltb_total l : total_on Nat.ltb l.
Proof.
  repeat split.
  - apply Nat.ltb_irrefl.
  - intros x y z. rewrite !Nat.ltb_lt. lia.
  - intros x y _ _. rewrite !Nat.ltb_lt. lia.
Qed.

Example C05_ex : next_permutation_parity Nat.ltb 0 [2; 4; 3; 1] = Some (true, [3; 1; 2; 4], 0%Z).
Proof. reflexivity. Qed.
Example C05_ex_last : next_permutation_parity Nat.ltb 1 [3; 2; 1] = Some (false, [1; 2; 3], 0%Z).
Proof. reflexivity. Qed.

(** ** C06 *)
Theorem C06_antisymmetric_permutation : forall (A : Type) (lt : A -> A -> bool) (l : list A),
  total_on lt l -> in_sorted_order lt l -> NoDup l ->
  forall fuel, fact (length l) <= fuel ->
  exists calls, antisymmetric_permutation lt fuel l = Some (calls, l) /\
    length calls = fact (length l) /\ NoDup (map fst calls) /\
    (forall q, In q (map fst calls) <-> Permutation l q) /\
    (forall q p, In (q, p) calls -> p = if Nat.even (inversions lt q) then 0%Z else 1%Z).
Proof. intros A lt l. exact (antisym_all lt l). Qed.

Example C06_ex : antisymmetric_permutation Nat.ltb 6 [1; 4; 7] =
  Some ([([1;4;7],0%Z); ([1;7;4],1%Z); ([4;1;7],1%Z); ([4;7;1],0%Z); ([7;1;4],0%Z); ([7;4;1],1%Z)], [1;4;7]).
Proof. reflexivity. Qed.
Example C06_ex_hyp : total_on Nat.ltb [1;4;7] /\ in_sorted_order Nat.ltb [1;4;7] /\ NoDup [1;4;7].
Proof.
  split; [apply nat_ltb_total|]. split; [repeat constructor|].
  repeat constructor; cbn; intuition discriminate.
Qed.

(** ** C43: the symmetric counterpart permutes bra and ket entries together. *)
Theorem C43_symmetric_permutation : forall l : list (nat * nat),
  StronglySorted lt (map fst l) ->
  forall fuel, fact (length l) <= fuel -> 2 <= length l ->
  exists calls, symmetric_permutation fuel l = Some (calls, l) /\
    length calls = fact (length l) /\ NoDup calls /\ (forall q, In q calls <-> Permutation l q).
Proof.
  intros l S fuel Hf Hl.
  assert (U : forall x y, In x l -> In y l -> fst x = fst y -> x = y).
  { clear - S. induction l as [|a l IH]; cbn; [contradiction|]. inversion S as [|? ? S1 S2]; subst.
    rewrite Forall_forall in S2.
    intros x y [<-|Hx] [<-|Hy] E; auto; exfalso.
    - specialize (S2 (fst y) (in_map fst _ _ Hy)). lia.
    - specialize (S2 (fst x) (in_map fst _ _ Hx)). lia. }
  destruct (antisym_all pair_less l) with (fuel := fuel) as (calls & E & L & N & C & _); auto.
  - split; [|split].
    + intros x. apply Nat.ltb_irrefl.
    + unfold pair_less. intros x y z. rewrite !Nat.ltb_lt. lia.
    + intros x y Hx Hy. unfold pair_less. rewrite !Nat.ltb_lt.
      destruct (lt_eq_lt_dec (fst x) (fst y)) as [[H|H]|H]; auto.
  - unfold in_sorted_order, pair_less. clear - S. induction l as [|a l IH]; constructor; inversion S as [|? ? S1 S2]; subst; auto.
    rewrite Forall_forall in *. intros x Hx. specialize (S2 (fst x) (in_map fst _ _ Hx)). apply Nat.ltb_ge. lia.
  - apply (NoDup_map_inv fst). clear - S. induction S as [|a m S IH F]; constructor; auto.
    intros H. rewrite Forall_forall in F. specialize (F a H). lia.
  - unfold antisymmetric_permutation in E. destruct (Nat.leb_spec (length l) 1); [lia|].
    exists (map fst calls). unfold symmetric_permutation. rewrite E. cbn [option_map fst snd].
    rewrite map_length. auto.
Qed.

Example C43_ex : symmetric_permutation 2 [(0, 5); (1, 3)] = Some ([[(0,5); (1,3)]; [(1,3); (0,5)]], [(0,5); (1,3)]).
Proof. reflexivity. Qed.

(** ** C07 *)
Theorem C07_count_cycles : forall v0 v1, length v0 = length v1 ->
  exists c, count_cycles v0 v1 = Some c /\
    n_classes (slot_edge v0 v1) (seq 0 (length v0 + length v1)) c.
Proof. exact count_cycles_ok. Qed.

(** The number of classes is determined by the graph. *)
Theorem C07_classes_unique : forall E X n m, n_classes E X n -> n_classes E X m -> n = m.
Proof. exact n_classes_unique. Qed.

(** Swapping the two rows in any columns does not change the count. *)
Theorem C07_orientation : forall v0 v1 w0 w1,
  length v0 = length v1 -> length w0 = length v0 -> length w1 = length v1 ->
  (forall i, (nth_error w0 i = nth_error v0 i /\ nth_error w1 i = nth_error v1 i) \/
             (nth_error w0 i = nth_error v1 i /\ nth_error w1 i = nth_error v0 i)) ->
  count_cycles w0 w1 = count_cycles v0 v1.
Proof. exact count_cycles_orientation. Qed.

(** For a permutation it is the number of its cycles. *)
Theorem C07_cycles : forall v0 v1, NoDup v0 -> Permutation v0 v1 ->
  exists c, count_cycles v0 v1 = Some c /\ n_classes (maps_to v0 v1) (seq 0 (length v0)) c.
Proof. exact count_cycles_perm. Qed.

Example C07_ex : count_cycles [1;2;3;4;5] [2;1;4;5;3] = Some 2.
Proof. reflexivity. Qed.
Example C07_ex_same_row : count_cycles [1;1;3] [2;2;3] = Some 2.
Proof. reflexivity. Qed.

(** ** C08 is false of the code *)

(** The identity permutation of odd length is reported as odd ... *)
Theorem C08_sign_refuted : forall n, exists p r,
  permutation_parity (map Z.of_nat (seq 0 n)) false = Some (p, r) /\
  sign (map Z.of_nat (seq 0 n)) = 1%Z /\ (Nat.odd n = true -> r = (-1)%Z).
Proof.
  intros n. destruct (permutation_parity_identity n) as (p & E). exists p, (if Nat.even n then 1 else -1)%Z.
  split; [exact E|]. split; [apply iota_sign|]. rewrite <- Nat.negb_even. destruct (Nat.even n); [discriminate|auto].
Qed.

(** ... and [overwrite=true] does not give the permutation back. *)
Theorem C08_overwrite_refuted : exists p p' r,
  Permutation p [0; 1]%Z /\ permutation_parity p true = Some (p', r) /\ p' <> p.
Proof.
  exists [1; 0]%Z, [-1; 0]%Z, (-1)%Z. split; [apply perm_swap|]. split; [reflexivity|discriminate].
Qed.

Print Assumptions C04_bubble_sort.
Print Assumptions C05_next_permutation.
Print Assumptions C06_antisymmetric_permutation.
Print Assumptions C07_count_cycles.
Print Assumptions C07_cycles.
Print Assumptions C08_sign_refuted.
