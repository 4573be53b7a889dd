From Coq Require Import ZArith List Arith Bool Lia.
From Verif Require Import Tsr_Model Tsr_Spec Tsr_Proofs1 Blk_Model Blk_Spec.
Import ListNotations.

Lemma occupied_eq t : occupied t = b_indices t.
Proof.
  unfold occupied, b_indices, slots. induction (b_bra t ++ b_ket t ++ b_aux t) as [|x l IH]; [reflexivity|].
  cbn [map concat filter]. rewrite IH. unfold slot at 1. destruct (ix_null x); reflexivity.
Qed.

Lemma num_slots_eq t : num_slots t = length (slots t).
Proof. unfold num_slots, slots. rewrite !app_length. lia. Qed.

(** ** Keys *)
Definition bkey := (Z * (nat * (nat * list space)))%type.
Definition key_of (t : btensor) : bkey :=
  (b_label t, (num_slots t, (num_indices t, map ix_space (b_indices t)))).
Definition bcmp : bkey -> bkey -> comparison :=
  pcmp Z.compare (pcmp Nat.compare (pcmp Nat.compare (lcmp scmp))).
Lemma TO_bcmp : TO bcmp.
Proof. repeat apply TO_pair; [apply TO_Z|apply TO_nat|apply TO_nat|apply TO_list, TO_space]. Qed.

Definition is_lt (c : comparison) : bool := match c with Lt => true | _ => false end.
Definition is_eq (c : comparison) : bool := match c with Eq => true | _ => false end.

Lemma space_loop_eq l : forall m, length l = length m ->
  space_loop equal_to l m = Some (is_eq (lcmp scmp (map ix_space l) (map ix_space m))).
Proof.
  induction l as [|x l IH]; intros [|y m] H; cbn in *; try discriminate; [reflexivity|].
  rewrite space_eqb_scmp. destruct (scmp (ix_space x) (ix_space y)); cbn; [|reflexivity|reflexivity].
  apply IH. lia.
Qed.

Lemma space_loop_less (S : space -> Prop) l : one_registry S -> forall m, length l = length m ->
  (forall x, In x l -> S (ix_space x)) -> (forall x, In x m -> S (ix_space x)) ->
  space_loop less l m = Some (is_lt (lcmp scmp (map ix_space l) (map ix_space m))).
Proof.
  intros R. induction l as [|x l IH]; intros [|y m] H Hl Hm; cbn in *; try discriminate; [reflexivity|].
  rewrite space_eqb_scmp, (space_ltb_reg S) by auto. destruct (scmp (ix_space x) (ix_space y)); cbn; [|reflexivity|reflexivity].
  apply IH; auto.
Qed.

Lemma Zeqb_cmp a b : Z.eqb a b = is_eq (Z.compare a b).
Proof. rewrite Z.eqb_compare. reflexivity. Qed.
Lemma Neqb_cmp a b : Nat.eqb a b = is_eq (Nat.compare a b).
Proof. rewrite Nat.eqb_compare. destruct (Nat.compare a b); reflexivity. Qed.
Lemma Nltb_cmp a b : Nat.ltb a b = is_lt (Nat.compare a b).
Proof. rewrite Nat.ltb_compare. destruct (Nat.compare a b); reflexivity. Qed.

Lemma block_equal_key t u : block_equal t u = Some (is_eq (bcmp (key_of t) (key_of u))).
Proof.
  unfold block_equal, block_compare, bcmp, pcmp, key_of. cbn [fst snd equal_to c_Z c_nat].
  rewrite Zeqb_cmp. destruct (Z.compare (b_label t) (b_label u)); cbn [is_eq negb cthen]; try reflexivity.
  rewrite Neqb_cmp. destruct (Nat.compare (num_slots t) (num_slots u)); cbn [is_eq negb cthen]; try reflexivity.
  rewrite Neqb_cmp. destruct (Nat.compare (num_indices t) (num_indices u)) eqn:E; cbn [is_eq negb cthen]; try reflexivity.
  apply space_loop_eq. apply Nat.compare_eq in E. exact E.
Qed.

Lemma in_indices S t x : block_over S t -> In x (b_indices t) -> S (ix_space x).
Proof. intros H Hx. apply filter_In in Hx. apply H. apply Hx. Qed.

Lemma block_less_key S t u : one_registry S -> block_over S t -> block_over S u ->
  block_less t u = Some (is_lt (bcmp (key_of t) (key_of u))).
Proof.
  intros R Ht Hu. unfold block_less, block_compare, bcmp, pcmp, key_of. cbn [fst snd less c_Z c_nat].
  rewrite Zeqb_cmp. unfold Z.ltb. destruct (Z.compare (b_label t) (b_label u)); cbn [is_eq is_lt negb cthen]; try reflexivity.
  rewrite Neqb_cmp, Nltb_cmp. destruct (Nat.compare (num_slots t) (num_slots u)); cbn [is_eq is_lt negb cthen]; try reflexivity.
  rewrite Neqb_cmp, Nltb_cmp. destruct (Nat.compare (num_indices t) (num_indices u)) eqn:E; cbn [is_eq is_lt negb cthen]; try reflexivity.
  apply (space_loop_less S); auto.
  - apply Nat.compare_eq in E. exact E.
  - intros x. apply in_indices. exact Ht.
  - intros x. apply in_indices. exact Hu.
Qed.

Lemma key_same t u : key_of t = key_of u <-> same_block t u.
Proof.
  unfold key_of, same_block. rewrite !num_slots_eq, !occupied_eq. unfold slots. split.
  - intros [= A B C D]. auto.
  - intros (A & B & C). rewrite A, B, C. unfold num_indices. fold (b_indices t) (b_indices u).
    apply (f_equal (@length _)) in C. rewrite !map_length in C. rewrite C. reflexivity.
Qed.

(** A comparison by a totally ordered key is a strict weak order. *)
Lemma key_strict_weak {A B} (U : A -> Prop) (key : A -> B) (c : B -> B -> comparison) (lt : A -> A -> bool) (same : A -> A -> Prop) :
  TO c -> (forall x y, U x -> U y -> lt x y = is_lt (c (key x) (key y))) ->
  (forall x y, U x -> U y -> (key x = key y <-> same x y)) -> strict_weak_on U lt same.
Proof.
  intros (E & S & T) H K. split; [|split; [|split]].
  - intros x Hx. rewrite H by auto. rewrite (proj2 (E (key x) (key x)) eq_refl). reflexivity.
  - intros x y z Hx Hy Hz. rewrite !H by auto. intros P Q.
    destruct (c (key x) (key y)) eqn:P'; try discriminate. destruct (c (key y) (key z)) eqn:Q'; try discriminate.
    rewrite (T _ _ _ P' Q'). reflexivity.
  - intros x y z Hx Hy Hz. rewrite !H by auto. intros P Q.
    destruct (c (key x) (key z)) eqn:R; try reflexivity.
    destruct (c (key x) (key y)) eqn:P'; try discriminate.
    + apply E in P'. rewrite P' in R. rewrite R in Q. discriminate.
    + assert (P2 : c (key y) (key x) = Lt) by (rewrite (S (key x) (key y)), P'; reflexivity).
      rewrite (T _ _ _ P2 R) in Q. discriminate.
  - intros x y Hx Hy. rewrite <- (K x y Hx Hy). rewrite !H by auto. split.
    + intros [P Q]. apply E. destruct (c (key x) (key y)) eqn:P'; [reflexivity|discriminate|].
      rewrite (S (key x) (key y)), P' in Q. discriminate.
    + intros X. rewrite X. rewrite (proj2 (E _ _) eq_refl). split; reflexivity.
Qed.

(** ** Specific indices *)
Lemma position_identity x y l : identity x = identity y -> position x l = position y l.
Proof.
  intros H. induction l as [|z l IH]; cbn; [reflexivity|].
  assert (E : ix_eqb z x = ix_eqb z y).
  { apply eq_true_iff_eq. rewrite !ix_eqb_spec. rewrite H. tauto. }
  rewrite E, IH. reflexivity.
Qed.

Lemma position_first l x : first_at l x (position x l).
Proof.
  induction l as [|z l IH].
  - split; [intros j y Hj; cbn in Hj; lia|left; reflexivity].
  - cbn [position]. destruct (ix_eqb z x) eqn:E.
    + split; [intros j y Hj; lia|]. right. exists z. split; [reflexivity|]. apply ix_eqb_spec. exact E.
    + destruct IH as [A B]. split.
      * intros [|j] y Hj Hy; cbn in Hy.
        -- inversion Hy; subst. intros X. apply ix_eqb_spec in X. congruence.
        -- apply (A j y); [lia|exact Hy].
      * destruct B as [B|[y [B C]]]; [left; cbn; lia|right; exists y; auto].
Qed.

Lemma first_at_unique l x k k' : first_at l x k -> first_at l x k' -> k = k'.
Proof.
  assert (W : forall k k', first_at l x k -> first_at l x k' -> ~ k < k').
  { clear k k'. intros k k' [A B] [A' B'] L. destruct B as [B|[y [B C]]].
    - destruct B' as [B'|[y' [B' C']]]; [lia|].
      assert (k' < length l) by (apply nth_error_Some; congruence). lia.
    - exact (A' k y L B C). }
  intros H H'. pose proof (W k k' H H'). pose proof (W k' k H' H). lia.
Qed.

Definition pos_list (sp : list index) (t : btensor) : list nat := map (fun x => position x sp) (b_indices t).

Lemma index_loop_eq sp l : forall m, length l = length m ->
  index_loop equal_to sp l m = Some (is_eq (lcmp Nat.compare (map (fun x => position x sp) l) (map (fun x => position x sp) m))).
Proof.
  induction l as [|x l IH]; intros [|y m] H; cbn [index_loop map lcmp length] in *; try discriminate; [reflexivity|].
  destruct (ix_eqb x y) eqn:E; cbn [negb].
  - apply ix_eqb_spec in E. rewrite (position_identity _ _ sp E), Nat.compare_refl. cbn [cthen]. apply IH. lia.
  - rewrite Neqb_cmp. cbn [equal_to c_nat]. rewrite ?Neqb_cmp.
    destruct (Nat.compare (position x sp) (position y sp)) eqn:C; cbn [is_eq negb cthen]; [apply IH; lia| |]; reflexivity.
Qed.

Lemma index_loop_less sp l : forall m, length l = length m ->
  index_loop less sp l m = Some (is_lt (lcmp Nat.compare (map (fun x => position x sp) l) (map (fun x => position x sp) m))).
Proof.
  induction l as [|x l IH]; intros [|y m] H; cbn [index_loop map lcmp length] in *; try discriminate; [reflexivity|].
  destruct (ix_eqb x y) eqn:E; cbn [negb].
  - apply ix_eqb_spec in E. rewrite (position_identity _ _ sp E), Nat.compare_refl. cbn [cthen]. apply IH. lia.
  - rewrite Neqb_cmp. cbn [less c_nat]. rewrite ?Nltb_cmp.
    destruct (Nat.compare (position x sp) (position y sp)) eqn:C; cbn [is_eq is_lt negb cthen]; [apply IH; lia| |]; reflexivity.
Qed.

Definition scmp_key : bkey * list nat -> bkey * list nat -> comparison := pcmp bcmp (lcmp Nat.compare).
Lemma TO_scmp_key : TO scmp_key.
Proof. apply TO_pair; [apply TO_bcmp|apply TO_list, TO_nat]. Qed.
Definition skey_of (sp : list index) (t : btensor) : bkey * list nat := (key_of t, pos_list sp t).

Lemma key_length t u : key_of t = key_of u -> length (b_indices t) = length (b_indices u).
Proof. unfold key_of, num_indices. intros [= _ _ H _]. exact H. Qed.

Lemma specific_equal_key sp t u : specific_equal sp t u = Some (is_eq (scmp_key (skey_of sp t) (skey_of sp u))).
Proof.
  unfold specific_equal, specific_compare, scmp_key, pcmp, skey_of. cbn [fst snd].
  rewrite block_equal_key. destruct (bcmp (key_of t) (key_of u)) eqn:C; cbn [is_eq cthen].
  - apply index_loop_eq. apply key_length. apply TO_bcmp. exact C.
  - fold (block_equal t u). rewrite block_equal_key, C. reflexivity.
  - fold (block_equal t u). rewrite block_equal_key, C. reflexivity.
Qed.

Lemma specific_less_key S sp t u : one_registry S -> block_over S t -> block_over S u ->
  specific_less sp t u = Some (is_lt (scmp_key (skey_of sp t) (skey_of sp u))).
Proof.
  intros R Ht Hu. unfold specific_less, specific_compare, scmp_key, pcmp, skey_of. cbn [fst snd].
  rewrite block_equal_key. destruct (bcmp (key_of t) (key_of u)) eqn:C; cbn [is_eq cthen].
  - apply index_loop_less. apply key_length. apply TO_bcmp. exact C.
  - fold (block_less t u). rewrite (block_less_key S) by auto. rewrite C. reflexivity.
  - fold (block_less t u). rewrite (block_less_key S) by auto. rewrite C. reflexivity.
Qed.

Lemma map_nth_same {A} (f : A -> nat) l : forall m, length l = length m ->
  (map f l = map f m <-> forall j x y, nth_error l j = Some x -> nth_error m j = Some y -> f x = f y).
Proof.
  induction l as [|x l IH]; intros [|y m] H; cbn in H; try discriminate.
  - split; [intros _ [|j] ? ? X; discriminate|reflexivity].
  - cbn [map]. split.
    + intros E [|j] a b; cbn; intros X Y.
      * injection E as E1 E2. injection X as <-. injection Y as <-. exact E1.
      * injection E as E1 E2. exact (proj1 (IH m ltac:(lia)) E2 j a b X Y).
    + intros E. f_equal.
      * apply (E 0); reflexivity.
      * apply (IH m ltac:(lia)). intros j a b X Y. apply (E (Datatypes.S j)); assumption.
Qed.

Lemma skey_same sp t u : skey_of sp t = skey_of sp u <-> same_block t u /\ same_specific sp t u.
Proof.
  unfold skey_of. split.
  - intros E. assert (KK : key_of t = key_of u) by exact (f_equal fst E).
    assert (P : pos_list sp t = pos_list sp u) by exact (f_equal snd E).
    rewrite <- key_same. split; [exact KK|].
    intros j x y k. rewrite !occupied_eq. intros X Y.
    pose proof (proj1 (map_nth_same (fun x => position x sp) _ _ (key_length _ _ KK)) P j x y X Y) as Q.
    cbv beta in Q. split; intros F.
    + rewrite (first_at_unique _ _ _ _ F (position_first sp x)), Q. apply position_first.
    + rewrite (first_at_unique _ _ _ _ F (position_first sp y)), <- Q. apply position_first.
  - intros [K F]. apply key_same in K. rewrite K. f_equal. unfold pos_list.
    apply (map_nth_same (fun x => position x sp)); [apply key_length; exact K|].
    intros j x y X Y. specialize (F j x y (position x sp)). rewrite !occupied_eq in F.
    apply (first_at_unique sp y); [apply F; auto; apply position_first|apply position_first].
Qed.

(** ** Maps *)
Section Map.
  Context {K V : Type} (U : K -> Prop) (lt : K -> K -> bool) (same : K -> K -> Prop).
  Hypothesis W : strict_weak_on U lt same.

  Definition equiv (a b : K) : bool := negb (lt a b) && negb (lt b a).

  Fixpoint sorted (m : list (K * V)) : Prop :=
    match m with
    | [] => True
    | (k, _) :: m' => U k /\ (forall k' v', In (k', v') m' -> lt k k' = true) /\ sorted m'
    end.

  Lemma lt_eq_r a b c : U a -> U b -> U c -> lt a b = true -> lt b c = false -> lt c b = false -> lt a c = true.
  Proof.
    destruct W as (I & T & N & _). intros Ha Hb Hc L E1 E2.
    destruct (lt a c) eqn:E; [reflexivity|]. rewrite (N a c b Ha Hc Hb E E2) in L. discriminate.
  Qed.
  Lemma lt_eq_l a b c : U a -> U b -> U c -> lt a b = false -> lt b a = false -> lt b c = true -> lt a c = true.
  Proof.
    destruct W as (I & T & N & _). intros Ha Hb Hc E1 E2 L.
    destruct (lt a c) eqn:E; [reflexivity|]. rewrite (N b a c Hb Ha Hc E2 E) in L. discriminate.
  Qed.

  Lemma assign_in (k : K) (v : V) (m : list (K * V)) (k' : K) (v' : V) : In (k', v') (map_assign lt k v m) -> k' = k \/ exists v'', In (k', v'') m.
  Proof.
    induction m as [|[a b] m IH]; cbn.
    - intros [E|[]]. inversion E. auto.
    - destruct (lt a k); [|destruct (lt k a)]; cbn.
      + intros [E|H]; [inversion E; subst; right; exists v'; auto|]. destruct (IH H) as [H'|[v'' H']]; [auto|right; exists v''; auto].
      + intros [E|[E|H]]; [inversion E; auto|right; exists v'; auto|right; exists v'; auto].
      + intros [E|H]; [inversion E; subst; right; exists b; auto|right; exists v'; auto].
  Qed.

  Lemma assign_sorted (k : K) (v : V) (m : list (K * V)) : U k -> sorted m -> sorted (map_assign lt k v m).
  Proof.
    intros Hk. induction m as [|[a b] m IH]; cbn; [tauto|]. intros (Ha & L & S).
    destruct (lt a k) eqn:E1.
    - cbn. repeat split; auto. intros k' v' H. apply assign_in in H. destruct H as [->|[v'' H]]; [exact E1|apply (L _ _ H)].
    - destruct (lt k a) eqn:E2; cbn.
      + repeat split; auto. intros k' v' [H|H]; [inversion H; subst; exact E2|].
        destruct W as (_ & T & _). apply (T k a k'); auto; [|apply (L _ _ H)].
        clear - S H. induction m as [|[c d] m IH]; [destruct H|]. cbn in S. destruct H as [H|H]; [inversion H; subst; apply S|apply IH; [apply S|exact H]].
      + repeat split; auto.
  Qed.

  Lemma sorted_U m k v : sorted m -> In (k, v) m -> U k.
  Proof. induction m as [|[c d] m IH]; cbn; [tauto|]. intros (A & B & C) [H|H]; [inversion H; subst; exact A|auto]. Qed.

  Lemma find_assign (k : K) (v : V) (q : K) (m : list (K * V)) : U k -> U q -> sorted m ->
    map_find lt q (map_assign lt k v m) = if equiv k q then Some v else map_find lt q m.
  Proof.
    intros Hk Hq. unfold equiv. destruct W as (I & T & N & _).
    induction m as [|[a b] m IH]; cbn [map_assign map_find sorted].
    - intros _. destruct (lt k q), (lt q k); reflexivity.
    - intros (Ha & L & S). specialize (IH S).
      destruct (lt a k) eqn:E1.
      + cbn [map_find]. destruct (lt a q) eqn:E3; [exact IH|].
        (* a not below q, a below k: k and q are not equivalent *)
        destruct (lt k q) eqn:E4; cbn [negb andb]; [rewrite (T a k q) in E3 by auto; discriminate|].
        destruct (lt q k) eqn:E5; cbn [negb andb]; [reflexivity|].
        rewrite (lt_eq_r a k q) in E3 by auto. discriminate.
      + destruct (lt k a) eqn:E2; cbn [map_find].
        * destruct (lt k q) eqn:E4; cbn [negb andb].
          -- reflexivity.
          -- destruct (lt q k) eqn:E5; cbn [negb andb]; [|reflexivity].
             assert (Q : lt q a = true) by (apply (T q k a); auto).
             assert (Q' : lt a q = false).
             { destruct (lt a q) eqn:X; [|reflexivity]. pose proof (T a q a Ha Hq Ha X Q) as Y. rewrite (I a Ha) in Y. discriminate. }
             rewrite Q', Q. reflexivity.
        * (* k and a are equivalent *)
          destruct (lt a q) eqn:E3.
          -- rewrite (lt_eq_l k a q) by auto. reflexivity.
          -- destruct (lt q a) eqn:E6.
             ++ rewrite (lt_eq_r q a k) by auto. rewrite andb_false_r. reflexivity.
             ++ rewrite (N k a q), (N q a k) by auto. reflexivity.
  Qed.

  Lemma map_of_find (q : K) (l : list (K * V)) : U q -> Forall (fun kv => U (fst kv)) l -> forall m, sorted m ->
    map_find lt q (fold_left (fun m kv => map_assign lt (fst kv) (snd kv) m) l m)
    = last_value (fun k => equiv k q) l (map_find lt q m).
  Proof.
    intros Hq F. induction F as [|[k v] l Hk F IH]; intros m S; cbn [fold_left last_value fst snd] in *; [reflexivity|].
    rewrite IH by (apply assign_sorted; auto). rewrite find_assign by auto. reflexivity.
  Qed.
End Map.
