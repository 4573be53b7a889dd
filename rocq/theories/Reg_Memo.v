(** Model of registries as objects: the set of spaces is shared between copies, and the lists of
    base spaces are memoized in every object (index_space_registry.hpp:98-150, 815-858, 1366-1382;
    index_space_registry.cpp:9-11, 29-35). *)
From Coq Require Import List NArith Bool Arith Lia Permutation Sorting.Sorted.
From Verif Require Import Reg_Model Reg_Spec Reg_Proofs.
Import ListNotations.
Open Scope N_scope.

(** A registry object: the address of its set of spaces, its mask, and the memoized lists. *)
Record obj := mkobj { ptr : nat; omask : N; memo_types : option (list N); memo_spaces : option (list space) }.
(** The heap: the sets of spaces by address; and the objects by name. *)
Record heap := mkh { sets : list (list space); objs : list obj }.

Definition set_at (h : heap) (p : nat) : list space := nth p (sets h) [].
Definition the_reg (h : heap) (o : obj) : reg := mkr (set_at h (ptr o)) (omask o) 0 0.

Fixpoint update {X} (l : list X) (i : nat) (x : X) : list X :=
  match l, i with
  | [], _ => []
  | _ :: l', O => x :: l'
  | y :: l', S i' => y :: update l' i' x
  end.

(** insertion sort for ranges::sort by type; elements with equal types keep their order (the
    order of these is not specified) *)
Fixpoint ins {X} (f : X -> N) (x : X) (l : list X) : list X :=
  match l with
  | [] => [x]
  | y :: l' => if f x <=? f y then x :: l else y :: ins f x l'
  end.
Definition isort {X} (f : X -> N) (l : list X) : list X := fold_right (ins f) [] l.

(** views::unique: drops an element equal to the one before it *)
Fixpoint unique (l : list N) : list N :=
  match l with
  | x :: ((y :: _) as l') => if x =? y then unique l' else x :: unique l'
  | _ => l
  end.
Fixpoint unique_spaces (l : list space) : list space :=
  match l with
  | x :: ((y :: _) as l') => if space_eqb x y then unique_spaces l' else x :: unique_spaces l'
  | _ => l
  end.

(** 824-837 and 846-858 without the memo *)
Definition compute_types (r : reg) : list N := isort (fun t => t) (unique (filter is_base_type (map sty (spaces r)))).
Definition compute_spaces (r : reg) : list space := isort sty (unique_spaces (filter (is_base r) (spaces r))).

(** What a program does with registries. The results of the queries are returned. *)
Inductive cmd :=
| New                         (** default constructor *)
| Copy (i : nat)              (** copy constructor (107-115): shares the set, no memo *)
| Clone (i : nat)             (** clone (index_space_registry.cpp:29-35): copies the set *)
| Assign (i j : nat)          (** operator= (129-139): the memo of the target stays *)
| Clear (i : nat)             (** clear (561-564): assigns a new registry *)
| Add (i : nat) (s : space)
| Remove (i : nat) (s : space)
| SetMask (i : nat) (m : N)   (** physical_particle_attribute_mask(m): the memo stays *)
| BaseTypes (i : nat)
| BaseSpaces (i : nat).

Inductive answer := None_ | Types (l : list N) | Spaces (l : list space).

Definition put (h : heap) (i : nat) (o : obj) : heap := mkh (sets h) (update (objs h) i o).
Definition store (h : heap) (p : nat) (l : list space) : heap := mkh (update (sets h) p l) (objs h).
Definition forget (o : obj) : obj := mkobj (ptr o) (omask o) None None.

Definition exec (h : heap) (c : cmd) : heap * answer :=
  match c with
  | New => (mkh (sets h ++ [[null]]) (objs h ++ [mkobj (length (sets h)) 0 None None]), None_)
  | Copy i =>
      match nth_error (objs h) i with
      | Some o => (mkh (sets h) (objs h ++ [mkobj (ptr o) (omask o) None None]), None_)
      | None => (h, None_)
      end
  | Clone i =>
      match nth_error (objs h) i with
      | Some o => (mkh (sets h ++ [set_at h (ptr o)]) (objs h ++ [mkobj (length (sets h)) (omask o) None None]), None_)
      | None => (h, None_)
      end
  | Assign i j =>
      match nth_error (objs h) i, nth_error (objs h) j with
      | Some o, Some o' => (put h i (mkobj (ptr o') (omask o') (memo_types o) (memo_spaces o)), None_)
      | _, _ => (h, None_)
      end
  | Clear i =>
      match nth_error (objs h) i with
      | Some o => (put (mkh (sets h ++ [[null]]) (objs h)) i (mkobj (length (sets h)) 0 (memo_types o) (memo_spaces o)), None_)
      | None => (h, None_)
      end
  | Add i s =>
      match nth_error (objs h) i with
      | Some o =>
          match add (the_reg h o) s with
          | Ret r => (put (store h (ptr o) (spaces r)) i (forget o), None_)
          | _ => (h, None_)
          end
      | None => (h, None_)
      end
  | Remove i s =>
      match nth_error (objs h) i with
      | Some o => (put (store h (ptr o) (spaces (remove (the_reg h o) s))) i (forget o), None_)
      | None => (h, None_)
      end
  | SetMask i m =>
      match nth_error (objs h) i with
      | Some o => (put h i (mkobj (ptr o) m (memo_types o) (memo_spaces o)), None_)
      | None => (h, None_)
      end
  | BaseTypes i =>
      match nth_error (objs h) i with
      | Some o =>
          match memo_types o with
          | Some l => (h, Types l)
          | None => let l := compute_types (the_reg h o) in
                    (put h i (mkobj (ptr o) (omask o) (Some l) (memo_spaces o)), Types l)
          end
      | None => (h, None_)
      end
  | BaseSpaces i =>
      match nth_error (objs h) i with
      | Some o =>
          match memo_spaces o with
          | Some l => (h, Spaces l)
          | None => let l := compute_spaces (the_reg h o) in
                    (put h i (mkobj (ptr o) (omask o) (memo_types o) (Some l)), Spaces l)
          end
      | None => (h, None_)
      end
  end.

Definition run (l : list cmd) : heap := fold_left (fun h c => fst (exec h c)) l (mkh [] []).

(** ** Specification *)

(** What the queries should answer for the current contents of the object. *)
Definition right_types (h : heap) (o : obj) (l : list N) : Prop :=
  StronglySorted N.le l /\
  forall t, In t l <-> (exists k, t = 2 ^ k) /\ exists s, In s (set_at h (ptr o)) /\ sty s = t.
Definition right_spaces (h : heap) (o : obj) (l : list space) : Prop :=
  StronglySorted (fun a b => sty a <= sty b) l /\ NoDup l /\
  forall s, In s l <-> In s (set_at h (ptr o)) /\ (exists k, sty s = 2 ^ k) /\
                       (forall k, N.testbit (sqn s) k = true -> N.testbit (omask o) k = true).

Definition right_answer (h : heap) (c : cmd) (a : answer) : Prop :=
  match c, a with
  | BaseTypes i, Types l => exists o, nth_error (objs h) i = Some o /\ right_types h o l
  | BaseSpaces i, Spaces l => exists o, nth_error (objs h) i = Some o /\ right_spaces h o l
  | _, None_ => True
  | _, _ => False
  end.

(** A history without copies that share their spaces, without assignment and clear, and in which
    the mask of an object is set only while nothing is memoized. *)
Definition simple (h : heap) (c : cmd) : Prop :=
  match c with
  | Copy _ | Assign _ _ | Clear _ => False
  | SetMask i _ => forall o, nth_error (objs h) i = Some o -> memo_types o = None /\ memo_spaces o = None
  | _ => True
  end.

Inductive simple_history : heap -> Prop :=
| sh_start : simple_history (mkh [] [])
| sh_step h c : simple_history h -> simple h c -> simple_history (fst (exec h c)).

(** ** Proofs *)

Lemma ins_in {X} (f : X -> N) x l y : In y (ins f x l) <-> y = x \/ In y l.
Proof.
  induction l as [|z l IH]; cbn; [intuition congruence|]. destruct (f x <=? f z); cbn; [intuition congruence|].
  rewrite IH. intuition congruence.
Qed.

Lemma isort_in {X} (f : X -> N) l y : In y (isort f l) <-> In y l.
Proof. induction l as [|x l IH]; cbn; [tauto|]. rewrite ins_in, IH. intuition congruence. Qed.

Lemma ins_sorted {X} (f : X -> N) x l :
  StronglySorted (fun a b => f a <= f b) l -> StronglySorted (fun a b => f a <= f b) (ins f x l).
Proof.
  induction l as [|z l IH]; cbn; intros H; [constructor; constructor|]. inversion H as [|? ? H1 H2]; subst.
  destruct (f x <=? f z) eqn:E.
  - apply N.leb_le in E. constructor; auto. constructor; auto.
    rewrite Forall_forall in *. intros w Hw. specialize (H2 w Hw). cbn in H2. lia.
  - apply N.leb_gt in E. constructor; auto. rewrite Forall_forall in *. intros w Hw.
    apply ins_in in Hw as [->|Hw]; [lia|apply H2; exact Hw].
Qed.

Lemma isort_sorted {X} (f : X -> N) l : StronglySorted (fun a b => f a <= f b) (isort f l).
Proof. induction l as [|x l IH]; cbn; [constructor|]. apply ins_sorted. exact IH. Qed.

Lemma ins_nodup {X} (f : X -> N) x l : NoDup l -> ~ In x l -> NoDup (ins f x l).
Proof.
  induction l as [|z l IH]; cbn; intros H Hx; [repeat constructor; tauto|].
  destruct (f x <=? f z); [constructor; auto|]. inversion H; subst. constructor.
  - rewrite ins_in. intros [->|HI]; [apply Hx; auto|contradiction].
  - apply IH; auto.
Qed.

Lemma isort_nodup {X} (f : X -> N) l : NoDup l -> NoDup (isort f l).
Proof.
  induction l as [|x l IH]; cbn; intros H; [constructor|]. inversion H; subst.
  fold (isort f l). apply ins_nodup; [apply IH; assumption|]. rewrite isort_in. assumption.
Qed.

Lemma unique_in l t : In t (unique l) <-> In t l.
Proof.
  induction l as [|x l IH]; [tauto|]. destruct l as [|y l]; [tauto|].
  change (unique (x :: y :: l)) with (if x =? y then unique (y :: l) else x :: unique (y :: l)).
  destruct (x =? y) eqn:E.
  - apply N.eqb_eq in E. subst. rewrite IH. cbn. tauto.
  - cbn [In]. cbn [In] in IH. rewrite IH. tauto.
Qed.

Lemma unique_spaces_id l : NoDup (map skey l) -> unique_spaces l = l.
Proof.
  induction l as [|x l IH]; intros H; [reflexivity|]. destruct l as [|y l]; [reflexivity|].
  change (unique_spaces (x :: y :: l)) with (if space_eqb x y then unique_spaces (y :: l) else x :: unique_spaces (y :: l)).
  inversion H as [|? ? H1 H2]; subst. destruct (space_eqb x y) eqn:E.
  - apply space_eqb_iff in E as (_ & _ & E). exfalso. apply H1. left. auto.
  - rewrite IH by exact H2. reflexivity.
Qed.

Lemma sorted_keys_nodup l : sorted l -> NoDup (map skey l).
Proof.
  induction l as [|x l IH]; cbn; intros H; [constructor|]. inversion H as [|? ? H1 H2]; subst. constructor; auto.
  intros HI. apply in_map_iff in HI as [y [E HI]]. rewrite Forall_forall in H2. specialize (H2 y HI).
  unfold kle in H2. rewrite E, key_ltb_irrefl in H2. discriminate.
Qed.

Lemma sorted_nodup l : sorted l -> NoDup l.
Proof. intros H. apply (NoDup_map_inv skey). apply sorted_keys_nodup. exact H. Qed.

Lemma is_base_type_iff t : is_base_type t = true <-> exists k, t = 2 ^ k.
Proof.
  unfold is_base_type. split.
  - intros H. apply andb_prop in H as [H1 H2]. apply negb_true_iff, N.eqb_neq in H1. apply N.eqb_eq in H2.
    exists (N.log2 t). destruct (N.eq_dec t (2 ^ N.log2 t)) as [E|E]; [exact E|]. exfalso.
    destruct (N.log2_spec t) as [L1 L2]; [lia|].
    assert (B : N.testbit (t - 1) (N.log2 t) = true).
    { replace (N.log2 t) with (N.log2 (t - 1)); [apply N.bit_log2; assert (2 ^ N.log2 t <> 0) by (apply N.pow_nonzero; lia); lia|].
      apply N.log2_unique; lia. }
    assert (E2 : N.testbit (N.land t (t - 1)) (N.log2 t) = true).
    { rewrite N.land_spec, B, N.bit_log2 by exact H1. reflexivity. }
    rewrite H2, N.bits_0 in E2. discriminate.
  - intros [k ->]. assert (2 ^ k <> 0) by (apply N.pow_nonzero; lia). apply andb_true_intro. split.
    + apply negb_true_iff, N.eqb_neq. exact H.
    + apply N.eqb_eq. rewrite N.sub_1_r, <- N.ones_equiv. apply N.bits_inj. intros j. rewrite N.land_spec, N.bits_0, N.pow2_bits_eqb.
      destruct (k =? j) eqn:E; auto. apply N.eqb_eq in E. subst. rewrite N.ones_spec_high by lia. reflexivity.
Qed.

Lemma compute_types_right h o : right_types h o (compute_types (the_reg h o)).
Proof.
  split.
  - apply (isort_sorted (fun t : N => t)).
  - intros t. unfold compute_types. rewrite isort_in, unique_in, filter_In, in_map_iff, is_base_type_iff. cbn.
    split; [intros [[s [H1 H2]] H3]|intros [H3 [s [H1 H2]]]]; eauto.
Qed.

Lemma is_base_iff r s :
  is_base r s = true <->
  (exists k, sty s = 2 ^ k) /\ (forall k, N.testbit (sqn s) k = true -> N.testbit (mask r) k = true).
Proof.
  unfold is_base. rewrite andb_true_iff, is_base_type_iff, N.eqb_eq. unfold other_attributes.
  split; intros [H1 H2]; split; auto.
  - intros k Hk. destruct (N.testbit (mask r) k) eqn:E; auto.
    assert (E2 := f_equal (fun n => N.testbit n k) H2). cbv beta in E2. rewrite N.ldiff_spec, Hk, E, N.bits_0 in E2. discriminate.
  - apply N.bits_inj. intros k. rewrite N.ldiff_spec, N.bits_0. specialize (H2 k).
    destruct (N.testbit (sqn s) k); auto. rewrite H2; auto.
Qed.

Lemma compute_spaces_right h o : sorted (set_at h (ptr o)) -> right_spaces h o (compute_spaces (the_reg h o)).
Proof.
  intros S. unfold compute_spaces.
  assert (SF : sorted (filter (is_base (the_reg h o)) (set_at h (ptr o)))) by (apply filter_sorted; exact S).
  rewrite unique_spaces_id by (apply sorted_keys_nodup; exact SF).
  split; [apply (isort_sorted sty)|]. split.
  - apply isort_nodup. apply sorted_nodup. exact SF.
  - intros s. rewrite isort_in, filter_In, is_base_iff. cbn. tauto.
Qed.

(** the invariant *)
Record inv (h : heap) : Prop := {
  inv_ptr : forall i o, nth_error (objs h) i = Some o -> (ptr o < length (sets h))%nat;
  inv_own : forall i j o o', nth_error (objs h) i = Some o -> nth_error (objs h) j = Some o' -> ptr o = ptr o' -> i = j;
  inv_sorted : forall p, sorted (set_at h p);
  inv_types : forall i o l, nth_error (objs h) i = Some o -> memo_types o = Some l -> l = compute_types (the_reg h o);
  inv_spaces : forall i o l, nth_error (objs h) i = Some o -> memo_spaces o = Some l -> l = compute_spaces (the_reg h o)
}.

Lemma nth_update_same {X} (l : list X) i x : (i < length l)%nat -> nth_error (update l i x) i = Some x.
Proof. revert i; induction l as [|y l IH]; intros [|i] H; cbn in *; try lia; auto. apply IH. lia. Qed.
Lemma nth_update_other {X} (l : list X) i j x : i <> j -> nth_error (update l i x) j = nth_error l j.
Proof. revert i j; induction l as [|y l IH]; intros [|i] [|j] H; cbn; auto; try congruence. Qed.
Lemma update_length {X} (l : list X) i x : length (update l i x) = length l.
Proof. revert i; induction l as [|y l IH]; intros [|i]; cbn; auto. Qed.

Lemma nth_update_inv {X} (l : list X) i j x y :
  nth_error (update l i x) j = Some y -> (j = i /\ y = x /\ (i < length l)%nat) \/ (j <> i /\ nth_error l j = Some y).
Proof.
  intros H. destruct (Nat.eq_dec j i) as [->|E].
  - left. assert (L : (i < length l)%nat). { rewrite <- (update_length l i x). apply nth_error_Some. congruence. }
    rewrite nth_update_same in H by exact L. split; auto. split; auto. congruence.
  - right. rewrite nth_update_other in H by auto. auto.
Qed.

Lemma set_at_update h p q l : set_at (store h p l) q = if Nat.eqb p q && (p <? length (sets h))%nat then l else set_at h q.
Proof.
  unfold set_at, store. cbn [sets]. destruct (Nat.eqb p q && (p <? length (sets h))%nat) eqn:E.
  - apply andb_prop in E as [E1 E2]. apply Nat.eqb_eq in E1. apply Nat.ltb_lt in E2. subst q.
    apply nth_error_nth with (d := []). apply nth_update_same. exact E2.
  - destruct (Nat.eq_dec p q) as [->|NE].
    + rewrite Nat.eqb_refl in E. cbn in E. apply Nat.ltb_ge in E.
      rewrite !nth_overflow; auto; rewrite ?update_length; lia.
    + destruct (nth_error (update (sets h) p l) q) as [z|] eqn:E2.
      * assert (E3 := E2). rewrite nth_update_other in E3 by exact NE.
        rewrite (nth_error_nth _ _ [] E2), (nth_error_nth _ _ [] E3). reflexivity.
      * assert (E3 := E2). rewrite nth_update_other in E3 by exact NE.
        apply nth_error_None in E2. apply nth_error_None in E3. rewrite !nth_overflow; auto.
Qed.

Lemma set_at_app h l q os :
  set_at (mkh (sets h ++ [l]) os) q =
  if (q <? length (sets h))%nat then set_at h q else if Nat.eqb q (length (sets h)) then l else [].
Proof.
  unfold set_at. cbn [sets]. destruct (q <? length (sets h))%nat eqn:E.
  - apply Nat.ltb_lt in E. rewrite app_nth1 by exact E. reflexivity.
  - apply Nat.ltb_ge in E. rewrite app_nth2 by exact E. destruct (Nat.eqb q (length (sets h))) eqn:E2.
    + apply Nat.eqb_eq in E2. subst. rewrite Nat.sub_diag. reflexivity.
    + apply Nat.eqb_neq in E2. apply nth_overflow. cbn. lia.
Qed.

Lemma nth_app_inv {X} (l : list X) x i y :
  nth_error (l ++ [x]) i = Some y -> (nth_error l i = Some y /\ (i < length l)%nat) \/ (i = length l /\ y = x).
Proof.
  intros H. destruct (Nat.lt_ge_cases i (length l)) as [L|L].
  - left. rewrite nth_error_app1 in H by exact L. auto.
  - right. rewrite nth_error_app2 in H by exact L. destruct (i - length l)%nat as [|k] eqn:E.
    + cbn in H. split; [lia|congruence].
    + cbn in H. destruct k; discriminate.
Qed.

(** a new object with a new set *)
Lemma inv_new h l m :
  inv h -> sorted l -> inv (mkh (sets h ++ [l]) (objs h ++ [mkobj (length (sets h)) m None None])).
Proof.
  intros I S. destruct I as [I1 I2 I3 I4 I5].
  assert (EQ : forall i o, nth_error (objs h) i = Some o ->
    the_reg (mkh (sets h ++ [l]) (objs h ++ [mkobj (length (sets h)) m None None])) o = the_reg h o).
  { intros i o Ho. unfold the_reg. rewrite set_at_app. apply I1 in Ho. apply Nat.ltb_lt in Ho. rewrite Ho. reflexivity. }
  constructor; cbn [sets objs].
  - intros i o H. rewrite app_length. cbn. apply nth_app_inv in H as [[H _]|[_ ->]]; [apply I1 in H; lia|cbn; lia].
  - intros i j o o' H H' E. apply nth_app_inv in H as [[H _]|[-> ->]]; apply nth_app_inv in H' as [[H' _]|[-> ->]]; auto.
    + eapply I2; eauto.
    + apply I1 in H. cbn in E. lia.
    + apply I1 in H'. cbn in E. lia.
  - intros p. rewrite set_at_app. destruct (_ <? _)%nat; [apply I3|]. destruct (Nat.eqb _ _); [exact S|constructor].
  - intros i o l' H HM. apply nth_app_inv in H as [[H _]|[_ ->]]; [|discriminate]. rewrite (EQ i o H). eapply I4; eauto.
  - intros i o l' H HM. apply nth_app_inv in H as [[H _]|[_ ->]]; [|discriminate]. rewrite (EQ i o H). eapply I5; eauto.
Qed.

(** a changed set, owned by object i, whose memo is dropped *)
Lemma inv_change h i o l :
  inv h -> nth_error (objs h) i = Some o -> sorted l -> inv (put (store h (ptr o) l) i (forget o)).
Proof.
  intros I Ho S. destruct I as [I1 I2 I3 I4 I5].
  assert (EQ : forall j o', j <> i -> nth_error (objs h) j = Some o' ->
    the_reg (put (store h (ptr o) l) i (forget o)) o' = the_reg h o').
  { intros j o' NE Hj. unfold the_reg. f_equal. change (set_at (put (store h (ptr o) l) i (forget o)) (ptr o')) with (set_at (store h (ptr o) l) (ptr o')).
    rewrite set_at_update. destruct (Nat.eqb (ptr o) (ptr o')) eqn:E; auto. apply Nat.eqb_eq in E.
    exfalso. apply NE. symmetry. eapply I2; eauto. }
  constructor; cbn [sets objs put store].
  - intros j o' H. rewrite update_length. apply nth_update_inv in H as [(-> & -> & _)|[_ H]]; [apply (I1 i o Ho)|apply (I1 j o' H)].
  - intros j k o1 o2 H1 H2 E. apply nth_update_inv in H1 as [(-> & -> & _)|[N1 H1]]; apply nth_update_inv in H2 as [(-> & -> & _)|[N2 H2]]; auto.
    + eapply I2; eauto.
    + eapply I2; eauto.
    + eapply I2; eauto.
  - intros p. change (set_at (put (store h (ptr o) l) i (forget o)) p) with (set_at (store h (ptr o) l) p).
    rewrite set_at_update. destruct (_ && _); auto.
  - intros j o' l' H HM. apply nth_update_inv in H as [(-> & -> & _)|[N1 H]]; [discriminate|].
    rewrite (EQ j o' N1 H). eapply I4; eauto.
  - intros j o' l' H HM. apply nth_update_inv in H as [(-> & -> & _)|[N1 H]]; [discriminate|].
    rewrite (EQ j o' N1 H). eapply I5; eauto.
Qed.

(** a change of the object i that keeps its set, with memos that are right *)
Lemma inv_put h i o o2 :
  inv h -> nth_error (objs h) i = Some o -> ptr o2 = ptr o ->
  (forall l, memo_types o2 = Some l -> l = compute_types (the_reg h o2)) ->
  (forall l, memo_spaces o2 = Some l -> l = compute_spaces (the_reg h o2)) ->
  inv (put h i o2).
Proof.
  intros I Ho EP HT HS. destruct I as [I1 I2 I3 I4 I5].
  constructor; cbn [sets objs put].
  - intros j o' H. apply nth_update_inv in H as [(-> & -> & _)|[_ H]]; [rewrite EP; apply (I1 i o Ho)|apply (I1 j o' H)].
  - intros j k o1 o' H1 H2 E. apply nth_update_inv in H1 as [(-> & -> & _)|[N1 H1]]; apply nth_update_inv in H2 as [(-> & -> & _)|[N2 H2]]; auto.
    + eapply I2; eauto. congruence.
    + eapply I2; eauto. congruence.
    + eapply I2; eauto.
  - intros p. apply I3.
  - intros j o' l' H HM. apply nth_update_inv in H as [(-> & -> & _)|[N1 H]]; [apply HT; exact HM|]. eapply I4; eauto.
  - intros j o' l' H HM. apply nth_update_inv in H as [(-> & -> & _)|[N1 H]]; [apply HS; exact HM|]. eapply I5; eauto.
Qed.

Lemma exec_inv h c : inv h -> simple h c -> inv (fst (exec h c)).
Proof.
  intros I HS. destruct c as [|i|i|i j|i|i s|i s|i m|i|i]; cbn [exec simple] in *; try contradiction.
  - apply inv_new; auto. repeat constructor.
  - destruct (nth_error (objs h) i) as [o|] eqn:E; cbn [fst]; auto. apply inv_new; auto. apply I.
  - destruct (nth_error (objs h) i) as [o|] eqn:E; cbn [fst]; auto.
    destruct (add (the_reg h o) s) as [r| |] eqn:E2; cbn [fst]; auto. apply inv_change; auto.
    eapply add_sorted; [|exact E2]. apply I.
  - destruct (nth_error (objs h) i) as [o|] eqn:E; cbn [fst]; auto. apply inv_change; auto.
    apply remove_sorted. apply I.
  - destruct (nth_error (objs h) i) as [o|] eqn:E; cbn [fst]; auto. destruct (HS o eq_refl) as [M1 M2].
    eapply inv_put; eauto; cbn; intros l; rewrite ?M1, ?M2; discriminate.
  - destruct (nth_error (objs h) i) as [o|] eqn:E; cbn [fst]; auto. destruct (memo_types o) as [l|] eqn:E2; cbn [fst]; auto.
    eapply inv_put; eauto; cbn.
    + intros l H. inversion H. reflexivity.
    + intros l H. apply (inv_spaces h I i o l E H).
  - destruct (nth_error (objs h) i) as [o|] eqn:E; cbn [fst]; auto. destruct (memo_spaces o) as [l|] eqn:E2; cbn [fst]; auto.
    eapply inv_put; eauto; cbn.
    + intros l H. apply (inv_types h I i o l E H).
    + intros l H. inversion H. reflexivity.
Qed.

Lemma simple_history_inv h : simple_history h -> inv h.
Proof.
  induction 1 as [|h c _ IH S].
  - constructor; cbn.
    + intros [|i] o H; discriminate.
    + intros [|i] j o o' H; discriminate.
    + intros p. unfold set_at. cbn. destruct p; constructor.
    + intros [|i] o l H; discriminate.
    + intros [|i] o l H; discriminate.
  - apply exec_inv; auto.
Qed.

Lemma simple_answers h c : inv h -> right_answer h c (snd (exec h c)).
Proof.
  intros I. destruct c as [|i|i|i j|i|i s|i s|i m|i|i]; cbn [exec]; try exact Logic.I;
    try (destruct (nth_error (objs h) i) as [o|] eqn:E; cbn; exact Logic.I).
  - destruct (nth_error (objs h) i); [destruct (nth_error (objs h) j)|]; exact Logic.I.
  - destruct (nth_error (objs h) i) as [o|]; [destruct (add _ _)|]; exact Logic.I.
  - destruct (nth_error (objs h) i) as [o|] eqn:E; [|exact Logic.I].
    destruct (memo_types o) as [l|] eqn:E2; cbn [snd right_answer]; exists o; split; auto.
    + rewrite (inv_types h I i o l E E2). apply compute_types_right.
    + apply compute_types_right.
  - destruct (nth_error (objs h) i) as [o|] eqn:E; [|exact Logic.I].
    destruct (memo_spaces o) as [l|] eqn:E2; cbn [snd right_answer]; exists o; split; auto.
    + rewrite (inv_spaces h I i o l E E2). apply compute_spaces_right. apply I.
    + apply compute_spaces_right. apply I.
Qed.
