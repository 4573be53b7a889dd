(** * Row-major layout, and sums over memory and over labels *)
From Coq Require Import List Bool Arith Lia.
From Verif Require Import Num_Model Num_Proofs1 Tap_Model Tap_Spec.
Import ListNotations.

Lemma size_cons : forall x r, size (x :: r) = x * size r. Proof. reflexivity. Qed.
Lemma strides_cons : forall r x, strides (x :: r) = size r :: strides r.
Proof.
  induction r as [|y r IH]; intros x; [reflexivity|]. cbn [strides]. specialize (IH y). cbn [strides] in IH. rewrite IH. rewrite size_cons. f_equal. apply Nat.mul_comm.
Qed.
Lemma volume_size : forall e, volume e = size e.
Proof.
  intros e. unfold volume. assert (G : forall e a, fold_left Nat.mul e a = a * size e).
  { clear. induction e as [|x e IH]; intros a; cbn [fold_left]; [cbn; lia|]. rewrite IH, size_cons. lia. }
  destruct e; [reflexivity|]. rewrite G. lia.
Qed.
Lemma dot_off_add : forall idx st a, dot_off a idx st = a + dot_off 0 idx st.
Proof.
  induction idx as [|i idx IH]; intros [|s st] a; cbn [dot_off]; try lia. rewrite (IH st (a + i * s)), (IH st (0 + i * s)). lia.
Qed.
Lemma offset_cons : forall x e i idx, offset (x :: e) (i :: idx) = i * size e + offset e idx.
Proof. intros. unfold offset. rewrite strides_cons. cbn [dot_off]. rewrite dot_off_add. lia. Qed.
Lemma offset_nil : forall idx, offset [] idx = 0.
Proof. intros [|i idx]; reflexivity. Qed.

Lemma offset_lt : forall e idx, in_range e idx -> offset e idx < size e.
Proof.
  intros e idx H. induction H as [|i x idx e L _ IH]; [cbn; lia|]. rewrite offset_cons, size_cons. nia.
Qed.
Lemma offset_inj : forall e i j, in_range e i -> in_range e j -> offset e i = offset e j -> i = j.
Proof.
  intros e i j H. revert j. induction H as [|a x i e L H IH]; intros j Hj E.
  - inversion Hj. reflexivity.
  - inversion Hj as [|b y j' e' Lb Hj' Q1 Q2]; subst. rewrite !offset_cons in E.
    pose proof (offset_lt _ _ H). pose proof (offset_lt _ _ Hj'). assert (a = b) by nia. subst b. f_equal. apply IH; [exact Hj'|]. lia.
Qed.
Lemma offset_surj : forall e k, k < size e -> exists idx, in_range e idx /\ offset e idx = k.
Proof.
  induction e as [|x e IH]; intros k L.
  - exists []. split; [constructor|]. cbn in *. lia.
  - rewrite size_cons in L. assert (P : size e <> 0) by nia.
    destruct (IH (k mod size e)) as (idx & R & E); [now apply Nat.mod_upper_bound|].
    exists (k / size e :: idx). split.
    + constructor; [|exact R]. apply Nat.div_lt_upper_bound; [exact P|]. lia.
    + rewrite offset_cons, E. rewrite (Nat.div_mod k (size e) P) at 3. lia.
Qed.

(** ** Sums *)
Lemma sum_range_ext : forall n f g, (forall i, i < n -> f i = g i) -> sum_range n f = sum_range n g.
Proof. intros n f g H. unfold sum_range. f_equal. apply map_ext_in. intros i I. apply in_seq in I. apply H. lia. Qed.
Lemma fold_c_add_app : forall a b, fold_right c_add c0 (a ++ b) = c_add (fold_right c_add c0 a) (fold_right c_add c0 b).
Proof. induction a as [|x a IH]; intros b; cbn [app fold_right]; [ring|]. rewrite IH. ring. Qed.
Lemma sum_range_S : forall n f, sum_range (S n) f = c_add (sum_range n f) (f n).
Proof. intros n f. unfold sum_range. rewrite seq_S, map_app, fold_c_add_app. cbn [map fold_right Nat.add]. ring. Qed.
Lemma sum_range_plus : forall n m f, sum_range (n + m) f = c_add (sum_range n f) (sum_range m (fun j => f (n + j))).
Proof.
  intros n m f. induction m as [|m IH]; [rewrite Nat.add_0_r; unfold sum_range at 3; cbn [seq map fold_right]; ring|].
  rewrite Nat.add_succ_r, !sum_range_S, IH. ring.
Qed.
Lemma sum_range_mul : forall x V f, sum_range (x * V) f = sum_range x (fun i => sum_range V (fun j => f (i * V + j))).
Proof.
  induction x as [|x IH]; intros V f; [reflexivity|]. rewrite sum_range_S, <- IH. rewrite <- sum_range_plus. f_equal. lia.
Qed.

Fixpoint msum (e : list nat) (h : list nat -> cplx) : cplx :=
  match e with [] => h [] | x :: r => sum_range x (fun i => msum r (fun is => h (i :: is))) end.
Lemma msum_ext : forall e f g, (forall idx, in_range e idx -> f idx = g idx) -> msum e f = msum e g.
Proof.
  induction e as [|x e IH]; intros f g H; cbn [msum]; [apply H; constructor|].
  apply sum_range_ext. intros i L. apply IH. intros idx R. apply H. now constructor.
Qed.
Lemma memory_sum : forall e f, sum_range (size e) f = msum e (fun idx => f (offset e idx)).
Proof.
  induction e as [|x e IH]; intros f; cbn [msum].
  - rewrite offset_nil. unfold size, sum_range. cbn [fold_right seq map]. ring.
  - rewrite size_cons, sum_range_mul. apply sum_range_ext. intros i _. rewrite IH. apply msum_ext. intros idx _. now rewrite offset_cons.
Qed.

Lemma dot_sum : forall a b n, List.length a = n -> List.length b = n ->
  fold_left (fun r p => c_add r (c_mul (fst p) (snd p))) (combine a b) c0 = sum_range n (fun k => c_mul (nth k a c0) (nth k b c0)).
Proof.
  intros a b n La Lb.
  assert (G : forall a b r, List.length a = List.length b ->
    fold_left (fun r p => c_add r (c_mul (fst p) (snd p))) (combine a b) r =
    c_add r (sum_range (List.length a) (fun k => c_mul (nth k a c0) (nth k b c0)))).
  { clear. induction a as [|x a IH]; intros [|y b] r L; cbn in L; try discriminate.
    - unfold sum_range. cbn. ring.
    - cbn [combine fold_left]. rewrite IH by lia. cbn [fst snd List.length].
      replace (S (List.length a)) with (1 + List.length a) by lia. rewrite sum_range_plus.
      unfold sum_range at 2. cbn [seq map fold_right]. cbn [nth Nat.add]. ring. }
  rewrite G by congruence. rewrite La. ring.
Qed.

(** Sums over labels are sums over multi-indices. *)
Lemma value_of_other : forall v a i l, a <> l -> value_of ((a, i) :: v) l = value_of v l.
Proof. intros. cbn. destruct (Nat.eqb_spec a l); [contradiction|reflexivity]. Qed.
Lemma value_of_same : forall v a i, value_of ((a, i) :: v) a = i.
Proof. intros. cbn. now rewrite Nat.eqb_refl. Qed.

Lemma labels_msum : forall dim ls pre v h, NoDup (pre ++ ls) ->
  sum_labels dim ls v (fun v => h (map (value_of v) (pre ++ ls))) = msum (map dim ls) (fun is => h (map (value_of v) pre ++ is)).
Proof.
  intros dim. induction ls as [|a ls IH]; intros pre v h N; cbn [sum_labels map msum].
  - now rewrite app_nil_r, app_nil_r.
  - apply sum_range_ext. intros i _.
    replace (pre ++ a :: ls) with ((pre ++ [a]) ++ ls) in * by (now rewrite <- app_assoc).
    rewrite (IH (pre ++ [a]) ((a, i) :: v) h N).
    assert (NA : ~ In a pre).
    { rewrite <- app_assoc in N. cbn in N. apply NoDup_remove_2 in N. intros I. apply N. apply in_or_app. now left. }
    rewrite map_app. cbn [map]. rewrite value_of_same.
    rewrite (map_ext_in (value_of ((a, i) :: v)) (value_of v) pre).
    2:{ intros l I. apply value_of_other. intros ->. contradiction. }
    apply msum_ext. intros is _. now rewrite <- app_assoc.
Qed.

Lemma sum_labels_ext : forall dim ls v f g, (forall v, f v = g v) -> sum_labels dim ls v f = sum_labels dim ls v g.
Proof. intros dim. induction ls as [|a ls IH]; intros v f g H; cbn [sum_labels]; [apply H|]. apply sum_range_ext. intros i _. now apply IH. Qed.
Lemma sum_labels_dim : forall d1 d2 ls v f, (forall l, In l ls -> d1 l = d2 l) -> sum_labels d1 ls v f = sum_labels d2 ls v f.
Proof.
  intros d1 d2. induction ls as [|a ls IH]; intros v f H; cbn [sum_labels]; [reflexivity|]. rewrite (H a) by (now left).
  apply sum_range_ext. intros i _. apply IH. intros l I. apply H. now right.
Qed.

(** ** Labels *)
Lemma memb_in : forall l ls, memb l ls = true <-> In l ls.
Proof.
  intros l ls. unfold memb. rewrite existsb_exists. split.
  - intros (x & I & E). apply Nat.eqb_eq in E. now subst.
  - intros I. exists l. split; [exact I|apply Nat.eqb_refl].
Qed.
Lemma distinct_in : forall ls l, In l (distinct ls) <-> In l ls.
Proof.
  induction ls as [|a ls IH]; intros l; cbn; [tauto|]. rewrite filter_In, IH. destruct (Nat.eqb_spec a l) as [->|N]; cbn; intuition congruence.
Qed.
Lemma filter_all : forall A (p : A -> bool) l, (forall x, In x l -> p x = true) -> filter p l = l.
Proof. intros A p. induction l as [|x l IH]; intros H; [reflexivity|]. cbn. rewrite H by (now left). f_equal. apply IH. intros y I. apply H. now right. Qed.
Lemma filter_none : forall A (p : A -> bool) l, (forall x, In x l -> p x = false) -> filter p l = [].
Proof. intros A p. induction l as [|x l IH]; intros H; [reflexivity|]. cbn. rewrite H by (now left). apply IH. intros y I. apply H. now right. Qed.
Lemma distinct_app_sub : forall la ra, NoDup la -> (forall l, In l ra -> In l la) -> distinct (la ++ ra) = la.
Proof.
  assert (E : forall la ra (sup : list nat), NoDup la -> (forall l, In l ra -> In l sup \/ In l la) ->
    filter (fun l => negb (memb l sup)) (distinct (la ++ ra)) = filter (fun l => negb (memb l sup)) la).
  { induction la as [|a la IH]; intros ra sup N H; cbn [app distinct].
    - cbn [filter]. apply filter_none. intros x I. apply (proj1 (distinct_in _ _)) in I. destruct (H x I) as [S|[]]. apply negb_false_iff. now apply memb_in.
    - inversion N as [|? ? Na N']; subst. cbn [filter].
      assert (F : filter (fun l => negb (memb l sup)) (filter (fun b => negb (Nat.eqb a b)) (distinct (la ++ ra))) = filter (fun l => negb (memb l sup)) la).
      { transitivity (filter (fun l => negb (memb l (a :: sup))) (distinct (la ++ ra))).
        - generalize (distinct (la ++ ra)). induction l as [|x l IHl]; [reflexivity|]. cbn [filter].
          cbn [memb existsb]. rewrite (Nat.eqb_sym x a). fold (memb x sup).
          destruct (Nat.eqb a x); cbn [negb orb filter]; [exact IHl|]. change (existsb (Nat.eqb x) sup) with (memb x sup).
          destruct (memb x sup); cbn [negb]; [exact IHl|]. f_equal. exact IHl.
        - rewrite IH; [|exact N'|].
          + apply filter_ext_in. intros x I. unfold memb. cbn [existsb].
            destruct (Nat.eqb_spec x a) as [->|]; [contradiction|]. reflexivity.
          + intros l I. destruct (H l I) as [S|[->|S]]; cbn; auto. }
      rewrite F. destruct (negb (memb a sup)); reflexivity. }
  intros la ra N H. specialize (E la ra [] N (fun l I => or_intror (H l I))).
  rewrite !filter_all in E by reflexivity. exact E.
Qed.

Lemma value_of_combine : forall ls (f : nat -> nat) l, In l ls -> value_of (combine ls (map f ls)) l = f l.
Proof.
  induction ls as [|a ls IH]; intros f l I; [destruct I|]. cbn. destruct (Nat.eqb_spec a l) as [->|N]; [reflexivity|].
  destruct I; [congruence|auto].
Qed.
Lemma reorder_env : forall v ra la, (forall l, In l ra -> In l la) -> map (value_of v) ra = reorder ra la (map (value_of v) la).
Proof. intros v ra la H. unfold reorder. apply map_ext_in. intros l I. now rewrite value_of_combine by auto. Qed.

Lemma lookup_in : forall dim ia r, In r ia -> lookup ia (map dim ia) r = Some (dim r).
Proof.
  intros dim. induction ia as [|a ia IH]; intros r I; [destruct I|]. cbn. destruct (Nat.eqb_spec a r) as [->|N]; [reflexivity|].
  destruct I; [congruence|auto].
Qed.
Lemma lookup_out : forall dim ia r, ~ In r ia -> lookup ia (map dim ia) r = None.
Proof.
  intros dim. induction ia as [|a ia IH]; intros r I; [reflexivity|]. cbn. destruct (Nat.eqb_spec a r) as [->|N]; [exfalso; apply I; now left|].
  apply IH. intros J. apply I. now right.
Qed.
Lemma extents_ok : forall dim A ia B ib ir, ext A = map dim ia -> ext B = map dim ib -> (forall l, In l ir -> In l ia \/ In l ib) ->
  result_extents A ia B ib ir = Some (map dim ir).
Proof.
  intros dim A ia B ib ir EA EB. induction ir as [|r ir IH]; intros H; [reflexivity|]. cbn [result_extents map]. rewrite EA, EB.
  rewrite IH by (intros l I; apply H; now right).
  destruct (in_dec Nat.eq_dec r ia) as [I|I]; [now rewrite lookup_in|]. rewrite lookup_out by exact I.
  destruct (H r (or_introl eq_refl)); [contradiction|]. now rewrite lookup_in.
Qed.

Section B.
  Variable tapp : cplx -> tensor -> list nat -> tensor -> list nat -> list nat -> list nat -> list cplx.
  Hypothesis T : tapp_product tapp.

  Lemma one_annotated : forall dim, annotated dim scalar_one [].
  Proof. intros dim. split; [reflexivity|]. split; [constructor|reflexivity]. Qed.

  Lemma permute_ok : forall dim a pre post, annotated dim a pre -> NoDup post -> (forall l, In l post <-> In l pre) ->
    annotated dim (permute tapp a pre post) post /\ forall at_, in_range (map dim post) at_ -> element (permute tapp a pre post) at_ = element a (reorder pre post at_).
  Proof.
    intros dim a pre post HA N S. pose proof HA as (EA & NA & VA).
    assert (X : map (fun d => match lookup pre (ext a) d with Some x => x | None => 0 end) post = map dim post).
    { apply map_ext_in. intros l I. rewrite EA, lookup_in by (now apply S). reflexivity. }
    unfold permute. rewrite X.
    destruct (T dim c1 a pre scalar_one [] post HA (one_annotated dim) N) as [V E]; [intros l I; left; now apply S|].
    split; [split; [reflexivity|split; [exact N|exact V]]|]. intros at_ R. rewrite (E at_ R). unfold contraction.
    rewrite app_nil_r. rewrite filter_none.
    - cbn [sum_labels map]. unfold reorder. unfold element at 2. cbn. ring.
    - intros l I. apply (proj1 (distinct_in _ _)) in I. apply negb_false_iff. apply memb_in. now apply S.
  Qed.

  Lemma full_contraction : forall dim a b la ra, annotated dim a la -> annotated dim b ra -> (forall l, In l la <-> In l ra) ->
    dot a (permute tapp b ra la) = contraction dim (element a) la (element b) ra [] [].
  Proof.
    intros dim a b la ra HA HB S. pose proof HA as (EA & NA & VA).
    destruct (permute_ok dim b ra la HB NA S) as [(EP & _ & VP) P].
    unfold dot. rewrite (dot_sum _ _ (size (ext a))); [|exact VA|unfold valid in VP; rewrite VP, EP, EA; reflexivity].
    rewrite memory_sum. unfold contraction. cbn [combine].
    rewrite filter_all by reflexivity. rewrite distinct_app_sub; [|exact NA|intros l I; now apply S].
    transitivity (sum_labels dim la [] (fun v => (fun is => c_mul (element a is) (element b (reorder ra la is))) (map (value_of v) la))).
    - pose proof (labels_msum dim la [] [] (fun is => c_mul (element a is) (element b (reorder ra la is))) NA) as L.
      cbn [app map] in L. rewrite L. rewrite EA. apply msum_ext. intros idx R. cbv beta. rewrite <- (P idx R).
      unfold element. rewrite EP, EA. reflexivity.
    - apply sum_labels_ext. intros v. cbv beta. rewrite (reorder_env v ra la); [reflexivity|]. intros l I. now apply S.
  Qed.
End B.

(** ** A TAPP library exists *)
Fixpoint all_indices (e : list nat) : list (list nat) :=
  match e with [] => [[]] | x :: r => flat_map (fun i => map (cons i) (all_indices r)) (seq 0 x) end.
Lemma all_length : forall e, List.length (all_indices e) = size e.
Proof.
  induction e as [|x e IH]; [reflexivity|]. cbn [all_indices]. rewrite size_cons, <- IH. generalize 0 as s. induction x as [|x IHx]; intros s; [reflexivity|].
  cbn [seq flat_map]. rewrite app_length, map_length, IHx. reflexivity.
Qed.
Lemma all_nth : forall e idx, in_range e idx -> nth_error (all_indices e) (offset e idx) = Some idx.
Proof.
  intros e idx H. induction H as [|i x idx e L H IH]; [reflexivity|]. rewrite offset_cons. cbn [all_indices].
  pose proof (offset_lt _ _ H) as O.
  assert (G : forall n s, i < n -> nth_error (flat_map (fun i => map (cons i) (all_indices e)) (seq s n)) (i * size e + offset e idx) = Some (s + i :: idx)).
  { clear L. induction i as [|i IHi]; intros [|n] s L; try lia; cbn [seq flat_map].
    - rewrite nth_error_app1 by (rewrite map_length, all_length; lia). cbn [Nat.mul Nat.add].
      rewrite nth_error_map, IH. cbn. now rewrite Nat.add_0_r.
    - rewrite nth_error_app2 by (rewrite map_length, all_length; lia). rewrite map_length, all_length.
      replace (S i * size e + offset e idx - size e) with (i * size e + offset e idx) by (cbn; lia). rewrite IHi by lia. f_equal. f_equal. lia. }
  rewrite (G x 0 L). reflexivity.
Qed.

Definition reference (alpha : cplx) (A : tensor) (ia : list nat) (B : tensor) (ib e ir : list nat) : list cplx :=
  let dim := fun l => match lookup ia (ext A) l with Some x => x | None => match lookup ib (ext B) l with Some x => x | None => 0 end end in
  map (fun at_ => c_mul alpha (contraction dim (element A) ia (element B) ib ir at_)) (all_indices e).

Theorem reference_ok : tapp_product reference.
Proof.
  intros dim alpha A ia B ib ir (EA & NA & VA) (EB & NB & VB) N S. split.
  - unfold valid, reference. cbn [data ext]. now rewrite map_length, all_length.
  - intros at_ R. unfold element at 1. cbn [data ext]. unfold reference.
    erewrite nth_error_nth; [reflexivity|]. rewrite nth_error_map, (all_nth _ _ R). cbn [option_map]. f_equal. f_equal.
    unfold contraction. apply sum_labels_dim. intros l I. apply filter_In in I. destruct I as [I _]. apply (proj1 (distinct_in _ _)) in I.
    rewrite EA, EB. destruct (in_dec Nat.eq_dec l ia) as [J|J]; [now rewrite lookup_in|]. rewrite lookup_out by exact J.
    apply in_app_iff in I. destruct I; [contradiction|]. now rewrite lookup_in.
Qed.
