(** Sorting and permuting the tensors and slots of a network. *)
From Coq Require Import ZArith List Arith Bool Permutation Sorted Lia.
From Verif Require Import Alg_Model Alg_Spec Alg_Proofs1 Alg_Proofs2 Tsr_Model Tsr_Spec Tsr_Proofs1 Tsr_Proofs2 Tsr_Proofs3 Tsr_Proofs4 Tsr_Proofs5 Tsr_Proofs6 Tsr_Proofs7.
From Verif Require Import Net_Model Net_Spec.
Import ListNotations.

(** ** Stable sorting *)
Lemma insert_perm {A} (lt : A -> A -> bool) x l : Permutation (x :: l) (insert_sorted lt x l).
Proof.
  induction l as [|y l IH]; cbn; auto. destruct (lt y x); auto. rewrite perm_swap. constructor. auto.
Qed.
Lemma stable_perm {A} (lt : A -> A -> bool) l : Permutation l (stable_sort lt l).
Proof. induction l as [|x l IH]; cbn; auto. rewrite <- insert_perm. constructor. auto. Qed.

(** A comparison that puts the elements with [f] first. *)
Definition first_by {A} (f : A -> bool) (lt : A -> A -> bool) : Prop :=
  forall x y, (f x = true -> f y = false -> lt x y = true) /\ (f x = false -> f y = true -> lt x y = false).
Lemma insert_first {A} (f : A -> bool) lt x N M : first_by f lt -> Forall (fun y => f y = true) N -> Forall (fun y => f y = false) M ->
  exists N' M', insert_sorted lt x (N ++ M) = N' ++ M' /\ Forall (fun y => f y = true) N' /\ Forall (fun y => f y = false) M'.
Proof.
  intros H FN FM. destruct (f x) eqn:X.
  - induction FN as [|n N Fn FN IH]; cbn.
    + exists [x], M. split; [|auto]. destruct M as [|m M]; auto. cbn. inversion FM; subst. rewrite (proj2 (H m x)); auto.
    + destruct (lt n x).
      * destruct IH as (N' & M' & -> & Q1 & Q2). exists (n :: N'), M'. auto.
      * exists (x :: n :: N), M. auto.
  - induction FN as [|n N Fn FN IH]; cbn.
    + exists [], (insert_sorted lt x M). split; auto. split; auto.
      apply (Permutation_Forall (insert_perm lt x M)). auto.
    + rewrite (proj1 (H n x)) by auto. destruct IH as (N' & M' & -> & Q1 & Q2). exists (n :: N'), M'. auto.
Qed.
Lemma stable_first {A} (f : A -> bool) lt l : first_by f lt ->
  exists N M, stable_sort lt l = N ++ M /\ Forall (fun y => f y = true) N /\ Forall (fun y => f y = false) M.
Proof.
  intros H. induction l as [|x l IH].
  - exists [], []. auto.
  - destruct IH as (N & M & E & FN & FM). change (stable_sort lt (x :: l)) with (insert_sorted lt x (stable_sort lt l)).
    rewrite E. apply insert_first; auto.
Qed.
Lemma filter_all {A} (f : A -> bool) l : Forall (fun y => f y = true) l -> filter f l = l.
Proof. induction 1; cbn; auto. rewrite H. f_equal. auto. Qed.
Lemma filter_nothing {A} (f : A -> bool) l : Forall (fun y => f y = false) l -> filter f l = [].
Proof. induction 1; cbn; auto. rewrite H. auto. Qed.
Lemma Permutation_filter' {A} (f : A -> bool) l m : Permutation l m -> Permutation (filter f l) (filter f m).
Proof.
  induction 1; cbn; auto.
  - destruct (f x); auto.
  - destruct (f x), (f y); auto. apply perm_swap.
  - etransitivity; eauto.
Qed.
Lemma stable_split {A} (f : A -> bool) lt l : first_by f lt ->
  exists N M, stable_sort lt l = N ++ M /\ Permutation (filter f l) N /\ Permutation (filter (fun x => negb (f x)) l) M.
Proof.
  intros H. destruct (stable_first f lt l H) as (N & M & E & FN & FM). exists N, M. split; auto.
  pose proof (stable_perm lt l) as P. rewrite E in P. split.
  - apply (Permutation_filter' f) in P. rewrite filter_app, (filter_all f N), (filter_nothing f M), app_nil_r in P; auto.
  - apply (Permutation_filter' (fun x => negb (f x))) in P. rewrite filter_app, (filter_nothing _ N), (filter_all _ M) in P; auto.
    + eapply Forall_impl; [|exact FM]. cbn. intros a ->. auto.
    + eapply Forall_impl; [|exact FN]. cbn. intros a ->. auto.
Qed.

(** ** Reordering *)
Definition pick {A} (d : A) (ords : list nat) (l : list A) : list A := map (fun k => nth k l d) ords.
Lemma pick_seq {A} (d : A) l : pick d (seq 0 (length l)) l = l.
Proof.
  apply (nth_ext _ _ d d); unfold pick; rewrite map_length, seq_length; auto. intros n N.
  rewrite (nth_indep _ d ((fun k => nth k l d) 0)) by (rewrite map_length, seq_length; auto).
  rewrite (map_nth (fun k => nth k l d)), seq_nth; auto.
Qed.
Lemma pick_perm {A} (d : A) ords l : Permutation ords (seq 0 (length l)) -> Permutation (pick d ords l) l.
Proof. intros P. rewrite <- (pick_seq d l) at 2. apply Permutation_map. auto. Qed.

Lemma set_nth_length {A} (l : list A) : forall k x, length (set_nth l k x) = length l.
Proof. induction l as [|y l IH]; intros [|k] x; cbn; auto. Qed.
Lemma nth_set_nth {A} (d : A) (l : list A) : forall k x n, k < length l -> nth n (set_nth l k x) d = if n =? k then x else nth n l d.
Proof.
  induction l as [|y l IH]; intros [|k] x n L; cbn in *; try lia.
  - destruct n; auto.
  - destruct n; auto. rewrite IH by lia. auto.
Qed.
Lemma nth_swap {A} (d : A) l i j n : i < length l -> j < length l ->
  nth n (swap_at d l i j) d = if n =? j then nth i l d else if n =? i then nth j l d else nth n l d.
Proof.
  intros I J. unfold swap_at. rewrite nth_set_nth by (rewrite set_nth_length; auto). rewrite nth_set_nth by auto. auto.
Qed.
Lemma swap_length {A} (d : A) l i j : length (swap_at d l i j) = length l.
Proof. unfold swap_at. rewrite !set_nth_length. auto. Qed.
Lemma find_from_spec ords : forall k i j, find_from ords k i = Some j -> k <= j < k + length ords /\ nth (j - k) ords 0 = i.
Proof.
  induction ords as [|o ords IH]; intros k i j; cbn; [discriminate|]. destruct (o =? i) eqn:E.
  - intros [= <-]. apply Nat.eqb_eq in E. split; [lia|]. rewrite Nat.sub_diag. auto.
  - intros H. apply IH in H. destruct H as (A & B). split; [lia|]. replace (j - k) with (S (j - S k)) by lia. auto.
Qed.
Lemma find_from_none ords : forall k i, find_from ords k i = None -> ~ In i ords.
Proof.
  induction ords as [|o ords IH]; intros k i; cbn; auto. destruct (o =? i) eqn:E; [discriminate|]. apply Nat.eqb_neq in E.
  intros H [X|X]; auto. eapply IH; eauto.
Qed.

(** [ords] is a permutation of the numbers below [n]. *)
Definition perm_of (n : nat) (ords : list nat) : Prop := length ords = n /\ NoDup ords /\ forall k, In k ords -> k < n.
Lemma perm_of_seq n ords : Permutation ords (seq 0 n) -> perm_of n ords.
Proof.
  intros P. split; [rewrite (Permutation_length P); apply seq_length|]. split.
  - apply (Permutation_NoDup (Permutation_sym P)). apply seq_NoDup.
  - intros k K. apply (Permutation_in _ P) in K. apply in_seq in K. lia.
Qed.
Lemma perm_of_in n ords k : perm_of n ords -> k < n -> In k ords.
Proof.
  intros (L & ND & B) K. assert (I : incl (seq 0 n) ords).
  { apply NoDup_length_incl; auto; [rewrite seq_length; lia|]. intros x X. apply in_seq. specialize (B x X). lia. }
  apply I. apply in_seq. lia.
Qed.

Lemma reorder_step_spec {A} (d : A) i (l : list A) ords : perm_of (length l) ords -> i < length l ->
  (forall x, x < i -> nth x ords 0 = x) ->
  exists l' ords', reorder_step d i (l, ords) = Some (l', ords') /\ length l' = length l /\ perm_of (length l) ords' /\
    (forall x, x <= i -> nth x ords' 0 = x) /\ pick d ords' l' = pick d ords l.
Proof.
  intros P I F. unfold reorder_step. destruct (nth i ords 0 =? i) eqn:E.
  { apply Nat.eqb_eq in E. exists l, ords. split; auto. split; auto. split; auto. split; auto.
    intros x X. destruct (Nat.eq_dec x i) as [->|]; auto. apply F. lia. }
  apply Nat.eqb_neq in E. pose proof P as (L & ND & B).
  assert (NthB : forall x, x < length l -> nth x ords 0 < length l).
  { intros x X. apply B. apply nth_In. lia. }
  assert (Inj : forall x y, x < length l -> y < length l -> nth x ords 0 = nth y ords 0 -> x = y).
  { intros x y X Y. apply (proj1 (NoDup_nth ords 0) ND); lia. }
  destruct (find_from (skipn (S i) ords) (S i) i) as [k|] eqn:K.
  2: { exfalso. apply find_from_none in K. apply K. pose proof (perm_of_in _ _ i P I) as J.
       apply (In_nth _ _ 0) in J. destruct J as (x & X & Y). rewrite L in X.
       assert (i < x). { destruct (Nat.lt_trichotomy x i) as [Z|[->|Z]]; auto; [|congruence]. rewrite F in Y by auto. lia. }
       rewrite <- (firstn_skipn (S i) ords) in Y. rewrite app_nth2 in Y by (rewrite firstn_length; lia).
       rewrite <- Y at 1. apply nth_In. rewrite skipn_length, firstn_length. lia. }
  apply find_from_spec in K. rewrite skipn_length in K. destruct K as (K1 & K2).
  assert (Kn : nth k ords 0 = i).
  { rewrite <- (firstn_skipn (S i) ords) at 1. rewrite app_nth2 by (rewrite firstn_length; lia). rewrite firstn_length, Nat.min_l by lia. auto. }
  assert (Kl : k < length l) by lia. clear K2. set (j := nth i ords 0) in *.
  assert (Jl : j < length l) by (apply NthB; auto).
  eexists _, _. split; [reflexivity|]. split; [apply swap_length|].
  assert (NO : forall x, nth x (swap_at 0 ords i k) 0 = if x =? k then j else if x =? i then i else nth x ords 0).
  { intros x. rewrite nth_swap by lia. rewrite Kn. auto. }
  assert (P' : perm_of (length l) (swap_at 0 ords i k)).
  { split; [rewrite swap_length; auto|]. split.
    - apply (NoDup_nth _ 0). rewrite swap_length, L. intros x y X Y. rewrite !NO.
      destruct (Nat.eqb_spec x k), (Nat.eqb_spec x i), (Nat.eqb_spec y k), (Nat.eqb_spec y i); subst; try lia; auto; intros Z;
        try (exfalso; lia); try (apply Inj in Z; auto; try lia; exfalso; lia).
    - intros x X. apply (In_nth _ _ 0) in X. destruct X as (y & Y & <-). rewrite swap_length, L in Y. rewrite NO.
      destruct (y =? k); auto. destruct (y =? i); auto. }
  split; auto. split.
  - intros x X. rewrite NO. destruct (Nat.eqb_spec x k); [lia|]. destruct (Nat.eqb_spec x i); auto. apply F. lia.
  - unfold pick. assert (G : forall m, length m = length l -> forall x, x < length l -> forall o, length o = length l ->
       nth x (map (fun k => nth k m d) o) d = nth (nth x o 0) m d).
    { intros m Lm x X o Lo. rewrite (nth_indep _ d ((fun k => nth k m d) 0)) by (rewrite map_length; lia).
      apply (map_nth (fun k => nth k m d)). }
    apply (nth_ext _ _ d d); rewrite !map_length, swap_length; auto. intros x X. rewrite L in X.
    rewrite !G by (rewrite ?swap_length; auto). rewrite NO, nth_swap by auto.
    destruct (Nat.eqb_spec x k); [subst x|destruct (Nat.eqb_spec x i); [subst x|]].
    + rewrite Nat.eqb_refl, Kn. auto.
    + destruct (Nat.eqb_spec i j); [congruence|]. rewrite Nat.eqb_refl. auto.
    + destruct (Nat.eqb_spec (nth x ords 0) j) as [Z|_]; [apply Inj in Z; auto; congruence|].
      destruct (Nat.eqb_spec (nth x ords 0) i) as [Z|_]; auto. rewrite <- Kn in Z. apply Inj in Z; auto. congruence.
Qed.
Lemma reorder_loop_spec {A} (d : A) m : forall i (l : list A) ords, perm_of (length l) ords -> i + m = length l ->
  (forall x, x < i -> nth x ords 0 = x) ->
  reorder_loop d (seq i m) (l, ords) = Some (pick d ords l, seq 0 (length l)).
Proof.
  induction m as [|m IH]; intros i l ords P L F.
  - cbn. assert (E : ords = seq 0 (length l)).
    { destruct P as (Lo & _). apply (nth_ext _ _ 0 0); [rewrite seq_length; auto|]. intros x X. rewrite seq_nth by lia. apply F. lia. }
    rewrite E, pick_seq. auto.
  - cbn [seq reorder_loop]. destruct (reorder_step_spec d i l ords) as (l' & ords' & -> & L' & P' & F' & E); auto; try lia.
    rewrite (IH (S i)); try (rewrite L'; auto); try lia; [|intros x X; apply F'; lia]. rewrite E. auto.
Qed.
Lemma sort_via_spec {A} (d : A) less (l : list A) r : sort_via_ordinals d less l = Some r ->
  exists ords n, bubble_sort less (seq 0 (length l)) = Some (ords, n) /\ Permutation ords (seq 0 (length l)) /\
    r = (pick d ords l, seq 0 (length l)).
Proof.
  unfold sort_via_ordinals. destruct (bubble_sort less (seq 0 (length l))) as [(ords, n)|] eqn:B; [|discriminate].
  assert (P : Permutation ords (seq 0 (length l))) by (apply bubble_swaps, exchanges_perm in B; symmetry; auto).
  rewrite reorder_loop_spec; auto; [|apply perm_of_seq; auto|lia]. intros [= <-]. eauto 6.
Qed.

(** ** Permuting slots *)
Lemma sort_ordinals_spec keys perm s : sort_ordinals keys = Some (perm, s) ->
  exists n, exchanges n (seq 0 (length keys)) perm /\ s = Nat.odd n.
Proof.
  unfold sort_ordinals. destruct (bubble_sort _ (seq 0 (length keys))) as [(r, n)|] eqn:B; [|discriminate]. cbn. intros [= <- <-].
  apply bubble_swaps in B. eauto.
Qed.
Lemma permute_exchanges n perm l : exchanges n (seq 0 (length l)) perm -> exchanges n l (permute perm l).
Proof.
  intros E. apply (exchanges_map (fun k => nth k l null_index)) in E.
  pose proof (pick_seq null_index l) as P. unfold pick in P. rewrite P in E. exact E.
Qed.
Lemma seq_split a b : seq 0 (a + b) = seq 0 a ++ seq a b.
Proof. rewrite seq_app. auto. Qed.
Lemma count_columns_full bra : forall ket, Forall (fun i => ix_null i = false) bra -> Forall (fun i => ix_null i = false) ket ->
  count_columns (fun b k => negb (ix_null b) && negb (ix_null k)) bra ket = Nat.min (length bra) (length ket) /\
  count_columns (fun b k => negb (ix_null b) && ix_null k) bra ket = 0.
Proof.
  induction bra as [|b bra IH]; intros [|k ket] F G; cbn; auto. inversion F; subst. inversion G; subst. rewrite H1, H3. cbn.
  destruct (IH ket) as (-> & ->); auto.
Qed.
Lemma permute_app p q l : permute (p ++ q) l = permute p l ++ permute q l.
Proof. unfold permute. apply map_app. Qed.
Lemma permute_length p l : length (permute p l) = length p.
Proof. apply map_length. Qed.
Lemma permute_prefix n l : n <= length l -> permute (seq 0 n) l = firstn n l.
Proof.
  intros L. pose proof (pick_seq null_index l) as P. unfold pick in P. fold (permute (seq 0 (length l)) l) in P.
  replace (length l) with (n + (length l - n)) in P at 1 by lia. rewrite seq_split, permute_app in P.
  rewrite <- P at 2. rewrite firstn_app, permute_length, seq_length, Nat.sub_diag, firstn_O, app_nil_r.
  rewrite firstn_all2; auto. rewrite permute_length, seq_length. auto.
Qed.
Lemma permute_suffix n l : n <= length l -> permute (seq n (length l - n)) l = skipn n l.
Proof.
  intros L. pose proof (pick_seq null_index l) as P. unfold pick in P. fold (permute (seq 0 (length l)) l) in P.
  replace (length l) with (n + (length l - n)) in P at 1 by lia. rewrite seq_split, permute_app in P.
  rewrite <- P at 3. rewrite skipn_app, permute_length, seq_length, Nat.sub_diag, skipn_O.
  rewrite skipn_all2; auto. rewrite permute_length, seq_length. auto.
Qed.
Lemma permute_perm p q l : Permutation p q -> Permutation (permute p l) (permute q l).
Proof. apply Permutation_map. Qed.
Lemma permute_combine p b k : combine (permute p b) (permute p k) = map (fun n => (nth n b null_index, nth n k null_index)) p.
Proof. induction p as [|n p IH]; cbn; auto. f_equal. auto. Qed.

(** What the permutation of columns does when no slot is empty. *)
Lemma permute_columns_spec perm bra ket b' k' : Permutation (seq 0 (Nat.max (length bra) (length ket))) perm ->
  Forall (fun i => ix_null i = false) bra -> Forall (fun i => ix_null i = false) ket ->
  permute_columns perm bra ket = Some (b', k') ->
  let n := Nat.min (length bra) (length ket) in
  let p := filter (fun k => k <? n) perm in
  let q := filter (fun k => negb (k <? n)) perm in
  b' = permute p bra ++ (if n <? length bra then permute q bra else []) /\
  k' = permute p ket ++ (if n <? length ket then permute q ket else []) /\
  Permutation p (seq 0 n) /\ Permutation q (seq n (Nat.max (length bra) (length ket) - n)).
Proof.
  intros P Fb Fk. destruct (count_columns_full bra ket Fb Fk) as (C1 & C2). unfold permute_columns. rewrite C1, C2. cbn [Nat.add].
  set (n := Nat.min (length bra) (length ket)). set (mx := Nat.max (length bra) (length ket)) in *.
  set (nb := if length ket <? length bra then length bra - length ket else 0).
  set (ct := column_type n nb).
  destruct ((length ket <? length bra) && negb (length ket =? n)); [discriminate|].
  assert (P1 : Permutation (filter (fun k => k <? n) perm) (seq 0 n)).
  { rewrite <- (Permutation_filter' (fun k => k <? n) _ _ P). replace mx with (n + (mx - n)) by (unfold n, mx; lia).
    rewrite seq_split, filter_app, filter_all, filter_nothing, app_nil_r; auto.
    - apply Forall_forall. intros x X. apply in_seq in X. apply Nat.ltb_ge. lia.
    - apply Forall_forall. intros x X. apply in_seq in X. apply Nat.ltb_lt. lia. }
  assert (P2 : Permutation (filter (fun k => negb (k <? n)) perm) (seq n (mx - n))).
  { rewrite <- (Permutation_filter' (fun k => negb (k <? n)) _ _ P). replace mx with (n + (mx - n)) at 1 by (unfold n, mx; lia).
    rewrite seq_split, filter_app, filter_nothing, filter_all; auto.
    - apply Forall_forall. intros x X. apply in_seq in X. apply negb_true_iff, Nat.ltb_ge. lia.
    - apply Forall_forall. intros x X. apply in_seq in X. apply negb_false_iff, Nat.ltb_lt. lia. }
  assert (SS : stable_sort (fun a b => ct a <? ct b) perm = filter (fun k => k <? n) perm ++ filter (fun k => negb (k <? n)) perm).
  { assert (B : forall k, In k perm -> k < mx). { intros k K. apply (Permutation_in _ (Permutation_sym P)), in_seq in K. lia. }
    assert (CT : forall k, k < mx -> ct k = if k <? n then 0 else if length ket <? length bra then 1 else 2).
    { intros k K. unfold ct, column_type. destruct (k <? n) eqn:E; auto. apply Nat.ltb_ge in E. unfold nb. destruct (length ket <? length bra) eqn:X.
      - apply Nat.ltb_lt in X. rewrite (proj2 (Nat.ltb_lt k _)); auto. unfold n, mx in *. lia.
      - rewrite (proj2 (Nat.ltb_ge k _)); auto. lia. }
    clearbody ct. clear - B CT. induction perm as [|x perm IH]; [reflexivity|].
    change (stable_sort (fun a b => ct a <? ct b) (x :: perm)) with (insert_sorted (fun a b => ct a <? ct b) x (stable_sort (fun a b => ct a <? ct b) perm)).
    rewrite IH by (intros; apply B; right; auto). clear IH. cbn [filter].
    assert (Bx : x < mx) by (apply B; left; auto).
    assert (Bp : forall k, In k perm -> k < mx) by (intros; apply B; right; auto). clear B.
    destruct (x <? n) eqn:X; cbn [negb].
    - assert (H : forall y l, y < mx -> Forall (fun k => k < mx) l -> insert_sorted (fun a b => ct a <? ct b) x l = x :: l).
      { intros y l _ Fl. destruct l as [|z l]; auto. cbn. rewrite (CT x), X by auto. destruct (ct z); auto. }
      rewrite (H 0); auto; [destruct mx; lia|]. apply Forall_forall. intros k K. apply in_app_iff in K. rewrite !filter_In in K. apply Bp. tauto.
    - assert (H : forall l m, Forall (fun k => k < mx /\ (k <? n) = true) l -> Forall (fun k => k < mx /\ (k <? n) = false) m ->
                  insert_sorted (fun a b => ct a <? ct b) x (l ++ m) = l ++ x :: m).
      { intros l m Fl Fm. induction Fl as [|y l (Y1 & Y2) Fl IHl]; cbn.
        - destruct m as [|y m]; auto. cbn. inversion Fm as [|y0 m0 (Y1 & Y2) Fm']; subst. rewrite (CT y), Y2, (CT x), X by auto. destruct (length ket <? length bra); auto.
        - rewrite (CT y), Y2, (CT x), X by auto. destruct (length ket <? length bra); cbn; f_equal; auto. }
      apply H.
      + apply Forall_forall. intros k K. apply filter_In in K. split; [apply Bp; tauto|tauto].
      + apply Forall_forall. intros k K. apply filter_In in K. split; [apply Bp; tauto|]. apply negb_true_iff. tauto. }
  fold ct. rewrite SS. destruct (_ && _); [|discriminate].
  set (p := filter (fun k => k <? n) perm) in *. set (q := filter (fun k => negb (k <? n)) perm) in *. intros [= <- <-]. cbv zeta.
  assert (Lp : length p = n) by (rewrite (Permutation_length P1), seq_length; auto).
  assert (Lq : length q = mx - n) by (rewrite (Permutation_length P2), seq_length; auto).
  assert (G : forall l : list index, length l = n \/ length l = mx -> firstn (length l) (p ++ q) = p ++ (if n <? length l then q else [])).
  { intros l [L|L]; rewrite L.
    - rewrite Nat.ltb_irrefl, app_nil_r, <- Lp. rewrite firstn_app, Nat.sub_diag, firstn_O, app_nil_r, firstn_all. auto.
    - destruct (n <? mx) eqn:X.
      + apply firstn_all2. rewrite app_length. lia.
      + apply Nat.ltb_ge in X. assert (q = []) as -> by (destruct q; auto; cbn in Lq; lia). apply firstn_all2. rewrite !app_nil_r. lia. }
  assert (B1 : length bra = n \/ length bra = mx) by (unfold n, mx; lia). assert (B2 : length ket = n \/ length ket = mx) by (unfold n, mx; lia).
  rewrite !G by auto. rewrite !permute_app. split; [destruct (n <? length bra); auto|]. split; [destruct (n <? length ket); auto|]. auto.
Qed.
Lemma permute_columns_related t perm b' k' : t_col t = ColSymm -> t_symm t = Nonsymm ->
  Permutation (seq 0 (num_cols t)) perm ->
  Forall (fun i => ix_null i = false) (t_bra t) -> Forall (fun i => ix_null i = false) (t_ket t) ->
  permute_columns perm (t_bra t) (t_ket t) = Some (b', k') -> related t (with_slots t b' k') false.
Proof.
  intros C Sy P Fb Fk H. apply permute_columns_spec in H; auto. cbv zeta in H.
  set (bra := t_bra t) in *. set (ket := t_ket t) in *. set (n := Nat.min (length bra) (length ket)) in *. unfold num_cols in P. fold bra ket in P.
  set (p := filter (fun k => k <? n) perm) in *. set (q := filter (fun k => negb (k <? n)) perm) in *.
  set (mx := Nat.max (length bra) (length ket)) in *. destruct H as (-> & -> & P1 & P2).
  unfold related. do 7 (split; [reflexivity|]). rewrite C, Sy. cbn [with_slots t_bra t_ket]. fold bra ket.
  exists (firstn n bra), (permute p bra), (skipn n bra), (if n <? length bra then permute q bra else []),
         (firstn n ket), (permute p ket), (skipn n ket), (if n <? length ket then permute q ket else []).
  split; [symmetry; apply firstn_skipn|]. split; [symmetry; apply firstn_skipn|]. split; [auto|]. split; [auto|].
  split; [rewrite !firstn_length; unfold n; lia|]. split; [rewrite !permute_length; auto|].
  split; [apply skipn_min|]. split; [unfold n; destruct (Nat.ltb_spec (Nat.min (length bra) (length ket)) (length bra)), (Nat.ltb_spec (Nat.min (length bra) (length ket)) (length ket)); auto; lia|].
  split.
  { rewrite <- (permute_prefix n bra), <- (permute_prefix n ket) by (unfold n; lia). rewrite !permute_combine. apply Permutation_map. symmetry. auto. }
  assert (G : forall l, length l = n \/ length l = mx -> Permutation (skipn n l) (if n <? length l then permute q l else [])).
  { intros l L. destruct (Nat.ltb_spec n (length l)).
    - assert (E : length l = mx) by lia. rewrite <- permute_suffix by lia. apply permute_perm. rewrite E. symmetry. auto.
    - rewrite skipn_all2 by lia. auto. }
  split; [apply G; unfold n, mx; lia|]. split; [apply G; unfold n, mx; lia|]. auto.
Qed.
