(** Proofs about the generation optimizer. *)
From Coq Require Import List Arith Bool Lia Relations Permutation.
From Verif Require Import Gen_Model Gen_Spec.
Import ListNotations.
Local Arguments Nat.ltb : simpl never.
Local Arguments Nat.leb : simpl never.
Local Arguments Nat.eqb : simpl never.

(** * What the operations do *)
Lemma alloc_or : forall x, memory_action x = Allocate ->
  (exists o z, x = Create o z) \/ (exists o, x = Load o) \/ (exists o, x = LoadAndZero o).
Proof. intros [] H; cbn in H; try discriminate; eauto 6. Qed.
Lemma dealloc_or : forall x, memory_action x = Deallocate ->
  (exists o, x = Unload o) \/ (exists o, x = Destroy o) \/ (exists o, x = Persist o).
Proof. intros [] H; cbn in H; try discriminate; eauto 6. Qed.
Lemma pairs_alloc : forall x y, memory_action x = Allocate -> memory_action y = Deallocate ->
  pairs_with x y = Nat.eqb (object x) (object y).
Proof. intros [] [] H H0; cbn in *; try discriminate; unfold pairs_with; cbn; apply andb_true_r. Qed.
Lemma pairs_cases : forall x y, pairs_with x y = true ->
  object x = object y /\ ((memory_action x = Allocate /\ memory_action y = Deallocate) \/
                          (memory_action x = Deallocate /\ memory_action y = Allocate)).
Proof.
  intros x y H. unfold pairs_with in H. apply andb_true_iff in H. destruct H as [H H0].
  apply Nat.eqb_eq in H. split; [exact H|].
  destruct x, y; cbn in *; try discriminate; auto.
Qed.

(** * The backward scan *)
Definition bstep (x : op) (st : list op) : option (list op) :=
  match memory_action x with
  | Deallocate => Some (x :: st)
  | NoAction => Some st
  | Allocate => match st with d :: st' => if pairs_with x d then Some st' else None | [] => None end
  end.
Fixpoint scan (p : list op) : option (list op) :=
  match p with
  | [] => Some []
  | x :: p' => match scan p' with Some st => bstep x st | None => None end
  end.
Fixpoint bscan (st : list op) (l : list op) : option (list op) :=
  match l with
  | [] => Some st
  | x :: l' => match bstep x st with Some st' => bscan st' l' | None => None end
  end.
Lemma bscan_app : forall l l' st, bscan st (l ++ l') = match bscan st l with Some s => bscan s l' | None => None end.
Proof. induction l; intros; cbn; [reflexivity|]. destruct (bstep a st); auto. Qed.
Lemma bscan_scan : forall p, bscan [] (rev p) = scan p.
Proof.
  induction p; [reflexivity|]. cbn [rev scan]. rewrite bscan_app, IHp.
  destruct (scan p); [|reflexivity]. cbn. destruct (bstep a l); reflexivity.
Qed.
Lemma find_unpaired_is : forall l k st n, find_unpaired k st l = Some n ->
  exists l1 v l2 st', l = l1 ++ v :: l2 /\ n = k + length l1 /\ bscan st l1 = Some st' /\
    memory_action v = Allocate /\ (forall d t, st' = d :: t -> pairs_with v d = false).
Proof.
  induction l; intros k st n H; cbn in H; [discriminate|].
  destruct (memory_action a) eqn:E.
  - apply IHl in H. destruct H as (l1 & v & l2 & st' & -> & -> & H & H0 & H1).
    exists (a :: l1), v, l2, st'. cbn. unfold bstep. rewrite E. repeat split; auto; lia.
  - apply IHl in H. destruct H as (l1 & v & l2 & st' & -> & -> & H & H0 & H1).
    exists (a :: l1), v, l2, st'. cbn. unfold bstep. rewrite E. repeat split; auto; lia.
  - destruct st as [|d st].
    + inversion H; subst. exists [], a, l, []. cbn. repeat split; auto; try lia. discriminate.
    + destruct (pairs_with a d) eqn:Ep.
      * apply IHl in H. destruct H as (l1 & v & l2 & st' & -> & -> & H & H0 & H1).
        exists (a :: l1), v, l2, st'. cbn. unfold bstep. rewrite E, Ep. repeat split; auto; lia.
      * inversion H; subst. exists [], a, l, (d :: st). cbn. repeat split; auto; try lia.
        intros d' t Hd. inversion Hd; subst. exact Ep.
Qed.
Lemma allocation_before_is : forall c n a, n <= length c -> allocation_before c n = Some a ->
  exists p0 v p1 st, firstn n c = p0 ++ v :: p1 /\ length p0 = a /\ scan p1 = Some st /\
    memory_action v = Allocate /\ (forall d t, st = d :: t -> pairs_with v d = false).
Proof.
  intros c n a Hn H. unfold allocation_before in H.
  destruct (find_unpaired 0 [] (rev (firstn n c))) as [k|] eqn:E; [|discriminate].
  inversion H; subst; clear H. apply find_unpaired_is in E.
  destruct E as (l1 & v & l2 & st & E & -> & H & H0 & H1).
  exists (rev l2), v, (rev l1), st.
  assert (E1 : firstn n c = rev l2 ++ v :: rev l1).
  { rewrite <- (rev_involutive (firstn n c)), E, rev_app_distr. cbn. rewrite <- app_assoc. reflexivity. }
  assert (L : length (firstn n c) = n) by (rewrite firstn_length; lia).
  rewrite E1 in L. rewrite app_length in L. cbn in L. rewrite !rev_length in L.
  split; [exact E1|]. split; [rewrite rev_length; lia|].
  split; [|split; auto]. rewrite <- bscan_scan, rev_involutive. exact H.
Qed.

(** * One step of the optimizer *)
Inductive opt1 : list op -> list op -> Prop :=
| o_cancel : forall pre x y post, cancels x y = true -> opt1 (pre ++ x :: y :: post) (pre ++ post)
| o_swap : forall p0 u v p1 x y z post st,
    memory_action u = Allocate -> memory_action v = Allocate -> memory_action x = Deallocate ->
    memory_action y = Deallocate -> memory_action z = Allocate ->
    object v = object x -> object z = object x -> object u = object y ->
    scan p1 = Some st -> (forall d t, st = d :: t -> pairs_with v d = false) ->
    opt1 (p0 ++ u :: v :: p1 ++ x :: y :: z :: post) (p0 ++ v :: u :: p1 ++ y :: post).
Definition opts := clos_refl_trans (list op) opt1.
Lemma opts_refl : forall l, opts l l. Proof. intros; apply rt_refl. Qed.
Lemma opts_trans : forall a b c, opts a b -> opts b c -> opts a c.
Proof. intros; eapply rt_trans; eauto. Qed.
Lemma opts_one : forall a b, opt1 a b -> opts a b. Proof. intros; apply rt_step; auto. Qed.

Lemma nth_error_split2 : forall A (l : list A) i x y,
  nth_error l i = Some x -> nth_error l (S i) = Some y ->
  exists l1 l2, l = l1 ++ x :: y :: l2 /\ length l1 = i.
Proof.
  intros A l i x y H H0. apply nth_error_split in H. destruct H as (l1 & l2 & -> & H).
  subst i. rewrite nth_error_app2 in H0 by lia. replace (S (length l1) - length l1) with 1 in H0 by lia.
  destruct l2 as [|y' l2]; cbn in H0; [discriminate|]. inversion H0; subst. exists l1, l2. auto.
Qed.
Lemma erase_app : forall A (l l' : list A) n, erase (length l + n) (l ++ l') = l ++ erase n l'.
Proof. induction l; intros; cbn; [reflexivity|]. rewrite IHl; reflexivity. Qed.
Lemma put_app : forall A (l l' : list A) n x, put (length l + n) x (l ++ l') = l ++ put n x l'.
Proof. induction l; intros; cbn; [reflexivity|]. rewrite IHl; reflexivity. Qed.

(** ** The queue *)
Lemma cancel_loop_opts : forall fuel i q q' pre post, cancel_loop fuel i q = Done q' ->
  opts (pre ++ q ++ post) (pre ++ q' ++ post).
Proof.
  induction fuel; intros i q q' pre post H; cbn [cancel_loop] in H; [discriminate|].
  destruct q as [|a q0] eqn:Eq; [discriminate|]. rewrite <- Eq in *.
  destruct (i <? length q - 1) eqn:El; [|inversion H; apply opts_refl].
  destruct (nth_error q i) as [x|] eqn:Ex; [|discriminate].
  destruct (nth_error q (S i)) as [y|] eqn:Ey; [|discriminate].
  destruct (cancels x y) eqn:Ec; [|eapply IHfuel; eauto].
  destruct (nth_error_split2 _ _ _ _ _ Ex Ey) as (l1 & l2 & E1 & Hl). rewrite E1 in *.
  apply IHfuel with (pre := pre) (post := post) in H. eapply opts_trans; [|exact H]. apply opts_one.
  replace (S i) with (length l1 + 1) by lia. rewrite erase_app.
  replace i with (length l1 + 0) by lia. rewrite erase_app. cbn [erase].
  rewrite <- !app_assoc. rewrite (app_assoc pre l1 (l2 ++ post)).
  rewrite (app_assoc pre l1). cbn [app]. apply o_cancel. exact Ec.
Qed.
(** the loop ends *)
Lemma length_erase : forall A (l : list A) i, i < length l -> S (length (erase i l)) = length l.
Proof.
  induction l; intros i H; cbn in H; [lia|]. destruct i; cbn; [reflexivity|].
  rewrite IHl; [reflexivity|lia].
Qed.
Lemma cancel_loop_fuel : forall fuel i q, length q * S (length q) < fuel + i -> i <= length q -> cancel_loop fuel i q <> OutOfFuel.
Proof.
  induction fuel; intros i q H Hi; cbn [cancel_loop].
  - exfalso. cbn in H. nia.
  - destruct q as [|a q0] eqn:Eq; [discriminate|]. rewrite <- Eq in *. clear Eq a q0.
    destruct (i <? length q - 1) eqn:El; [|discriminate]. apply Nat.ltb_lt in El.
    destruct (nth_error q i) as [x|] eqn:Ex; [|discriminate].
    destruct (nth_error q (S i)) as [y|] eqn:Ey; [|discriminate].
    destruct (cancels x y); apply IHfuel; try lia.
    assert (L1 : S (length (erase (S i) q)) = length q) by (apply length_erase; lia).
    assert (L2 : S (length (erase i (erase (S i) q))) = length (erase (S i) q)) by (apply length_erase; lia).
    remember (length (erase i (erase (S i) q))) as n. nia.
Qed.

Lemma process_queue_opts : forall chk s s' post, process_queue chk s = Done s' ->
  queue s' = [] /\ opts (cache s ++ queue s ++ post) (cache s' ++ post).
Proof.
  intros chk s s' post H. unfold process_queue in H.
  destruct (cancel_loop _ 0 (queue s)) as [q| | | |] eqn:E; cbn [bind] in H; try discriminate.
  destruct q as [|x q0] eqn:Eq; [discriminate|]. rewrite <- Eq in *.
  destruct (pair_loop chk (length (cache s)) 0 q (paired s)) as [p| | | |] eqn:Ep; cbn [bind] in H; try discriminate.
  inversion H; subst s'. cbn. split; [reflexivity|]. rewrite <- app_assoc. eapply cancel_loop_opts; eauto.
Qed.
Lemma receive_opts : forall chk calls s s' , receive chk calls s = Done s' ->
  opts (cache s ++ queue s ++ calls) (cache s' ++ queue s').
Proof.
  induction calls as [|x calls IH]; intros s s' H; cbn in H.
  - inversion H; subst. rewrite app_nil_r. apply opts_refl.
  - set (s1 := mkState (queue s ++ [x]) (cache s) (paired s)) in *.
    assert (E : cache s ++ queue s ++ x :: calls = cache s1 ++ queue s1 ++ calls).
    { cbn. rewrite <- app_assoc. reflexivity. }
    rewrite E. destruct (is_compute x).
    + destruct (process_queue chk s1) as [s2| | | |] eqn:Ep; cbn [bind] in H; try discriminate.
      apply process_queue_opts with (post := calls) in Ep. destruct Ep as [Eq Ep].
      eapply opts_trans; [exact Ep|]. specialize (IH _ _ H). rewrite Eq in IH. exact IH.
    + cbn [bind] in H. apply IH. exact H.
Qed.

(** ** The cache *)
Lemma assert_true : forall A b (k : res A) r, assert true b k = Done r -> b = true /\ k = Done r.
Proof. intros A [] k r H; cbn in H; [auto|discriminate]. Qed.
Lemma optimize_pair_opts : forall c e p c' e', optimize_pair true c e p = Done (c', e') -> opts c c'.
Proof.
  intros c e [f0 s0] c' e' H. unfold optimize_pair in H.
  apply assert_true in H. destruct H as [_ H]. apply assert_true in H. destruct H as [_ H].
  destruct ((f0 <? e) || (s0 <? e)); [discriminate|].
  set (f := f0 - e) in *. set (s := s0 - e) in *. clearbody f s.
  apply assert_true in H. destruct H as [Hf H]. apply assert_true in H. destruct H as [Hs H].
  apply assert_true in H. destruct H as [Hfs H]. apply Nat.ltb_lt in Hf, Hs, Hfs.
  destruct (nth_error c f) as [x|] eqn:Ex; [|discriminate].
  destruct (nth_error c s) as [z|] eqn:Ez; [|discriminate].
  apply assert_true in H. destruct H as [Hp H].
  destruct (2 <? s - f) eqn:Ed; [inversion H; apply opts_refl|]. apply Nat.ltb_ge in Ed.
  destruct (nth_error c (S f)) as [y|] eqn:Ey; [|discriminate].
  destruct (is_none y) eqn:En; [inversion H; apply opts_refl|].
  destruct (is_allocate y) eqn:Ea; [inversion H; apply opts_refl|].
  assert (Ay : memory_action y = Deallocate).
  { unfold is_none, is_allocate in *. destruct (memory_action y); auto; discriminate. }
  apply assert_true in H. destruct H as [Hx H].
  assert (Ax : memory_action x = Deallocate).
  { unfold is_deallocate in Hx. destruct (memory_action x); auto; discriminate. }
  destruct (pairs_cases _ _ Hp) as [Oxz Axz].
  assert (Az : memory_action z = Allocate) by (destruct Axz as [[? _]|[_ ?]]; [congruence|auto]).
  assert (Hs2 : s = S (S f)).
  { assert (Hd : s = S f \/ s = S (S f)) by lia. destruct Hd as [->|Hd]; [|exact Hd].
    rewrite Ez in Ey. inversion Ey; subst. congruence. }
  destruct (allocation_before c f) as [a1|] eqn:E1; [|discriminate].
  apply assert_true in H. destruct H as [H1 H].
  destruct (allocation_before c a1) as [a2|] eqn:E2; [|discriminate].
  apply assert_true in H. destruct H as [H2 H]. apply assert_true in H. destruct H as [H12 H].
  destruct (Nat.eqb (a1 - a2) 1) eqn:Eq; [|inversion H; apply opts_refl]. apply Nat.eqb_eq in Eq.
  apply Nat.ltb_lt in H12. assert (a1 = S a2) by lia. clear Eq H12.
  apply allocation_before_is in E1; [|lia]. destruct E1 as (q0 & v & p1 & st & E1 & La1 & Sc & Av & Top).
  (* the operations before [first] *)
  assert (Ec : c = firstn f c ++ x :: y :: z :: skipn (S (S (S f))) c).
  { rewrite <- (firstn_skipn f c) at 1. f_equal.
    assert (K : forall n w, nth_error c n = Some w -> skipn n c = w :: skipn (S n) c).
    { clear. intros n. revert c. induction n; intros c w H; destruct c; cbn in *; try discriminate.
      - inversion H; reflexivity.
      - apply IHn in H. exact H. }
    rewrite (K f x Ex), (K (S f) y Ey). subst s. rewrite (K (S (S f)) z Ez). reflexivity. }
  set (post := skipn (S (S (S f))) c) in *. rewrite E1 in Ec.
  assert (Lf : length (q0 ++ v :: p1) = f) by (rewrite <- E1, firstn_length; lia).
  assert (Nv : nth_error c a1 = Some v).
  { rewrite Ec, <- app_assoc. rewrite <- La1. rewrite nth_error_app2 by lia.
    rewrite Nat.sub_diag. reflexivity. }
  rewrite Nv in H1, H. destruct (pairs_cases _ _ H1) as [Ovx _].
  destruct (nth_error c a2) as [u|] eqn:Eu; [|discriminate].
  destruct (pairs_cases _ _ H2) as [Ouy Auy].
  assert (Au : memory_action u = Allocate) by (destruct Auy as [[? _]|[? ?]]; [auto|congruence]).
  assert (Eq0 : exists p0, q0 = p0 ++ [u] /\ length p0 = a2).
  { rewrite Ec, <- app_assoc in Eu. rewrite nth_error_app1 in Eu by lia.
    destruct (nth_error_split _ _ Eu) as (p0 & r & Eq0 & Lp0). exists p0. split; [|exact Lp0].
    rewrite Eq0. f_equal. assert (Lr : length r = 0).
    { assert (LL : length q0 = length p0 + S (length r)) by (rewrite Eq0, app_length; reflexivity). lia. }
    destruct r; [reflexivity|discriminate]. }
  destruct Eq0 as (p0 & -> & Lp0). inversion H; subst c' e'. clear H.
  assert (Ec' : c = p0 ++ u :: v :: p1 ++ x :: y :: z :: post).
  { rewrite Ec. rewrite <- !app_assoc. reflexivity. }
  assert (En' : erase f (erase s (put a1 u (put a2 v c))) = p0 ++ v :: u :: p1 ++ y :: post).
  { rewrite Ec'. replace a2 with (length p0 + 0) by lia. rewrite put_app.
    replace a1 with (length p0 + 1) by lia. rewrite put_app. cbn [put].
    assert (Lf' : f = length p0 + S (S (length p1))).
    { rewrite <- Lf. rewrite !app_length. cbn. lia. }
    replace s with (length p0 + S (S (length p1 + 2))) by lia. rewrite erase_app. cbn [erase].
    rewrite erase_app. cbn [erase]. rewrite Lf'. rewrite erase_app. cbn [erase].
    replace (length p1) with (length p1 + 0) by lia. rewrite erase_app. reflexivity. }
  rewrite En'. rewrite Ec'. apply opts_one. eapply o_swap; eauto.
Qed.
Lemma optimize_cache_opts : forall ps c e out, optimize_cache true c e ps = Done out -> opts c out.
Proof.
  induction ps as [|p ps IH]; intros c e out H; cbn in H.
  - inversion H; apply opts_refl.
  - destruct (optimize_pair true c e p) as [[c' e']| | | |] eqn:E; cbn in H; try discriminate.
    eapply opts_trans; [eapply optimize_pair_opts; eauto|eauto].
Qed.
Theorem optimize_opts : forall calls out, optimize_calls true calls = Done out -> opts calls out.
Proof.
  intros calls out H. unfold optimize_calls in H.
  destruct (receive true calls _) as [s| | | |] eqn:E; cbn [bind] in H; try discriminate.
  apply receive_opts in E. cbn in E.
  destruct (process_queue true s) as [s'| | | |] eqn:E'; cbn [bind] in H; try discriminate.
  apply process_queue_opts with (post := []) in E'. destruct E' as [_ E'].
  unfold process_cache in H. apply assert_true in H. destruct H as [_ H].
  apply optimize_cache_opts in H. rewrite !app_nil_r in E'.
  eapply opts_trans; [exact E|]. eapply opts_trans; [exact E'|exact H].
Qed.
