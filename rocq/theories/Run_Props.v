(** * Theorems about the threaded algorithms and the singleton *)
From Coq Require Import List Arith Bool ZArith Lia Permutation.
From Verif Require Import Run_Model Run_Proofs.
Import ListNotations.

(** ** C108: for_each *)

(** In every schedule with at least one thread, when for_each returns, [op] has
    been called exactly once for every position of the range, and every call
    has ended. *)
Theorem C108_each_element_once :
  forall n nthreads sched, 1 <= nthreads ->
    fdone (for_each n nthreads sched) ->
    Permutation (begun (for_each n nthreads sched)) (seq 0 n) /\
    Permutation (ended (for_each n nthreads sched)) (seq 0 n).
Proof.
  intros n t sched Ht D. unfold for_each in *.
  apply fdone_all; [apply finv_run, finit_inv|exact D|].
  intros E. pose proof (frun_length n sched (finit t)) as L. rewrite E in L.
  cbn in L. rewrite repeat_length in L. lia.
Qed.

(** At no time has [op] been called twice for an element, or for a position
    outside of the range; only calls that have begun have ended. *)
Theorem C108_never_twice :
  forall n nthreads sched,
    let c := for_each n nthreads sched in
    NoDup (begun c) /\ (forall p, In p (begun c) -> p < n) /\
    NoDup (ended c) /\ incl (ended c) (begun c).
Proof.
  intros n t sched c.
  assert (I : finv n c) by (apply finv_run, finit_inv).
  destruct I as [_ B E].
  assert (N1 : NoDup (begun c ++ flat_map fclaimed (f_workers c))).
  { eapply Permutation_NoDup; [apply Permutation_sym, B|apply seq_NoDup]. }
  assert (AL : forall X (a b : list X), NoDup (a ++ b) -> NoDup a).
  { induction a as [|x a IH]; intros b H; [constructor|]. inversion H; subst.
    constructor; [|eapply IH; eauto]. intros Hx. apply H2. apply in_or_app; auto. }
  assert (N2 : NoDup (begun c)) by (eapply AL; eauto).
  split; [exact N2|]. split.
  - intros p Hp. assert (In p (seq 0 (min (f_work c) n))) as X.
    { eapply Permutation_in; [exact B|]. apply in_or_app; auto. }
    apply in_seq in X. lia.
  - split.
    + eapply AL. eapply Permutation_NoDup; [apply Permutation_sym, E|exact N2].
    + intros p Hp. eapply Permutation_in; [exact E|]. apply in_or_app; auto.
Qed.

(** No schedule makes more than [3 n + nthreads] steps; for_each has returned
    exactly when that many were made; until then every thread that has not
    finished can make one. *)
Theorem C108_terminates :
  forall n nthreads sched,
    fcount n sched (finit nthreads) <= 3 * n + nthreads /\
    (fcount n sched (finit nthreads) = 3 * n + nthreads -> fdone (for_each n nthreads sched)) /\
    (1 <= nthreads -> fdone (for_each n nthreads sched) ->
     fcount n sched (finit nthreads) = 3 * n + nthreads) /\
    (forall i w, nth_error (f_workers (for_each n nthreads sched)) i = Some w -> w <> FDone ->
     fmoves (for_each n nthreads sched) i = true).
Proof.
  intros n t sched. pose proof (fcount_measure n sched (finit t)) as M.
  rewrite finit_measure in M. fold (for_each n t sched) in M.
  split; [lia|]. split; [|split].
  - intros E. apply (fmeasure_zero (for_each n t sched)).
    assert (Z0 : fmeasure n (for_each n t sched) = 0) by lia.
    unfold fmeasure in Z0. lia.
  - intros Ht D. destruct (fdone_parts _ D) as (_ & _ & W).
    assert (n < f_work (for_each n t sched)).
    { pose proof (finv_run n sched _ (finit_inv n t)) as I. fold (for_each n t sched) in I.
      pose proof (frun_length n sched (finit t)) as L. fold (for_each n t sched) in L.
      cbn in L. rewrite repeat_length in L.
      destruct (f_workers (for_each n t sched)) as [|w ws] eqn:Ew; [cbn in L; lia|].
      assert (w = FDone) as Hw by (apply D; rewrite Ew; left; reflexivity).
      apply (fi_w n _ I FDone). rewrite Ew, <- Hw. left; reflexivity. }
    unfold fmeasure in M. lia.
  - intros i w E N. unfold fmoves. rewrite E. destruct w; try reflexivity. congruence.
Qed.

(** Tasks that each fill their own slot of a result vector (optimize of a sum,
    optimize/optimize.cpp:195-223): the vector is what the sequential loop
    makes. *)
Theorem C108_slots :
  forall A (f : nat -> A) d n nthreads sched, 1 <= nthreads ->
    fdone (for_each n nthreads sched) ->
    fold_left (fun v i => put i (f i) v) (ended (for_each n nthreads sched)) (repeat d n)
    = map f (seq 0 n).
Proof.
  intros A f d n t sched Ht D.
  destruct (C108_each_element_once n t sched Ht D) as [_ P].
  set (l := ended (for_each n t sched)) in *. clearbody l. clear D Ht.
  assert (G : forall l v, NoDup l -> (forall i, In i l -> i < length v) ->
     length (fold_left (fun v i => put i (f i) v) l v) = length v /\
     forall j, j < length v -> nth_error (fold_left (fun v i => put i (f i) v) l v) j =
               if in_dec Nat.eq_dec j l then Some (f j) else nth_error v j).
  { clear. induction l as [|i l IH]; intros v N B; [split; [reflexivity|intros; reflexivity]|].
    cbn [fold_left]. inversion N as [|? ? Ni Nl]; subst.
    assert (Li : i < length v) by (apply B; left; reflexivity).
    destruct (nth_error v i) as [w|] eqn:Ew; [|apply nth_error_None in Ew; lia].
    destruct (nth_split2 _ _ _ _ Ew) as (l1 & l2 & -> & ->).
    rewrite put_split.
    destruct (IH (l1 ++ f (length l1) :: l2) Nl) as [IL IN].
    { intros j Hj. specialize (B j (or_intror Hj)). rewrite app_length in *. cbn in *. lia. }
    rewrite app_length in IL. split; [rewrite app_length; exact IL|].
    intros j Hj. rewrite IN by (rewrite app_length in *; cbn in *; lia).
    destruct (in_dec Nat.eq_dec j l) as [X|X].
    - destruct (in_dec Nat.eq_dec j (length l1 :: l)) as [Y|Y]; [reflexivity|].
      exfalso. apply Y. right; assumption.
    - rewrite (nth_put _ l1 l2 w). destruct (Nat.eqb_spec j (length l1)) as [->|Nj].
      + destruct (in_dec Nat.eq_dec (length l1) (length l1 :: l)) as [Y|Y]; [reflexivity|].
        exfalso. apply Y. left; reflexivity.
      + destruct (in_dec Nat.eq_dec j (length l1 :: l)) as [[Y|Y]|Y]; [congruence|contradiction|reflexivity]. }
  destruct (G l (repeat d n)) as [GL GN].
  - eapply Permutation_NoDup; [apply Permutation_sym, P|apply seq_NoDup].
  - intros i Hi. rewrite repeat_length. eapply Permutation_in in Hi; [|exact P].
    apply in_seq in Hi. lia.
  - rewrite repeat_length in *.
    assert (EX : forall X (a b : list X), length a = length b ->
       (forall j, j < length a -> nth_error a j = nth_error b j) -> a = b).
    { clear. induction a as [|x a IH]; intros [|y b] L H; cbn in L; try discriminate; [reflexivity|].
      f_equal.
      - specialize (H 0 ltac:(cbn; lia)). cbn in H. congruence.
      - apply IH; [lia|]. intros j Hj. apply (H (S j)). cbn; lia. }
    apply EX.
    + rewrite GL, map_length, seq_length. reflexivity.
    + intros j Hj. rewrite GL in Hj. rewrite GN by assumption.
      destruct (in_dec Nat.eq_dec j l) as [X|X].
      * rewrite nth_error_map, (nth_error_nth' _ 0) by (rewrite seq_length; lia).
        rewrite seq_nth by lia. reflexivity.
      * exfalso. apply X. eapply Permutation_in; [apply Permutation_sym, P|]. apply in_seq. lia.
Qed.

(** The number of threads is at least one unless the environment says zero.
    The full property has no such exception: see
    [RunExamples.C108_zero_threads_refuted]. *)
Theorem C108_num_threads_partial :
  forall env hw sets, env <> Some 0 -> (1 <= num_threads env hw sets)%Z.
Proof.
  intros env hw sets Hn. unfold num_threads.
  assert (I : (1 <= init_nthreads env hw)%Z).
  { unfold init_nthreads. destruct env as [[|e]|]; [congruence|lia|].
    destruct (Nat.ltb_spec 0 hw); lia. }
  revert I. generalize (init_nthreads env hw).
  induction sets as [|s sets IH]; intros z Hz; [exact Hz|].
  cbn [fold_left]. apply IH. unfold set_num_threads. destruct (Z.ltb_spec s 1); lia.
Qed.

(** ** C109: transform_reduce *)

(** In every schedule with at least one thread the result is the reduction of
    the mapped elements in some order, starting with [init]. *)
Theorem C109_some_order :
  forall A B T (rng : list A) (map_ : A -> B) (reduce : T -> B -> T) init nthreads sched,
    1 <= nthreads ->
    let c := transform_reduce A B T rng map_ reduce init nthreads sched in
    tdone c ->
    exists order, Permutation order (map map_ rng) /\
                  t_result c = fold_left reduce order init.
Proof.
  intros A B T rng map_ reduce init t sched Ht c D.
  apply (tdone_merged A B T rng map_ reduce init c); [|exact D|].
  - apply tinv_run, tinit_inv.
  - intros E. pose proof (trun_length A B T rng map_ reduce sched (tinit init t)) as L.
    unfold c, transform_reduce in E. rewrite E in L. cbn in L. rewrite repeat_length in L. lia.
Qed.

(** If the order of two reductions does not matter, the result is that of the
    sequential loop. *)
Theorem C109_sequential :
  forall A B T (rng : list A) (map_ : A -> B) (reduce : T -> B -> T) init nthreads sched,
    1 <= nthreads ->
    (forall t a b, reduce (reduce t a) b = reduce (reduce t b) a) ->
    let c := transform_reduce A B T rng map_ reduce init nthreads sched in
    tdone c -> t_result c = fold_left reduce (map map_ rng) init.
Proof.
  intros A B T rng map_ reduce init t sched Ht Hc c D.
  destruct (C109_some_order A B T rng map_ reduce init t sched Ht D) as (o & P & E).
  fold c in E. rewrite E. apply (fold_left_perm B T reduce Hc _ _ P).
Qed.

(** An accumulator whose append adds the value of what is appended ends with
    the sum of the values, in every schedule (transform_sum_expr and the sum of
    the results of Wick's theorem). *)
Theorem C109_sum_of_values :
  forall A B T G (add : G -> G -> G) (val : T -> G) (w : B -> G)
         (rng : list A) (map_ : A -> B) (append : T -> B -> T) init nthreads sched,
    (forall x y z, add (add x y) z = add x (add y z)) -> (forall x y, add x y = add y x) ->
    (forall t b, val (append t b) = add (val t) (w b)) ->
    1 <= nthreads ->
    let c := transform_reduce A B T rng map_ append init nthreads sched in
    tdone c -> val (t_result c) = fold_left add (map (fun a => w (map_ a)) rng) (val init).
Proof.
  intros A B T G add val w rng map_ append init t sched As Co Hv Ht c D.
  destruct (C109_some_order A B T rng map_ append init t sched Ht D) as (o & P & E).
  fold c in E. rewrite E. clear E D c.
  assert (X : forall o i, val (fold_left append o i) = fold_left add (map w o) (val i)).
  { induction o0 as [|b o0 IH]; intros i; [reflexivity|]. cbn. rewrite IH, Hv. reflexivity. }
  rewrite X. rewrite <- (map_map map_ w).
  apply (fold_left_perm G G add).
  - intros x a b. rewrite !As. f_equal. apply Co.
  - apply Permutation_map. exact P.
Qed.

(** Every schedule makes at most [5 size + nthreads] steps, and until
    transform_reduce returns some thread can make one: there is no deadlock. *)
Theorem C109_terminates :
  forall A B T (rng : list A) (map_ : A -> B) (reduce : T -> B -> T) init nthreads sched,
    let c := transform_reduce A B T rng map_ reduce init nthreads sched in
    tcount A B T rng map_ reduce sched (tinit init nthreads) <= 5 * length rng + nthreads /\
    (tdone c \/ exists i, tmoves A B T c i = true).
Proof.
  intros A B T rng map_ reduce init t sched c. split.
  - pose proof (tcount_measure A B T rng map_ reduce sched (tinit init t)) as M.
    rewrite tinit_measure in M. lia.
  - apply (tprogress A B T rng map_ reduce init). apply tinv_run, tinit_inv.
Qed.

(** ** C110: parallel_do *)

(** Given an lvalue, or an object that a move leaves unchanged, every thread
    number below [nthreads] gets the function object once.  The full property
    is about every function object: see [RunExamples.C110_rvalue_refuted]. *)
Theorem C110_parallel_do_partial :
  forall L (moved : L -> L) rvalue nthreads lambda,
    (rvalue = true -> moved lambda = lambda) ->
    parallel_do L moved rvalue nthreads 0 lambda
    = map (fun i => (i, lambda)) (seq 0 nthreads).
Proof.
  intros L moved rv n lambda Hm. generalize 0. induction n as [|n IH]; intros k; [reflexivity|].
  cbn [parallel_do seq map]. destruct n as [|n]; [reflexivity|].
  assert ((if rv then moved lambda else lambda) = lambda) as -> by (destruct rv; auto).
  rewrite IH. reflexivity.
Qed.

(** ** C111: singletons *)

(** In every schedule of calls of instance() and set_instance(), at most one
    object is constructed; every call that returns, returns that object;
    set_instance returns for at most one call, and then the object is made of
    its argument; for a default-constructible class a call throws only when
    the object exists (so instance() never throws). *)
Theorem C111_one_instance :
  forall dc calls sched, Forall is_call calls ->
    let c := singleton dc calls sched in
    length (x_made c) <= 1 /\
    (forall a1 o1 m1 a2 o2 m2, In (XGot a1 o1 m1) (x_acts c) -> In (XGot a2 o2 m2) (x_acts c) -> o1 = o2) /\
    (forall arg o, In (XGot arg o true) (x_acts c) -> x_made c = [arg]) /\
    (forall i j a1 o1 a2 o2, nth_error (x_acts c) i = Some (XGot a1 o1 true) ->
       nth_error (x_acts c) j = Some (XGot a2 o2 true) -> i = j) /\
    (dc = true -> In XThrew (x_acts c) -> exists o, x_ptr c = Some o).
Proof.
  intros dc calls sched F c.
  assert (I : xinv dc c) by (apply xinv_run, xinit_inv; exact F).
  split; [|split; [|split; [|split]]].
  - destruct (x_ptr c) as [o|] eqn:Ep.
    + destruct (xi_ptr dc c I o Ep) as (_ & -> & _). lia.
    + destruct (x_lock c) as [i|] eqn:El.
      * destruct (xi_hold dc c I i El) as (a & E & C). apply nth_error_In in E.
        destruct a; try discriminate.
        -- rewrite (xi_make dc c I _ E). cbn; lia.
        -- destruct (xi_assign dc c I _ _ E) as [-> _]. cbn; lia.
      * rewrite (xi_null dc c I Ep El). cbn; lia.
  - intros a1 o1 m1 a2 o2 m2 H1 H2. destruct (xi_got dc c I _ _ _ H1), (xi_got dc c I _ _ _ H2). congruence.
  - intros arg o H. apply (xi_got dc c I _ _ _ H). reflexivity.
  - intros i j a1 o1 a2 o2 H1 H2. destruct (Nat.eq_dec i j) as [|N]; [assumption|].
    exfalso. eapply (xi_once dc c I i j); eauto.
  - intros Hd H. destruct (xi_threw dc c I H) as [X|X]; [congruence|].
    destruct (x_ptr c); [eauto|congruence].
Qed.

(** There is no deadlock: some call can go on until all are finished, and each
    step brings the end closer. *)
Theorem C111_terminates :
  forall dc calls sched, Forall is_call calls ->
    let c := singleton dc calls sched in
    ((forall a, In a (x_acts c) -> xfinished a = true) \/ exists i, xmoves c i = true) /\
    (forall i, xmoves c i = true -> xmeasure (xstep dc i c) < xmeasure c) /\
    (forall i, xmoves c i = false -> xstep dc i c = c).
Proof.
  intros dc calls sched F c.
  assert (I : xinv dc c) by (apply xinv_run, xinit_inv; exact F).
  split; [apply (xprogress dc c I)|]. split; [apply xstep_measure|apply xstep_stay].
Qed.

(** With no call of instance() running there is no data race on the pointer.
    The full property has no such exception: see
    [RunExamples.C111_data_race_refuted]. *)
Theorem C111_no_race_partial :
  forall dc calls sched, Forall is_call calls ->
    let c := singleton dc calls sched in
    ~ In XInstance (x_acts c) -> ~ race c.
Proof.
  intros dc calls sched F c NI (i & j & b & Nij & Hi & Hj).
  assert (I : xinv dc c) by (apply xinv_run, xinit_inv; exact F).
  unfold next_access in Hi, Hj.
  destruct (nth_error (x_acts c) i) as [a|] eqn:Ei; [|discriminate].
  assert (xcrit a = true) as Ca.
  { destruct a; try discriminate; try reflexivity; destruct (x_lock c); discriminate. }
  destruct (xi_crit dc c I i a Ei Ca) as [El _]. rewrite El in Hj.
  destruct (nth_error (x_acts c) j) as [a'|] eqn:Ej; [|discriminate].
  destruct a'; try discriminate.
  - apply NI. eapply nth_error_In; eauto.
  - destruct (xi_crit dc c I j _ Ej eq_refl). congruence.
Qed.

Module RunExamples.
(** three elements, two threads *)
Definition s32 : list nat := [0; 1; 1; 0; 1; 0; 0; 0; 0; 0; 1].
Example ex_for_each :
  fdone (for_each 3 2 s32) /\
  begun (for_each 3 2 s32) = [1; 0; 2] /\ ended (for_each 3 2 s32) = [1; 0; 2].
Proof.
  split; [|split; reflexivity]. intros w Hw. vm_compute in Hw.
  destruct Hw as [<-|[<-|[]]]; reflexivity.
Qed.

(** The documentation of for_each says that op(t1) is commenced not after
    op(t2) if t1 < t2.  Numbers are given out in order, but a thread may be
    delayed before it calls [op]. *)
Theorem C108_order_refuted :
  ~ (forall n nthreads sched i j t1 t2,
       nth_error (begun (for_each n nthreads sched)) i = Some t1 ->
       nth_error (begun (for_each n nthreads sched)) j = Some t2 ->
       t1 < t2 -> i <= j).
Proof.
  intros X. specialize (X 3 2 s32 1 0 0 1 eq_refl eq_refl ltac:(lia)). lia.
Qed.

(** With SEQUANT_NUM_THREADS=0 for_each returns without a call of [op]. *)
Theorem C108_zero_threads_refuted :
  ~ (forall env hw sets n sched,
       let c := for_each n (Z.to_nat (num_threads env hw sets)) sched in
       fdone c -> Permutation (begun c) (seq 0 n)).
Proof.
  intros X. specialize (X (Some 0) 4 [] 1 []). cbn in X.
  assert (D : fdone (for_each 1 0 [])) by (intros w []).
  apply X in D. apply Permutation_length in D. discriminate D.
Qed.
Example ex_num_threads : num_threads (Some 3) 8 [2%Z; 0%Z] = 2%Z.
Proof. reflexivity. Qed.

Definition tr := transform_reduce nat nat nat [1; 2; 3] (fun x => 10 * x) Nat.add 5 2.
Definition str : list nat := [0; 1; 0; 0; 1; 1; 0; 1; 0; 1; 1; 1; 0; 0; 0; 0; 0; 0; 1].
Example ex_transform_reduce : tdone (tr str) /\ t_result (tr str) = 65.
Proof.
  split; [|reflexivity]. intros w Hw. vm_compute in Hw.
  destruct Hw as [<-|[<-|[]]]; reflexivity.
Qed.
(** the order is visible in a reduction that does not commute *)
Example ex_order_visible :
  let c := transform_reduce nat nat (list nat) [1; 2] (fun x => x) (fun l x => l ++ [x]) [] 2
             [0; 1; 1; 1; 1; 1; 0; 0; 0; 0; 0; 1] in
  tdone c /\ t_result c = [2; 1].
Proof.
  split; [|reflexivity]. intros w Hw. vm_compute in Hw.
  destruct Hw as [<-|[<-|[]]]; reflexivity.
Qed.

(** A function object passed as an rvalue is forwarded once per thread: with
    state that a move takes away (a captured vector, a std::function) the
    second thread calls a moved-from object. *)
Theorem C110_rvalue_refuted :
  ~ (forall nthreads (lambda : list nat) i f,
       In (i, f) (parallel_do (list nat) (fun _ => []) true nthreads 0 lambda) -> f = lambda).
Proof.
  intros X. specialize (X 2 [7] 1 [] ltac:(cbn; auto)). discriminate X.
Qed.
Example ex_parallel_do :
  parallel_do (list nat) (fun _ => []) false 3 0 [7] = [(0, [7]); (1, [7]); (2, [7])].
Proof. reflexivity. Qed.

Definition calls : list act := [XInstance; XSet 7; XInstance].
Example ex_singleton :
  let c := singleton true calls [0; 1; 2; 1; 0; 2; 1] in
  Forall is_call calls /\ x_made c = [Some 7] /\
  x_acts c = [XDefault; XGot (Some 7) 0 true; XDefault] /\
  x_acts (fold_left (fun c i => xstep true i c) [0; 2] c)
  = [XGot None 0 false; XGot (Some 7) 0 true; XGot None 0 false].
Proof. split; [repeat constructor|]. repeat split; reflexivity. Qed.

(** instance() reads the pointer before it takes the mutex, while another
    thread may be writing it: a data race. *)
Theorem C111_data_race_refuted :
  ~ (forall dc cs sched, Forall is_call cs -> ~ race (singleton dc cs sched)).
Proof.
  intros X. apply (X true calls [1; 1]); [repeat constructor|].
  exists 1, 0, false. repeat split; discriminate.
Qed.
End RunExamples.
