(** Theorems about memoize and factorial under every interleaving of the calling threads. *)
From Coq Require Import List Bool Arith ZArith Lia Factorial.
From Verif Require Import Mem_Model Mem_Proofs1 Mem_Proofs2 Mem_Proofs3 Mem_Proofs4.
Import ListNotations.

Section Memoize.
  Context {V : Type}.
  Variable f : nat -> V.
  Variable grow : nat -> nat.
  Notation step := (step f grow).
  Notation run := (run f grow).
  (** The same schedule without exceptions and without spurious wake-ups. *)
  Definition quiet (l : list nat) : list (nat * bool) := map (fun i => (i, false)) l.

  (** C100: whatever the keys and the schedule, and even if computations throw, no value is computed twice. *)
  Theorem C100_computed_once ks l s : run (start ks) l = Some s -> NoDup (calls s).
  Proof. intros H. apply (inv_calls f s). eapply run_inv; [apply start_inv|exact H]. Qed.

  (** C100: as long as no further key is added to the cache, what memoize(k) has returned can be read, and it
      is the value computed for k. *)
  Theorem C100_value_partial ks l s0 i k b s1 l' s2 :
    run (start ks) l = Some s0 -> nth_error (acts s0) i = Some (Calling k) -> step s0 i b = Some s1 ->
    run s1 l' = Some s2 -> length (elems s2) = length (elems s1) ->
    exists a, nth_error (acts s2) i = Some a /\ (forall k', a <> Broken k') /\ forall k' v, a = Saw k' v -> k' = k /\ v = f k.
  Proof.
    intros H0 Hi H1 H2 HL. assert (I0 : inv f s0) by (eapply run_inv; [apply start_inv|exact H0]). assert (I1 : inv f s1) by (eapply step_inv; eauto).
    destruct (step_own f grow s0 i b s1 _ I0 H1 Hi I) as (a1 & E1 & S1). destruct (step_key f grow s0 i b s1 i _ H1 Hi) as (a2 & E2 & K2). rewrite E1 in E2. injection E2 as <-.
    destruct (run_safe f grow l' s1 s2 i a1 I1 H2 HL E1 S1) as (a & Ea & Sa & Ka). exists a. split; auto. split; [intros k' ->; exact Sa|]. intros k' v ->. cbn in *. subst. auto.
  Qed.

  (** C100: if all threads ask for the same key, every one of them gets its value, in every schedule. *)
  Theorem C100_one_key k n l s i a : run (start (repeat k n)) l = Some s -> nth_error (acts s) i = Some a ->
    (forall k', a <> Broken k') /\ forall k' v, a = Saw k' v -> k' = k /\ v = f k.
  Proof.
    intros H Ea. destruct (one_key_run f grow k l _ _ (one_key_start f k n) H) as (_ & HA & _). destruct (HA i a Ea) as [S K].
    split; [intros k' ->; exact S|]. intros k' v ->. cbn in *. subst. auto.
  Qed.

  (** C100: the calls come to an end: no schedule is longer than this. *)
  Theorem C100_ends ks l s : run (start ks) (quiet l) = Some s -> length l <= 3 * length ks * (length ks + 2).
  Proof. intros H. apply run_measure in H. rewrite start_measure in H. lia. Qed.

  (** C100: nobody waits for ever: if no thread can go on, every call has returned, unless a computation has
      thrown. *)
  Theorem C100_no_deadlock ks l s : run (start ks) l = Some s -> (forall i k, nth_error (acts s) i <> Some (Failed k)) ->
    (forall i, step s i false = None) -> forall i a, nth_error (acts s) i = Some a -> (exists k v, a = Saw k v) \/ exists k, a = Broken k.
  Proof.
    intros H HF HS. destruct (stuck f grow s) as [G|(i & k & G)]; auto; [|eapply run_pending; [| |exact H]; [apply start_inv|apply start_pending]|exfalso; now apply (HF i k)].
    eapply run_inv; [apply start_inv|exact H].
  Qed.
  (** C100: so with one key every schedule that cannot be continued has given everybody the value. *)
  Theorem C100_everybody k n l s : run (start (repeat k n)) (quiet l) = Some s -> (forall i, step s i false = None) -> acts s = repeat (Saw k (f k)) n.
  Proof.
    intros H HS.
    assert (HF : forall i k', nth_error (acts s) i <> Some (Failed k')).
    { apply (run_failed f grow l _ _ H). intros i k' E. cbn in E. rewrite nth_error_map in E. destruct (nth_error (repeat k n) i); discriminate. }
    assert (HA : forall a, In a (acts s) -> a = Saw k (f k)).
    { intros a Ha. apply In_nth_error in Ha as [i Ei]. destruct (C100_one_key k n _ s i a H Ei) as [H1 H2].
      destruct (C100_no_deadlock _ _ s H HF HS i a Ei) as [(k' & v & ->)|(k' & ->)]; [|now destruct (H1 k')]. destruct (H2 k' v eq_refl) as [-> ->]. reflexivity. }
    assert (HL : length (acts s) = n).
    { assert (G : forall l s s', run s l = Some s' -> length (acts s') = length (acts s)).
      { clear. induction l as [|[i b] l IH]; intros s s' H; cbn in H; [congruence|]. destruct (step s i b) as [s1|] eqn:E; [|discriminate]. apply IH in H. apply step_length in E. congruence. }
      apply G in H. cbn in H. now rewrite map_length, repeat_length in H. }
    clear -HA HL. revert n HL. induction (acts s) as [|x t IH]; intros [|n] HL; try discriminate; auto. cbn in *. rewrite (HA x) by auto. f_equal. apply IH; auto.
  Qed.
End Memoize.

(** ** factorial *)
(** C101: whatever other threads do, factorial(n) returns n!. *)
Theorem C101_factorial ns l s i n z : frun (fbegin ns) l = Some s -> nth_error (fcalls s) i = Some (Freturned n z) -> nth_error ns i = Some n /\ z = Z.of_nat (fact n).
Proof.
  intros H Hi. pose proof (frun_inv l _ _ (fbegin_inv ns) H) as HI. pose proof (finv_calls _ HI i _ Hi) as G. cbn in G. rewrite <- zfact_fact. split; auto.
  apply frun_arg in H. cbn in H. rewrite map_map, map_id in H. rewrite <- H. rewrite nth_error_map, Hi. reflexivity.
Qed.
(** C101: every call returns after at most five steps of its own, and threads never block each other for ever. *)
Theorem C101_ends ns l s : frun (fbegin ns) l = Some s -> length l <= 5 * length ns /\
  ((forall i, fstep s i = None) -> fcalls s = map (fun n => Freturned n (Z.of_nat (fact n))) ns).
Proof.
  intros H. split.
  - apply frun_measure in H. assert (G : fmeasure (fbegin ns) = 5 * length ns) by (clear; unfold fmeasure, list_sum; cbn [fbegin fcalls]; induction ns as [|n ns IH]; [reflexivity|cbn [map fold_right fleft length]; lia]). lia.
  - intros HS. pose proof (frun_inv l _ _ (fbegin_inv ns) H) as HI. pose proof (frun_arg _ _ _ H) as HA. cbn in HA. rewrite map_map, map_id in HA. rewrite <- HA, map_map.
    assert (G : forall c, In c (fcalls s) -> c = Freturned (arg c) (Z.of_nat (fact (arg c)))).
    { intros c Hc. apply In_nth_error in Hc as [i Ei]. destruct (fprogress s HI HS i c Ei) as (n & z & ->). cbn. destruct (C101_factorial ns l s i n z H Ei) as [_ ->]. reflexivity. }
    clear -G. induction (fcalls s) as [|c t IH]; auto. cbn [map]. rewrite (G c) at 1 by now left. cbn [arg]. f_equal. apply IH. intros c' Hc'. apply G. now right.
Qed.

Module MemExamples.
  (** Two threads, one key, the second waits for the first. *)
  Definition two : list nat := [0; 1; 0; 0; 1; 1; 0].
  Example two_ok : forall grow, exists s, run (fun k => 10 * k) grow (start [7; 7]) (quiet two) = Some s /\ (forall i, step (fun k => 10 * k) grow s i false = None) /\ acts s = [Saw 7 70; Saw 7 70].
  Proof. intros grow. eexists. split; [cbv; reflexivity|]. split; [intros [|[|[|i]]]; reflexivity|reflexivity]. Qed.
  (** The hypotheses of [C100_value_partial] with two keys in the cache. *)
  Definition double (c : nat) : nat := S (2 * c).
  Example fresh_ok : exists s0 s1 s2, run S double (start [3; 5; 3]) (quiet [0; 1; 1]) = Some s0 /\ nth_error (acts s0) 2 = Some (Calling 3) /\ step S double s0 2 false = Some s1 /\
    run S double s1 (quiet [1; 0; 0; 2; 2]) = Some s2 /\ length (elems s2) = length (elems s1) /\ nth_error (acts s2) 2 = Some (Saw 3 4).
  Proof. do 3 eexists. split; [cbv; reflexivity|]. split; [reflexivity|]. split; [cbv; reflexivity|]. split; [cbv; reflexivity|]. split; reflexivity. Qed.

  (** The reference that memoize returns is lost as soon as another key is added: with any policy of growth,
      two threads with different keys can read what is not there or another key's value. *)
  Definition lost : list nat := [0; 0; 0; 1; 1; 1; 0].
  Theorem C100_reference_refuted : forall grow, exists s, run (fun k => 10 * k) grow (start [1; 0]) (quiet lost) = Some s /\
    (nth_error (acts s) 0 = Some (Broken 1) \/ nth_error (acts s) 0 = Some (Saw 1 0)).
  Proof.
    intros grow. unfold run, quiet, lost, start. cbn [map]. destruct (grow 0) as [|[|g]] eqn:E; cbn; rewrite E; cbn; eexists; (split; [reflexivity|]); cbn; auto.
  Qed.
  (** An exception in the computation leaves the key behind: a later call for it waits for ever. *)
  Theorem C100_exception_refuted : forall grow, exists s, run (fun k => 10 * k) grow (start [1; 1]) [(0, false); (0, true); (1, false)] = Some s /\
    (exists it, nth_error (acts s) 1 = Some (Waiting 1 it)) /\ forall i, step (fun k => 10 * k) grow s i false = None.
  Proof.
    intros grow. eexists. split; [cbv; reflexivity|]. split; [eexists; reflexivity|]. intros [|[|[|i]]]; reflexivity.
  Qed.

  (** Two threads ask for 22! and 21! at the same time. *)
  Example factorial_ok : exists s, frun (fbegin [22; 21; 5]) [0; 1; 2; 0; 0; 0; 0; 1; 1] = Some s /\ forall i, fstep s i = None.
  Proof. eexists. split; [vm_compute; reflexivity|]. intros [|[|[|[|i]]]]; vm_compute; reflexivity. Qed.
End MemExamples.
