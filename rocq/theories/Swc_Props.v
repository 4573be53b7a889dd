(** * Properties of the swap counters *)
From Coq Require Import List Arith Bool Lia.
From Verif Require Import Swc_Model Swc_Spec.
Import ListNotations.

Lemma run_thread t tr : forall g, fold_left step tr g t = fold_left access_step (of_thread t tr) (g t).
Proof.
  induction tr as [|(u, a) tr IH]; intros g; [reflexivity|]. cbn [fold_left]. rewrite IH. unfold of_thread. cbn [filter fst].
  unfold step. cbn [fst snd]. rewrite (Nat.eqb_sym t u). destruct (u =? t); reflexivity.
Qed.

Lemma thread_calls ty cs : forall s n, even s ty = Nat.even n ->
  even (fold_left access_step (flat_map accesses cs) s) ty =
  Nat.even (fold_left (fun n c => match c with Swap x => if x =? ty then S n else n | Reset x => if x =? ty then 0 else n end) cs n).
Proof.
  induction cs as [|[x|x] cs IH]; intros s n H; cbn [flat_map accesses app fold_left]; [exact H|apply IH..].
  - cbn. rewrite (Nat.eqb_sym ty x). destruct (Nat.eqb_spec x ty) as [->|N]; [|exact H].
    rewrite H. rewrite Nat.even_succ, <- Nat.negb_even. reflexivity.
  - cbn. rewrite (Nat.eqb_sym ty x). destruct (Nat.eqb_spec x ty) as [->|N]; [reflexivity|exact H].
Qed.

(** C154: whatever the other threads do and however the accesses are interleaved, a thread that has made some
    calls finds the parity of its own swaps of objects of the type since its last reset. *)
Theorem C154_parity tr t ty cs : of_thread t tr = flat_map accesses cs ->
  is_even t ty (run tr) = Nat.even (since_reset ty cs).
Proof.
  intros H. unfold is_even, run. rewrite run_thread, H. apply thread_calls. reflexivity.
Qed.

(** In particular after a reset: the parity of the swaps since. *)
Theorem C154_after_reset tr t ty cs cs' : of_thread t tr = flat_map accesses (cs ++ Reset ty :: cs') -> ~ In (Reset ty) cs' ->
  is_even t ty (run tr) = Nat.even (length (filter (fun c => match c with Swap x => x =? ty | Reset _ => false end) cs')).
Proof.
  intros H N. rewrite (C154_parity tr t ty _ H). unfold since_reset. rewrite fold_left_app. cbn [fold_left]. rewrite Nat.eqb_refl.
  f_equal. clear H. enough (G : forall n, fold_left (fun n c => match c with Swap x => if x =? ty then S n else n | Reset x => if x =? ty then 0 else n end) cs' n
    = n + length (filter (fun c => match c with Swap x => x =? ty | Reset _ => false end) cs')) by (apply (G 0)).
  induction cs' as [|[x|x] cs' IH]; intros n; cbn [fold_left filter].
  - cbn. lia.
  - rewrite IH by (intros G; apply N; right; exact G). destruct (x =? ty); cbn [length]; lia.
  - destruct (Nat.eqb_spec x ty) as [->|_]; [exfalso; apply N; left; reflexivity|]. apply IH. intros G. apply N. right. exact G.
Qed.

Module SwcExamples.
  (** Two threads toggling in between each other's load and store. *)
  Definition trace : list (nat * access) :=
    [(0, StoreTrue 7); (1, Load 7); (0, Load 7); (1, StoreNot 7); (0, StoreNot 7); (0, Load 8); (0, StoreNot 8)].
  Theorem hypotheses_met : of_thread 0 trace = flat_map accesses ([] ++ Reset 7 :: [Swap 7; Swap 8]) /\
    of_thread 1 trace = flat_map accesses [Swap 7] /\ is_even 0 7 (run trace) = false /\ is_even 2 7 (run trace) = true.
  Proof. repeat split; reflexivity. Qed.
End SwcExamples.
