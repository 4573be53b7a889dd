(** permutation_parity on the identity permutation. *)
From Coq Require Import ZArith List Arith Bool Lia.
From Verif Require Import Alg_Model Alg_Spec.
Import ListNotations.
Local Open Scope Z_scope.

Definition iota (n : nat) : list Z := map Z.of_nat (seq 0 n).

Definition shifted (n k : nat) : list Z :=
  map (fun i => if Nat.ltb i k then Z.of_nat i + Z.of_nat n else Z.of_nat i) (seq 0 n).

Lemma lset_map (f : nat -> Z) (g : Z -> Z) (l : list nat) k :
  lset (map f l) k g = map (fun iv => if Nat.eqb (fst iv) k then g (f (snd iv)) else f (snd iv)) (combine (seq 0 (length l)) l).
Proof.
  cut (forall j, lset (map f l) k g =
    map (fun iv => if Nat.eqb (fst iv) (j + k) then g (f (snd iv)) else f (snd iv)) (combine (seq j (length l)) l)).
  { intros H. rewrite (H 0%nat). reflexivity. }
  revert k. induction l as [|x l IH]; intros k j; auto. destruct k as [|k]; cbn [map lset length seq combine fst snd].
  - rewrite Nat.add_0_r, Nat.eqb_refl. f_equal.
    assert (Hl : forall i m (l : list nat), (j < i)%nat -> map f l = map (fun iv => if Nat.eqb (fst iv) j then g (f (snd iv)) else f (snd iv)) (combine (seq i m) l) \/ (m < length l)%nat).
    { clear. intros i m l. revert i m. induction l as [|y l IHl]; intros i [|m] H; cbn; auto; try (right; lia).
      destruct (IHl (S i) m) as [E|E]; [lia| |right; lia]. left. rewrite <- E. destruct (Nat.eqb_spec i j); [lia|auto]. }
    destruct (Hl (S j) (length l) l) as [E|E]; [lia|exact E|lia].
  - destruct (Nat.eqb_spec j (j + S k)); [lia|]. f_equal. rewrite (IH k (S j)). apply map_ext. intros iv.
    replace (S j + k)%nat with (j + S k)%nat by lia. reflexivity.
Qed.

Lemma shifted_step n k : (k < n)%nat -> lset (shifted n k) k (fun e => e + Z.of_nat n) = shifted n (S k).
Proof.
  intros Hk. unfold shifted. rewrite lset_map, seq_length.
  assert (E : forall m j, map (fun iv : nat * nat => if Nat.eqb (fst iv) k
       then (if Nat.ltb (snd iv) k then Z.of_nat (snd iv) + Z.of_nat n else Z.of_nat (snd iv)) + Z.of_nat n
       else if Nat.ltb (snd iv) k then Z.of_nat (snd iv) + Z.of_nat n else Z.of_nat (snd iv)) (combine (seq j m) (seq j m))
     = map (fun i => if Nat.ltb i (S k) then Z.of_nat i + Z.of_nat n else Z.of_nat i) (seq j m)).
  { induction m as [|m IH]; intros j; auto. cbn [seq combine map fst snd]. rewrite IH. f_equal.
    destruct (Nat.eqb_spec j k), (Nat.ltb_spec j k), (Nat.ltb_spec j (S k)); lia. }
  apply E.
Qed.

Lemma shifted_nth n k i : (i < n)%nat ->
  nth_error (shifted n k) i = Some (if Nat.ltb i k then Z.of_nat i + Z.of_nat n else Z.of_nat i).
Proof.
  intros Hi. unfold shifted. rewrite nth_error_map.
  assert (E : nth_error (seq 0 n) i = Some i).
  { rewrite (nth_error_nth' _ 0%nat) by (rewrite seq_length; auto). rewrite seq_nth; auto. }
  rewrite E. reflexivity.
Qed.

Lemma identity_loop n : forall m k par, (k + m = n)%nat ->
  parity_loop (S n) (Z.of_nat n) (seq k m) (shifted n k) par =
  Some (shifted n n, if Nat.even m then par else - par).
Proof.
  induction m as [|m IH]; intros k par Hk; cbn [seq parity_loop].
  - replace n with k at 2 by lia. replace k with n by lia. reflexivity.
  - assert (En : nth k (shifted n k) 0 = Z.of_nat k).
    { apply nth_error_nth. rewrite shifted_nth by lia. rewrite Nat.ltb_irrefl. reflexivity. }
    rewrite En. destruct (Z.leb_spec (Z.of_nat n) (Z.of_nat k)); [lia|].
    cbn [parity_cycle]. rewrite shifted_nth by lia. rewrite Nat.ltb_irrefl. rewrite Nat2Z.id.
    rewrite shifted_nth by lia. rewrite Nat.ltb_irrefl.
    destruct (Z.ltb_spec (Z.of_nat k + Z.of_nat n) (Z.of_nat n)); [lia|].
    rewrite shifted_step by lia. change (Nat.even 2) with true. cbv iota. rewrite IH by lia. f_equal. f_equal.
    rewrite Nat.even_succ, <- Nat.negb_even. destruct (Nat.even m); cbn; lia.
Qed.

Lemma permutation_parity_identity n :
  exists p, permutation_parity (iota n) false = Some (p, if Nat.even n then 1 else -1).
Proof.
  exists (shifted n n). unfold permutation_parity, iota. rewrite map_length, seq_length.
  assert (E : map Z.of_nat (seq 0 n) = shifted n 0) by (apply map_ext; intros; reflexivity).
  rewrite E, (identity_loop n n 0) by lia. destruct (Nat.even n); reflexivity.
Qed.

Lemma iota_sign n : sign (iota n) = 1.
Proof.
  unfold sign. assert (E : inversions Z.ltb (iota n) = 0%nat).
  { unfold iota. assert (G : forall j, inversions Z.ltb (map Z.of_nat (seq j n)) = 0%nat); [|apply G].
    induction n as [|n IH]; intros j; auto. cbn [seq map inversions]. rewrite IH.
    assert (F : forall m i, (j < i)%nat -> filter (fun y => y <? Z.of_nat j) (map Z.of_nat (seq i m)) = []).
    { induction m as [|m IHm]; intros i Hi; auto. cbn [seq map filter].
      destruct (Z.ltb_spec (Z.of_nat i) (Z.of_nat j)); [lia|]. apply IHm. lia. }
    rewrite F by lia. reflexivity. }
  rewrite E. reflexivity.
Qed.
