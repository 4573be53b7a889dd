(** Commutators and exponentials in a ring: the Campbell expansion. *)
From Coq Require Import List Bool Arith Lia.
From Verif Require Import Wick_Spec Wick_Ring Lst_Spec.
Import ListNotations.

Section P.
  Context {R : ring}.
  Notation T := (car R).
  Notation "0" := (r0 R) : op_scope.
  Notation "1" := (r1 R) : op_scope.
  Local Open Scope op_scope.

  Lemma sum_to_0 (f : nat -> T) : sum_to O f = f O.
  Proof. unfold sum_to. cbn. ncr. Qed.
  Lemma rsum_app' (l m : list T) : rsum (l ++ m) = rsum l + rsum m.
  Proof. induction l as [|x l IH]; cbn [app rsum fold_right]; [ncr|]. fold (rsum (l ++ m)). fold (rsum l). rewrite IH. ncr. Qed.
  Lemma sum_to_S n (f : nat -> T) : sum_to (S n) f = sum_to n f + f (S n).
  Proof. unfold sum_to. rewrite (seq_S (S n) 0), map_app, rsum_app'. f_equal. cbn. ncr. Qed.
  Lemma sum_to_ext n (f g : nat -> T) : (forall j, (j <= n)%nat -> f j = g j) -> sum_to n f = sum_to n g.
  Proof. intros H. unfold sum_to. f_equal. apply map_ext_in. intros j Hj. apply in_seq in Hj. apply H. lia. Qed.
  Lemma sum_to_add n (f g : nat -> T) : sum_to n (fun j => f j + g j) = sum_to n f + sum_to n g.
  Proof. induction n as [|n IH]; [now rewrite !sum_to_0|]. rewrite !sum_to_S, IH. ncr. Qed.
  Lemma sum_to_mul_l n x (f : nat -> T) : sum_to n (fun j => x * f j) = x * sum_to n f.
  Proof. induction n as [|n IH]; [now rewrite !sum_to_0|]. rewrite !sum_to_S, IH. ncr. Qed.
  Lemma sum_to_mul_r n x (f : nat -> T) : sum_to n (fun j => f j * x) = sum_to n f * x.
  Proof. induction n as [|n IH]; [now rewrite !sum_to_0|]. rewrite !sum_to_S, IH. ncr. Qed.
  Lemma sum_to_first n (f : nat -> T) : sum_to (S n) f = f O + sum_to n (fun j => f (S j)).
  Proof. induction n as [|n IH]; [rewrite sum_to_S, !sum_to_0; ncr|]. rewrite sum_to_S, IH, sum_to_S. ncr. Qed.
  Lemma sum_to_trunc n m (f : nat -> T) : (n <= m)%nat -> (forall j, (n < j)%nat -> f j = 0) -> sum_to m f = sum_to n f.
  Proof. intros L H. induction L as [|m L IH]; auto. rewrite sum_to_S, IH, H by lia. ncr. Qed.
  Lemma sum_to_zero n (f : nat -> T) : (forall j, f j = 0) -> sum_to n f = 0.
  Proof. intros H. rewrite (sum_to_trunc O n f) by (auto; lia). now rewrite sum_to_0. Qed.

  (** summing along diagonals *)
  Lemma triangle (g : nat -> nat -> T) M :
    sum_to M (fun n => sum_to n (fun j => g j (n - j)%nat)) = sum_to M (fun j => sum_to (M - j) (fun l => g j l)).
  Proof.
    induction M as [|M IH]; [reflexivity|]. rewrite (sum_to_S M (fun n => sum_to n _)), IH, !sum_to_S. rewrite Nat.sub_diag, sum_to_0, radd_assoc. f_equal.
    rewrite <- sum_to_add. apply sum_to_ext. intros j Hj. replace (S M - j)%nat with (S (M - j)) by lia. now rewrite sum_to_S.
  Qed.
  Lemma square (g : nat -> nat -> T) N M : (2 * N <= M)%nat -> (forall i j, (N < i \/ N < j)%nat -> g i j = 0) ->
    sum_to M (fun n => sum_to n (fun j => g j (n - j)%nat)) = sum_to N (fun i => sum_to N (g i)).
  Proof.
    intros L H. rewrite triangle. rewrite (sum_to_trunc N M) by (try lia; intros j Hj; apply sum_to_zero; intros; apply H; auto).
    apply sum_to_ext. intros j Hj. apply sum_to_trunc; [lia|]. intros; apply H; auto.
  Qed.

  Lemma times_nat_add m n (x : T) : times_nat (m + n) x = times_nat m x + times_nat n x.
  Proof. induction m as [|m IH]; cbn; [ncr|]. rewrite IH. ncr. Qed.
  Lemma times_nat_mul m n (x : T) : times_nat (m * n) x = times_nat m (times_nat n x).
  Proof. induction m as [|m IH]; cbn; auto. now rewrite times_nat_add, IH. Qed.
  Lemma times_nat_l n (x y : T) : times_nat n x * y = times_nat n (x * y).
  Proof. induction n as [|n IH]; cbn; [ncr|]. rewrite <- IH. ncr. Qed.
  Lemma times_nat_r n (x y : T) : x * times_nat n y = times_nat n (x * y).
  Proof. induction n as [|n IH]; cbn; [ncr|]. rewrite <- IH. ncr. Qed.
  Lemma times_nat_plus n (x y : T) : times_nat n (x + y) = times_nat n x + times_nat n y.
  Proof. induction n as [|n IH]; cbn; [ncr|]. rewrite IH. ncr. Qed.
  Lemma times_nat_sum n m (f : nat -> T) : times_nat m (sum_to n f) = sum_to n (fun j => times_nat m (f j)).
  Proof. induction n as [|n IH]; [now rewrite !sum_to_0|]. now rewrite !sum_to_S, times_nat_plus, IH. Qed.

  Lemma bracket_add b (x y : T) : bracket b (x + y) = bracket b x + bracket b y.
  Proof. unfold bracket, rsub. ncr. Qed.
  Lemma nested_S b n (x : T) : nested b (S n) x = bracket b (nested b n x).
  Proof. reflexivity. Qed.
  Lemma nested_add b n : forall x y : T, nested b n (x + y) = nested b n x + nested b n y.
  Proof. induction n as [|n IH]; intros x y; auto. rewrite !nested_S, IH. apply bracket_add. Qed.
  Lemma bracket_0 (b : T) : bracket b 0 = 0.
  Proof. unfold bracket, rsub. ncr. Qed.
  Lemma nested_0 (b : T) n : nested b n 0 = 0.
  Proof. induction n as [|n IH]; auto. rewrite nested_S, IH. apply bracket_0. Qed.
  Lemma bracket_central (b x : T) : central x -> bracket b x = 0.
  Proof. intros H. unfold bracket, rsub. rewrite H. ncr. Qed.
  Lemma nested_late (b x : T) n m : nested b n x = 0 -> (n <= m)%nat -> nested b m x = 0.
  Proof. intros H L. induction L as [|m L IH]; auto. rewrite nested_S, IH. apply bracket_0. Qed.
  Lemma power_late (b : T) n m : power b n = 0 -> (n <= m)%nat -> power b m = 0.
  Proof. intros H L. induction L as [|m L IH]; auto. cbn. rewrite IH. ncr. Qed.
  Lemma power_r (b : T) n : power b n * b = b * power b n.
  Proof. induction n as [|n IH]; cbn; [ncr|]. rewrite <- rmul_assoc, IH. reflexivity. Qed.
  Lemma power_opp (b : T) n : power b n = 0 -> power (ropp R b) n = 0.
  Proof.
    intros H. assert (G : power (ropp R b) n = power b n \/ power (ropp R b) n = ropp R (power b n)).
    { clear H. induction n as [|n [IH|IH]]; cbn; auto; rewrite IH; [right|left]; ncr. }
    destruct G as [G|G]; rewrite G, H; [reflexivity|ncr].
  Qed.

  Section Campbell.
    Variable c : nat -> T.
    Hypothesis Hc : inverse_factorials c.
    Lemma c_S n : times_nat (S n) (c (S n)) = c n.
    Proof.
      destruct Hc as [_ H]. pose proof (H (S n)) as E1. pose proof (H n) as E0. change (fact (S n)) with (S n * fact n)%nat in E1.
      rewrite Nat.mul_comm, times_nat_mul in E1.
      transitivity (times_nat (fact n) (c n) * times_nat (S n) (c (S n))); [rewrite E0; ncr|].
      rewrite times_nat_l, <- times_nat_r, E1. ncr.
    Qed.
    Lemma c_0 : c O = 1.
    Proof. destruct Hc as [_ H]. specialize (H O). cbn in H. rewrite <- H. ncr. Qed.
    Lemma cancel n (x y : T) : times_nat (S n) x = times_nat (S n) y -> x = y.
    Proof.
      intros H. destruct Hc as [_ Hf]. pose proof (Hf (S n)) as E1. change (fact (S n)) with (S n * fact n)%nat in E1. rewrite Nat.mul_comm, times_nat_mul in E1.
      assert (G : forall z, z = times_nat (fact n) (c (S n)) * times_nat (S n) z).
      { intros z. rewrite times_nat_r, <- times_nat_l. rewrite <- times_nat_mul, Nat.mul_comm, times_nat_mul, E1. ncr. }
      rewrite (G x), (G y), H. reflexivity.
    Qed.

    Lemma swap i j (b y : T) : c i * c j * (b * y) = b * (c i * c j * y).
    Proof. destruct Hc as [Hcen _]. rewrite (rmul_assoc _ b), <- (rmul_assoc _ (c i) (c j)), (rmul_assoc _ (c j) b), (Hcen j b), !rmul_assoc, (Hcen i b). reflexivity. Qed.
    Definition diag (b x : T) (n : nat) : T := sum_to n (fun j => c j * (c (n - j)) * (power (ropp R b) j * x * power b (n - j))).
    Lemma diag_S b x n : times_nat (S n) (diag b x (S n)) = bracket b (diag b x n).
    Proof.
      unfold diag. rewrite times_nat_sum.
      rewrite (sum_to_ext (S n) _ (fun j => times_nat j (c j) * c (S n - j) * (power (ropp R b) j * x * power b (S n - j))
        + c j * times_nat (S n - j) (c (S n - j)) * (power (ropp R b) j * x * power b (S n - j)))).
      2: { intros j Hj. rewrite times_nat_r, !times_nat_l, <- times_nat_add. f_equal. lia. }
      rewrite sum_to_add. unfold bracket, rsub.
      rewrite (sum_to_first n (fun j => times_nat j (c j) * _ * _)), (sum_to_S n (fun j => c j * times_nat (S n - j) _ * _)). rewrite Nat.sub_diag. cbn [times_nat].
      rewrite (sum_to_ext n _ (fun j => ropp R b * (c j * c (n - j) * (power (ropp R b) j * x * power b (n - j))))).
      2: { intros j Hj. change (c (S j) + times_nat j (c (S j))) with (times_nat (S j) (c (S j))). rewrite c_S. cbn [Nat.sub power].
        rewrite <- (swap j (n - j)). now rewrite !rmul_assoc. }
      rewrite (sum_to_ext n (fun j => c j * times_nat (S n - j) _ * _) (fun j => c j * c (n - j) * (power (ropp R b) j * x * power b (n - j)) * b)).
      2: { intros j Hj. replace (S n - j)%nat with (S (n - j)) by lia. rewrite c_S. cbn [power]. rewrite <- power_r. now rewrite !rmul_assoc. }
      rewrite sum_to_mul_l, sum_to_mul_r. ncr.
    Qed.
    Lemma diag_nested b x n : diag b x n = c n * nested b n x.
    Proof.
      induction n as [|n IH].
      - unfold diag. rewrite sum_to_0. cbn [Nat.sub power]. rewrite c_0. change (nested b O x) with x. ncr.
      - apply (cancel n). rewrite diag_S, IH, <- times_nat_l, c_S, nested_S. unfold bracket, rsub.
        destruct Hc as [Hcen _]. rewrite (rmul_assoc _ b), <- (Hcen n b). ncr.
    Qed.
    (** the powers of [b] vanish from the [N+1]-st on, the commutators from the [n+1]-st on *)
    Lemma campbell_exponential b x N n : power b (S N) = 0 -> nested b (S n) x = 0 ->
      campbell c n b x = exponential c N (ropp R b) * x * exponential c N b.
    Proof.
      intros Hb Hx. unfold campbell. set (M := Nat.max n (2 * N)).
      rewrite <- (sum_to_trunc n M) by (try lia; intros j Hj; rewrite (nested_late b x (S n) j Hx) by lia; ncr).
      rewrite (sum_to_ext M _ (diag b x)) by (intros; symmetry; apply diag_nested). unfold diag.
      rewrite (square (fun i j => c i * c j * (power (ropp R b) i * x * power b j)) N M); [|lia|].
      2: { intros i j [H|H]; [rewrite (power_late (ropp R b) (S N) i (power_opp _ _ Hb)) by lia|rewrite (power_late b (S N) j Hb) by lia]; ncr. }
      unfold exponential. rewrite <- rmul_assoc, <- sum_to_mul_r. apply sum_to_ext. intros i _.
      rewrite (rmul_assoc _ _ x), <- sum_to_mul_l. apply sum_to_ext. intros j _.
      destruct Hc as [Hcen _]. rewrite <- !(rmul_assoc _ (c i)). f_equal. rewrite !(rmul_assoc _ _ (c j)), <- (Hcen j). now rewrite !rmul_assoc.
    Qed.

    Lemma campbell_add n b x y : campbell c n b (x + y) = campbell c n b x + campbell c n b y.
    Proof. unfold campbell. rewrite <- sum_to_add. apply sum_to_ext. intros j _. rewrite nested_add. ncr. Qed.
    Lemma campbell_central n b x : central x -> campbell c n b x = x.
    Proof.
      intros H. unfold campbell. rewrite (sum_to_trunc O n) by (try lia; intros j Hj; rewrite (nested_late b x 1 j) by (try lia; now apply bracket_central); ncr).
      rewrite sum_to_0, c_0. change (nested b O x) with x. ncr.
    Qed.
  End Campbell.
End P.
