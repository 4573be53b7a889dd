(** Proofs about factorial: the table is right in every interleaving. *)
From Coq Require Import List Bool Arith ZArith Lia Factorial.
From Verif Require Import Mem_Model Mem_Proofs1.
Import ListNotations.
Local Open Scope Z_scope.

Fixpoint zfact (n : nat) : Z := match n with O => 1 | S m => Z.of_nat (S m) * zfact m end.
Lemma zfact_fact n : zfact n = Z.of_nat (fact n).
Proof. induction n as [|n IH]; [reflexivity|]. cbn [zfact]. rewrite IH, <- Nat2Z.inj_mul. reflexivity. Qed.
Lemma table_fact n : (n <= 20)%nat -> nth n table 0 = zfact n.
Proof. intros H. do 21 (destruct n as [|n]; [vm_compute; reflexivity|]). lia. Qed.

(** The values after the table *)
Definition factorials (l : list Z) : Prop := forall j z, nth_error l j = Some z -> z = zfact (j + 21).
Lemma extended_length m : forall l, length (extended m l) = (m + length l)%nat.
Proof. induction m as [|m IH]; intros l; cbn [extended]; [reflexivity|]. rewrite IH, app_length. cbn. lia. Qed.
Lemma extended_prefix m : forall l, exists l', extended m l = l ++ l'.
Proof.
  induction m as [|m IH]; intros l; cbn [extended]; [exists []; now rewrite app_nil_r|].
  destruct (IH (l ++ [(match length l with O => nth n_max table 0 | _ => last l 0 end) * Z.of_nat (length l + n_max + 1)])) as [l' E]. rewrite E, <- app_assoc. eauto.
Qed.
Lemma last_nth (l : list Z) : l <> [] -> nth_error l (length l - 1) = Some (last l 0).
Proof.
  induction l as [|x [|y l] IH]; intros H; [congruence|reflexivity|]. cbn [length]. replace (S (S (length l)) - 1)%nat with (S (length l)) by lia.
  change (last (x :: y :: l) 0) with (last (y :: l) 0). rewrite <- IH by discriminate. cbn [nth_error length]. f_equal. lia.
Qed.
Lemma extended_factorials m : forall l, factorials l -> factorials (extended m l).
Proof.
  induction m as [|m IH]; intros l HF; cbn [extended]; auto. apply IH. intros j z Hj.
  destruct (Nat.lt_ge_cases j (length l)) as [Hlt|Hge].
  - rewrite nth_error_app1 in Hj by auto. now apply HF.
  - rewrite nth_error_app2 in Hj by auto. destruct (j - length l)%nat as [|d] eqn:Ed; [|destruct d; discriminate]. cbn in Hj. injection Hj as <-.
    assert (j = length l) by lia. subst j. unfold n_max. destruct l as [|x l].
    + vm_compute. reflexivity.
    + assert (HL := last_nth (x :: l) ltac:(discriminate)). apply HF in HL. cbn [length] in *. rewrite HL.
      replace (S (length l) - 1 + 21)%nat with (length l + 21)%nat by lia. replace (S (length l) + 20 + 1)%nat with (S (length l + 21)) by lia. cbn [Nat.add zfact]. ring.
Qed.

(** ** The invariant *)
Definition good_call (s : fstate) (c : fcall) : Prop :=
  match c with
  | Fstart _ => True
  | Fwait n | Flocked n => (20 < n)%nat
  | Fbuilt n l => (20 < n)%nat /\ factorials l /\ (n - 21 < length l)%nat /\ (match memvals s with Some o => exists t, l = o ++ t | None => True end)
  | Fstored n l => (20 < n)%nat /\ factorials l /\ (n - 21 < length l)%nat
  | Freturned n z => z = zfact n
  end.
Definition holds (c : fcall) : bool := match c with Flocked _ | Fbuilt _ _ | Fstored _ _ => true | _ => false end.
Definition holders (l : list fcall) : nat := length (filter holds l).
Record finv (s : fstate) : Prop := {
  finv_table : forall l, memvals s = Some l -> factorials l;
  finv_calls : forall i c, nth_error (fcalls s) i = Some c -> good_call s c;
  finv_lock : holders (fcalls s) = if locked s then 1%nat else 0%nat;
}.
Definition arg (c : fcall) : nat := match c with Fstart n | Fwait n | Flocked n | Fbuilt n _ | Fstored n _ | Freturned n _ => n end.

Lemma holders_set i x c l : nth_error l i = Some c -> (holders (set_call i x l) + (if holds c then 1 else 0) = holders l + (if holds x then 1 else 0))%nat.
Proof.
  revert l. induction i as [|i IH]; intros [|y l] H; try discriminate; cbn in H.
  - injection H as ->. unfold set_call, holders. cbn. destruct (holds c), (holds x); cbn; lia.
  - specialize (IH l H). unfold set_call, holders in *. change (firstn (S i) (y :: l)) with (y :: firstn i l). change (skipn (S (S i)) (y :: l)) with (skipn (S i) l). cbn [app filter]. destruct (holds y); cbn [length]; lia.
Qed.
Lemma holders_in i c l : nth_error l i = Some c -> holds c = true -> (0 < holders l)%nat.
Proof.
  intros H Hc. unfold holders. destruct (filter holds l) eqn:E; [|cbn; lia]. exfalso. assert (In c (filter holds l)) by (apply filter_In; split; auto; now apply nth_error_In in H). rewrite E in H0. destruct H0.
Qed.
Lemma holders_two i j c d l : i <> j -> nth_error l i = Some c -> nth_error l j = Some d -> holds c = true -> holds d = true -> (1 < holders l)%nat.
Proof.
  intros Hn Hi Hj Hc Hd. pose proof (holders_set i (Fstart 0) c l Hi) as G. rewrite Hc in G. cbn in G.
  assert (nth_error (set_call i (Fstart 0) l) j = Some d). { unfold set_call. rewrite nth_update by (now apply nth_bound in Hi). destruct (Nat.eqb_spec j i); [congruence|auto]. }
  pose proof (holders_in j d _ H Hd). lia.
Qed.
Lemma known_factorial s n z : finv s -> (20 < n)%nat -> known (memvals s) (n - n_max - 1) = Some z -> z = zfact n.
Proof.
  intros HI Hn H. unfold known in H. destruct (memvals s) as [l|] eqn:E; [|discriminate]. apply (finv_table _ HI l E) in H. rewrite H. f_equal. unfold n_max. lia.
Qed.
Lemma fstep_inv s i s' : finv s -> fstep s i = Some s' -> finv s'.
Proof.
  intros HI H. unfold fstep in H. destruct (nth_error (fcalls s) i) as [c|] eqn:Ec; [|discriminate].
  assert (Hb : (i < length (fcalls s))%nat) by now apply nth_bound in Ec. pose proof (finv_calls _ HI i c Ec) as Hc. pose proof (finv_lock _ HI) as HL.
  assert (Same : forall lk x, good_call s x -> holders (set_call i x (fcalls s)) = (if lk : bool then 1 else 0)%nat -> finv (mkfstate (memvals s) lk (set_call i x (fcalls s)))).
  { intros lk x Hx Hh. split; cbn [memvals fcalls locked]; [apply (finv_table _ HI)| |exact Hh].
    intros j d Hd. unfold set_call in Hd. rewrite nth_update in Hd by auto. destruct (j =? i)%nat; [injection Hd as <-; exact Hx|exact (finv_calls _ HI j d Hd)]. }
  pose proof (fun x => holders_set i x c _ Ec) as GH.
  destruct c as [n|n|n|n l|n l|n z]; try discriminate; cbn [holds] in GH.
  - destruct (Nat.leb_spec n n_max) as [Hn|Hn].
    + injection H as <-. apply Same; [apply (table_fact n Hn)|]. match goal with |- context [set_call i ?x _] => specialize (GH x) end. cbn [holds] in GH. rewrite <- HL. lia.
    + destruct (known (memvals s) (n - n_max - 1)) as [z|] eqn:Ek; injection H as <-; apply Same.
      * cbn. eapply known_factorial; eauto.
      * specialize (GH (Freturned n z)). cbn [holds] in GH. rewrite <- HL. lia.
      * exact Hn.
      * specialize (GH (Fwait n)). cbn [holds] in GH. rewrite <- HL. lia.
  - destruct (locked s) eqn:El; [discriminate|]. injection H as <-. apply Same; [exact Hc|]. specialize (GH (Flocked n)). cbn [holds] in GH. lia.
  - assert (L1 : locked s = true) by (pose proof (holders_in _ _ _ Ec eq_refl); destruct (locked s); auto; lia).
    destruct (known (memvals s) (n - n_max - 1)) as [z|] eqn:Ek; injection H as <-; apply Same.
    + cbn. eapply known_factorial; eauto.
    + specialize (GH (Freturned n z)). cbn [holds] in GH. rewrite L1 in HL. lia.
    + cbn in Hc |- *. split; auto. split; [|split].
      * apply extended_factorials. destruct (memvals s) as [o|] eqn:Em; [now apply (finv_table _ HI)|]. intros [|j] z; discriminate.
      * rewrite extended_length. unfold known in Ek. unfold n_max in *. destruct (memvals s) as [o|]; [apply nth_error_None in Ek|cbn]; lia.
      * destruct (memvals s) as [o|]; auto. apply extended_prefix.
    + specialize (GH (Fbuilt n (extended (n - n_max - length (match memvals s with Some l => l | None => [] end)) (match memvals s with Some l => l | None => [] end)))). cbn [holds] in GH. rewrite <- HL. lia.
  - injection H as <-. destruct Hc as (Hn & HF & Hlen & Hpre). assert (L1 : locked s = true) by (pose proof (holders_in _ _ _ Ec eq_refl); destruct (locked s); auto; lia).
    split; cbn [memvals fcalls locked].
    + intros l0 E. injection E as <-. exact HF.
    + intros j d Hd. unfold set_call in Hd. rewrite nth_update in Hd by auto. destruct (Nat.eqb_spec j i) as [->|Hj]; [injection Hd as <-; now cbn|].
      pose proof (finv_calls _ HI j d Hd) as G. destruct d as [m|m|m|m l'|m l'|m z]; cbn in G |- *; auto.
      exfalso. pose proof (holders_two i j _ _ _ (not_eq_sym Hj) Ec Hd eq_refl eq_refl). rewrite HL, L1 in H. lia.
    + specialize (GH (Fstored n l)). cbn [holds] in GH. rewrite <- HL. lia.
  - assert (L1 : locked s = true) by (pose proof (holders_in _ _ _ Ec eq_refl); destruct (locked s); auto; lia).
    injection H as <-. destruct Hc as (Hn & HF & Hlen). apply Same.
    + cbn. assert (E : nth_error l (n - n_max - 1) = Some (nth (n - n_max - 1) l 0)) by (apply nth_error_nth'; unfold n_max; lia). apply HF in E. rewrite E. f_equal. unfold n_max. lia.
    + specialize (GH (Freturned n (nth (n - n_max - 1) l 0))). cbn [holds] in GH. rewrite L1 in HL. lia.
Qed.
Lemma frun_inv l : forall s s', finv s -> frun s l = Some s' -> finv s'.
Proof.
  induction l as [|i l IH]; intros s s' HI H; cbn in H; [congruence|]. destruct (fstep s i) as [s1|] eqn:E; [|discriminate]. eapply IH; [|exact H]. eapply fstep_inv; eauto.
Qed.
Lemma fbegin_inv ns : finv (fbegin ns).
Proof.
  split; cbn; [discriminate| |].
  - intros i c H. rewrite nth_error_map in H. destruct (nth_error ns i); [|discriminate]. injection H as <-. exact I.
  - induction ns; auto.
Qed.
Lemma fstep_arg s i s' : fstep s i = Some s' -> map arg (fcalls s') = map arg (fcalls s).
Proof.
  intros H. unfold fstep in H. destruct (nth_error (fcalls s) i) as [c|] eqn:Ec; [|discriminate].
  assert (G : forall x, arg x = arg c -> map arg (set_call i x (fcalls s)) = map arg (fcalls s)).
  { intros x Hx. clear H. revert Ec. generalize (fcalls s). induction i as [|i IH]; intros [|y l] H; try discriminate; cbn in H.
    - injection H as ->. unfold set_call. cbn. now rewrite Hx.
    - specialize (IH l H). unfold set_call in *. change (firstn (S i) (y :: l)) with (y :: firstn i l). change (skipn (S (S i)) (y :: l)) with (skipn (S i) l). cbn [app map]. now rewrite IH. }
  destruct c as [n|n|n|n l|n l|n z]; try discriminate.
  - destruct (Nat.leb n n_max); [injection H as <-; now apply G|]. destruct (known _ _); injection H as <-; now apply G.
  - destruct (locked s); [discriminate|]. injection H as <-. now apply G.
  - destruct (known _ _); injection H as <-; now apply G.
  - injection H as <-. now apply G.
  - injection H as <-. now apply G.
Qed.
Lemma frun_arg l : forall s s', frun s l = Some s' -> map arg (fcalls s') = map arg (fcalls s).
Proof.
  induction l as [|i l IH]; intros s s' H; cbn in H; [congruence|]. destruct (fstep s i) as [s1|] eqn:E; [|discriminate]. apply IH in H. apply fstep_arg in E. congruence.
Qed.
(** The table never loses a value. *)
Lemma fstep_grows s i s' j z : finv s -> fstep s i = Some s' -> known (memvals s) j = Some z -> known (memvals s') j = Some z.
Proof.
  intros HI H Hk. unfold fstep in H. destruct (nth_error (fcalls s) i) as [c|] eqn:Ec; [|discriminate]. pose proof (finv_calls _ HI i c Ec) as Hc.
  destruct c as [n|n|n|n l|n l|n z']; try discriminate.
  - destruct (Nat.leb n n_max); [injection H as <-; auto|]. destruct (known _ (n - _ - _)); injection H as <-; auto.
  - destruct (locked s); [discriminate|]. injection H as <-; auto.
  - destruct (known _ (n - _ - _)); injection H as <-; auto.
  - injection H as <-. cbn. destruct Hc as (_ & _ & _ & Hp). unfold known in Hk. destruct (memvals s) as [o|]; [|discriminate]. destruct Hp as [t ->]. rewrite nth_error_app1; auto. now apply nth_bound in Hk.
  - injection H as <-; auto.
Qed.

(** Somebody can always move. *)
Lemma fprogress s : finv s -> (forall i, fstep s i = None) -> forall i c, nth_error (fcalls s) i = Some c -> exists n z, c = Freturned n z.
Proof.
  intros HI HS.
  assert (G : forall i c, nth_error (fcalls s) i = Some c -> match c with Fwait _ | Freturned _ _ => True | _ => False end).
  { intros i c Ec. specialize (HS i). unfold fstep in HS. rewrite Ec in HS. destruct c as [n|n|n|n l|n l|n z]; auto; try discriminate.
    - destruct (Nat.leb n n_max); [discriminate|]. destruct (known _ _); discriminate.
    - destruct (known _ _); discriminate. }
  assert (L : locked s = false).
  { pose proof (finv_lock _ HI) as HL. destruct (locked s); auto. exfalso. unfold holders in HL. destruct (filter holds (fcalls s)) as [|c t] eqn:E; [discriminate|].
    assert (Hin : In c (filter holds (fcalls s))) by (rewrite E; now left). apply filter_In in Hin as [Hin Hh]. apply In_nth_error in Hin as [i Hi]. specialize (G i c Hi). destruct c; try discriminate; destruct G. }
  intros i c Ec. pose proof (G i c Ec) as Gc. destruct c as [n|n|n|n l|n l|n z]; try (now destruct Gc); [|eauto].
  exfalso. specialize (HS i). unfold fstep in HS. rewrite Ec, L in HS. discriminate.
Qed.
Definition fleft (c : fcall) : nat := match c with Fstart _ => 5 | Fwait _ => 4 | Flocked _ => 3 | Fbuilt _ _ => 2 | Fstored _ _ => 1 | Freturned _ _ => 0 end.
Definition fmeasure (s : fstate) : nat := list_sum (map fleft (fcalls s)).
Lemma fmeasure_set i x c l : nth_error l i = Some c -> (list_sum (map fleft (set_call i x l)) + fleft c = list_sum (map fleft l) + fleft x)%nat.
Proof.
  revert l. induction i as [|i IH]; intros [|y l] H; try discriminate; cbn in H.
  - injection H as ->. unfold set_call. cbn. lia.
  - specialize (IH l H). unfold set_call in *. change (firstn (S i) (y :: l)) with (y :: firstn i l). change (skipn (S (S i)) (y :: l)) with (skipn (S i) l). cbn [app map list_sum fold_right] in *. unfold list_sum in *. lia.
Qed.
Lemma fstep_measure s i s' : fstep s i = Some s' -> (fmeasure s' < fmeasure s)%nat.
Proof.
  intros H. unfold fstep in H. destruct (nth_error (fcalls s) i) as [c|] eqn:Ec; [|discriminate]. pose proof (fun x => fmeasure_set i x c _ Ec) as G. unfold fmeasure.
  destruct c as [n|n|n|n l|n l|n z]; try discriminate.
  - destruct (Nat.leb n n_max); [|destruct (known _ _)]; injection H as <-; cbn [fcalls]; (match goal with |- context [set_call i ?x _] => specialize (G x) end); cbn [fleft] in G; lia.
  - destruct (locked s); [discriminate|]. injection H as <-. cbn [fcalls]. specialize (G (Flocked n)). cbn [fleft] in G. lia.
  - destruct (known _ _); injection H as <-; cbn [fcalls]; (match goal with |- context [set_call i ?x _] => specialize (G x) end); cbn [fleft] in G; lia.
  - injection H as <-. cbn [fcalls]. specialize (G (Fstored n l)). cbn [fleft] in G. lia.
  - injection H as <-. cbn [fcalls]. match goal with |- context [set_call i ?x _] => specialize (G x) end. cbn [fleft] in G. lia.
Qed.
Lemma frun_measure l : forall s s', frun s l = Some s' -> (length l + fmeasure s' <= fmeasure s)%nat.
Proof.
  induction l as [|i l IH]; intros s s' H; cbn in H; [injection H as ->; cbn; lia|]. destruct (fstep s i) as [s1|] eqn:E; [|discriminate]. apply IH in H. apply fstep_measure in E. cbn. lia.
Qed.
