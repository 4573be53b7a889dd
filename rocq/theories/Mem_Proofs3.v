(** Proofs about memoize, continued: calls come to an end, and nobody waits for ever. *)
From Coq Require Import List Bool Arith Lia Sorted Permutation.
From Verif Require Import Mem_Model Mem_Proofs1 Mem_Proofs2.
Import ListNotations.

Section Memoize.
  Context {V : Type}.
  Variable f : nat -> V.
  Variable grow : nat -> nat.
  Notation state := (@state V).
  Notation step := (step f grow).
  Notation run := (run f grow).
  Notation activity := (@activity V).
  Notation inv := (@inv V f).

  (** ** Whoever waits, some value is being computed *)
  Definition pending (s : state) : Prop := forall i k it, nth_error (acts s) i = Some (Waiting k it) -> exists k', In (k', None) (elems s).
  Lemma step_pending s i b s' : inv s -> pending s -> step s i b = Some s' -> pending s'.
  Proof.
    intros HI HP H j k it Hj. destruct (step_acts f grow s i b s' H) as (a & a' & Ea & _ & Hacts).
    unfold Mem_Model.step in H. rewrite Ea in H. rewrite Hacts in Hj.
    assert (Hl : i < length (acts s)) by now apply nth_bound in Ea.
    assert (G : forall x, nth_error (set_act i x (acts s)) i = Some x) by (intros x; unfold set_act; now rewrite nth_update, Nat.eqb_refl).
    assert (Hown : nth_error (acts s') i = Some a') by (rewrite Hacts, Nat.eqb_refl; auto).
    assert (Hother : (match a with Storing _ _ => False | _ => True end) -> j <> i -> exists k', In (k', None) (elems s)).
    { intros Hx Hn. destruct (Nat.eqb_spec j i); [congruence|]. apply (HP j k it). destruct a; try (now destruct Hx); now destruct (nth_error (acts s) j). }
    destruct a as [k0|k0 it0|k0 it0|k0|k0 v0|k0 r0|k0 v0|k0|k0]; try discriminate.
    - destruct (found k0 (elems s)) eqn:Ef.
      + destruct (found_nth k0 _ Ef) as [o Ho]. rewrite Ho in H. destruct o as [v|]; injection H as <-; cbn [elems acts] in *.
        * rewrite G in Hown. injection Hown as <-. destruct (Nat.eq_dec j i) as [->|Hn]; [rewrite Nat.eqb_refl in Hj; discriminate|auto].
        * exists k0. now apply nth_error_In in Ho.
      + unfold insertion in H. injection H as <-. cbn [elems]. exists k0. apply (proj2 (insert_in _ _ _ _)). now left.
    - destruct b; [|discriminate]. injection H as <-. cbn [elems acts] in *. rewrite G in Hown. injection Hown as <-.
      destruct (Nat.eq_dec j i) as [->|Hn]; [rewrite Nat.eqb_refl in Hj; discriminate|auto].
    - injection H as <-. cbn [elems acts] in *. rewrite G in Hown. injection Hown as <-. destruct (Nat.eq_dec j i) as [->|Hn]; [|auto].
      rewrite Nat.eqb_refl in Hj. unfold deref in Hj. destruct (ibuf it0 =? buffer s); [|discriminate].
      destruct (nth_error (elems s) (ipos it0)) as [[k1 [v|]]|] eqn:En; try discriminate. exists k1. now apply nth_error_In in En.
    - injection H as <-. cbn [elems acts] in *. rewrite G in Hown. injection Hown as <-.
      destruct (Nat.eq_dec j i) as [->|Hn]; [rewrite Nat.eqb_refl in Hj; destruct b; discriminate|auto].
    - exfalso. destruct (Nat.eqb_spec j i) as [->|Hn].
      + destruct (if found k0 (elems s) then _ else _) as [[buf cap] c]. injection H as <-. cbn [acts] in Hown. unfold set_act in Hown.
        rewrite nth_update, Nat.eqb_refl in Hown by now rewrite map_length. rewrite Hj in Hown. discriminate.
      + destruct (nth_error (acts s) j) as [y|]; [|discriminate]. cbn in Hj. destruct y; discriminate.
    - injection H as <-. cbn [elems acts] in *. rewrite G in Hown. injection Hown as <-.
      destruct (Nat.eq_dec j i) as [->|Hn]; [|auto]. rewrite Nat.eqb_refl in Hj. destruct (deref s r0) as [[? [?|]]|]; discriminate.
  Qed.
  Lemma run_pending l : forall s s', inv s -> pending s -> run s l = Some s' -> pending s'.
  Proof.
    induction l as [|[i b] l IH]; intros s s' HI HP H; cbn in H; [injection H as <-; exact HP|]. destruct (step s i b) as [s1|] eqn:E; [|discriminate].
    eapply IH; [|eapply step_pending; eauto|exact H]. eapply step_inv; eauto.
  Qed.
  Lemma start_pending ks : pending (start ks).
  Proof. intros i k it H. cbn in H. rewrite nth_error_map in H. destruct (nth_error ks i); discriminate. Qed.

  (** If nothing can move, every call has returned, unless a computation has failed. *)
  Lemma stuck s : inv s -> pending s -> (forall i, step s i false = None) ->
    (forall i a, nth_error (acts s) i = Some a -> (exists k v, a = Saw k v) \/ (exists k, a = Broken k)) \/ exists i k, nth_error (acts s) i = Some (Failed k).
  Proof.
    intros HI HP HS.
    assert (G : forall i a, nth_error (acts s) i = Some a -> match a with Waiting _ _ | Saw _ _ | Failed _ | Broken _ => True | _ => False end).
    { intros i a Ea. specialize (HS i). unfold Mem_Model.step in HS. rewrite Ea in HS. destruct a as [k|k it|k it|k|k v|k r|k v|k|k]; auto; try discriminate.
      - destruct (found k (elems s)); [|unfold insertion in HS; discriminate]. destruct (nth_error (elems s) (lower_bound k (elems s))) as [[? [?|]]|]; discriminate.
      - destruct (if found k (elems s) then _ else _) as [[? ?] ?]. discriminate. }
    assert (B : forall k, In (k, None) (elems s) -> exists i k, nth_error (acts s) i = Some (Failed k)).
    { intros k Hk. destruct (inv_open _ _ HI k Hk) as (i & a & Ea & Hb). specialize (G i a Ea). destruct a; try (now destruct Hb); try (now destruct G). eauto. }
    assert (D : (exists i k it, nth_error (acts s) i = Some (Waiting k it)) \/ forall i k it, nth_error (acts s) i <> Some (Waiting k it)).
    { clear. induction (acts s) as [|x l IH]; [right; intros [|i]; discriminate|]. destruct IH as [(i & k & it & H)|H]; [left; exists (S i); eauto|].
      destruct x; try (right; intros [|i] k' it'; [discriminate|apply H]). left. exists 0. cbn. eauto. }
    destruct D as [(i & k & it & H)|D]; [right; destruct (HP i k it H) as [k' Hk']; eauto|].
    assert (F : (exists i k, nth_error (acts s) i = Some (Failed k)) \/ forall i k, nth_error (acts s) i <> Some (Failed k)).
    { clear. induction (acts s) as [|x l IH]; [right; intros [|i]; discriminate|]. destruct IH as [(i & k & H)|H]; [left; exists (S i); eauto|].
      destruct x; try (right; intros [|i] k'; [discriminate|apply H]). left. exists 0. cbn. eauto. }
    destruct F as [F|F]; [now right|left]. intros i a Ea. specialize (G i a Ea). destruct a; try (now destruct G); eauto; exfalso; [now apply (D i k it)|now apply (F i k)].
  Qed.

  (** ** Every call ends *)
  Definition early (a : activity) : nat := match a with Calling _ => 3 | Computing _ => 2 | Storing _ _ => 1 | _ => 0 end.
  Definition late (a : activity) : nat := match a with Awake _ _ => 3 | Waiting _ _ => 2 | Holding _ _ => 1 | _ => 0 end.
  Definition total (g : activity -> nat) (l : list activity) : nat := list_sum (map g l).
  Definition measure (n : nat) (s : state) : nat := (n + 2) * total early (acts s) + total late (acts s).
  Lemma total_set g i x a l : nth_error l i = Some a -> total g (set_act i x l) + g a = total g l + g x.
  Proof.
    revert l. induction i as [|i IH]; intros [|y l] H; try discriminate; cbn in H.
    - injection H as ->. unfold set_act, total. cbn. lia.
    - specialize (IH l H). unfold set_act, total in *. change (firstn (S i) (y :: l)) with (y :: firstn i l). change (skipn (S (S i)) (y :: l)) with (skipn (S i) l). cbn [app map list_sum fold_right] in *. unfold list_sum in *. lia.
  Qed.
  Lemma woken_early l : total early (map (@woken V) l) = total early l.
  Proof. unfold total. rewrite map_map. f_equal. apply map_ext. now intros []. Qed.
  Lemma woken_late l : total late (map (@woken V) l) <= total late l + length l.
  Proof. unfold total, list_sum. induction l as [|[] l IH]; [cbn; lia|..]; cbn [map fold_right woken late length]; lia. Qed.
  Lemma step_length s i b s' : step s i b = Some s' -> length (acts s') = length (acts s).
  Proof.
    intros H. unfold Mem_Model.step in H. destruct (nth_error (acts s) i) as [a|] eqn:Ea; [|discriminate].
    assert (Hl : i < length (acts s)) by now apply nth_bound in Ea.
    assert (G : forall x, length (set_act i x (acts s)) = length (acts s)) by (intros; now apply length_update).
    destruct a as [k|k it|k it|k|k v|k r|k v|k|k]; try discriminate.
    - destruct (found k (elems s)).
      + destruct (nth_error (elems s) (lower_bound k (elems s))) as [[? [?|]]|]; injection H as <-; apply G.
      + unfold insertion in H. injection H as <-. apply G.
    - destruct b; [|discriminate]. injection H as <-. apply G.
    - injection H as <-. apply G.
    - injection H as <-. apply G.
    - destruct (if found k (elems s) then _ else _) as [[? ?] ?]. injection H as <-. cbn. unfold set_act. rewrite length_update by now rewrite map_length. apply map_length.
    - injection H as <-. apply G.
  Qed.
  Lemma step_measure s i s' : step s i false = Some s' -> measure (length (acts s)) s' < measure (length (acts s)) s.
  Proof.
    intros H. unfold Mem_Model.step in H. destruct (nth_error (acts s) i) as [a|] eqn:Ea; [|discriminate]. unfold measure.
    pose proof (fun x => total_set early i x a _ Ea) as Ge. pose proof (fun x => total_set late i x a _ Ea) as Gl.
    destruct a as [k|k it|k it|k|k v|k r|k v|k|k]; try discriminate; cbn in Ge, Gl.
    - destruct (found k (elems s)).
      + destruct (nth_error (elems s) (lower_bound k (elems s))) as [[? [?|]]|]; injection H as <-; cbn [acts];
        [set (x := Holding _ _)|set (x := Waiting _ _)|set (x := Waiting _ _)]; specialize (Ge x); specialize (Gl x); cbn in Ge, Gl; nia.
      + unfold insertion in H. injection H as <-. cbn [acts]. set (x := Computing _). specialize (Ge x); specialize (Gl x); cbn in Ge, Gl; nia.
    - injection H as <-. cbn [acts]. set (x := match deref s it with None => _ | Some _ => _ end). specialize (Ge x); specialize (Gl x).
      assert (early x = 0 /\ late x <= 2) as [E1 E2] by (unfold x; destruct (deref s it) as [[? [?|]]|]; cbn; lia). rewrite E1 in Ge. nia.
    - injection H as <-. cbn [acts]. set (x := Storing _ _). specialize (Ge x); specialize (Gl x); cbn in Ge, Gl; nia.
    - assert (Ew : nth_error (map (@woken V) (acts s)) i = Some (Storing k v)) by now rewrite nth_acts_woken, Ea.
      destruct (if found k (elems s) then _ else _) as [[buf ?] ?]. injection H as <-. cbn [acts]. set (x := Holding _ _).
      pose proof (total_set early i x _ _ Ew) as He. pose proof (total_set late i x _ _ Ew) as Hl. cbn in He, Hl. rewrite woken_early in He. pose proof (woken_late (acts s)). nia.
    - injection H as <-. cbn [acts]. set (x := match deref s r with None => _ | Some _ => _ end). specialize (Ge x); specialize (Gl x).
      assert (early x = 0 /\ late x = 0) as [E1 E2] by (unfold x; destruct (deref s r) as [[? [?|]]|]; cbn; lia). rewrite E1 in Ge. rewrite E2 in Gl. nia.
  Qed.
  Lemma run_measure l : forall s s', run s (map (fun i => (i, false)) l) = Some s' -> length l + measure (length (acts s)) s' <= measure (length (acts s)) s.
  Proof.
    induction l as [|i l IH]; intros s s' H; cbn [map Mem_Model.run] in H; [injection H as ->; cbn; lia|]. destruct (step s i false) as [s1|] eqn:E; [|discriminate].
    pose proof (step_measure _ _ _ E) as G. apply IH in H. rewrite (step_length _ _ _ _ E) in H. cbn [length]. lia.
  Qed.
  Lemma start_measure ks : measure (length (acts (start (V := V) ks))) (start ks) = 3 * length ks * (length ks + 2).
  Proof.
    unfold measure. cbn [acts start]. rewrite map_length.
    assert (G : total early (map Calling ks) = 3 * length ks /\ total late (map Calling ks) = 0) by (clear; unfold total, list_sum; induction ks as [|k ks IH]; [split; reflexivity|cbn [map fold_right early late length]; lia]).
    destruct G as [-> ->]. lia.
  Qed.
  (** No computation has failed if none throws. *)
  Lemma run_failed l : forall s s', run s (map (fun i => (i, false)) l) = Some s' -> (forall i k, nth_error (acts s) i <> Some (Failed k)) -> forall i k, nth_error (acts s') i <> Some (Failed k).
  Proof.
    induction l as [|i l IH]; intros s s' H HF; cbn [map Mem_Model.run] in H; [injection H as <-; auto|]. destruct (step s i false) as [s1|] eqn:E; [|discriminate].
    apply IH with (1 := H). intros j k Hj. destruct (step_acts f grow s i false s1 E) as (a & a' & Ea & _ & Hacts).
    assert (Hl : i < length (acts s)) by now apply nth_bound in Ea.
    assert (G : forall x, nth_error (set_act i x (acts s)) i = Some x) by (intros x; unfold set_act; now rewrite nth_update, Nat.eqb_refl).
    destruct (Nat.eq_dec j i) as [->|Hn].
    - unfold Mem_Model.step in E. rewrite Ea in E. destruct a as [k0|k0 it0|k0 it0|k0|k0 v0|k0 r0|k0 v0|k0|k0]; try discriminate.
      + destruct (found k0 (elems s)).
        * destruct (nth_error (elems s) (lower_bound k0 (elems s))) as [[? [?|]]|]; injection E as <-; cbn [acts] in Hj; rewrite G in Hj; discriminate.
        * unfold insertion in E. injection E as <-. cbn [acts] in Hj. rewrite G in Hj. discriminate.
      + injection E as <-. cbn [acts] in Hj. rewrite G in Hj. destruct (deref s it0) as [[? [?|]]|]; discriminate.
      + injection E as <-. cbn [acts] in Hj. rewrite G in Hj. discriminate.
      + destruct (if found k0 (elems s) then _ else _) as [[? ?] ?]. injection E as <-. cbn [acts] in Hj. unfold set_act in Hj. rewrite nth_update, Nat.eqb_refl in Hj by now rewrite map_length. discriminate.
      + injection E as <-. cbn [acts] in Hj. rewrite G in Hj. destruct (deref s r0) as [[? [?|]]|]; discriminate.
    - rewrite Hacts in Hj. destruct (Nat.eqb_spec j i); [congruence|]. destruct (nth_error (acts s) j) as [y|] eqn:Ey; [|discriminate]. cbn in Hj. injection Hj as Hj.
      apply (HF j k). rewrite Ey. f_equal. destruct a; auto. destruct y; auto; discriminate.
  Qed.
End Memoize.
