From Coq Require Import List Arith Bool Lia Ring.
From Verif Require Import Vac_Model Vac_Spec.
Import ListNotations.

Section Pairs.
  Context {Lab Op Nop Atom : Type} (lab_eqb : Lab -> Lab -> bool) (label : Op -> Lab).
  Hypothesis LE : forall a b, lab_eqb a b = true <-> a = b.
  Notation fac := (fac Op Nop Atom).

  Definition at_label (l : Lab) (m : list (Lab * list nat)) : list nat :=
    match lookup lab_eqb l m with Some v => v | None => [] end.

  Lemma add_pos_same l pos m : at_label l (add_pos lab_eqb l pos m) = at_label l m ++ [pos].
  Proof.
    unfold at_label. induction m as [|[k v] m IH]; cbn [add_pos lookup].
    - assert (E : lab_eqb l l = true) by (apply LE; reflexivity). rewrite E. reflexivity.
    - destruct (lab_eqb k l) eqn:E; cbn [lookup]; rewrite E; [reflexivity|]. exact IH.
  Qed.
  Lemma add_pos_other l l' pos m : l <> l' -> at_label l' (add_pos lab_eqb l pos m) = at_label l' m.
  Proof.
    intros N. unfold at_label. induction m as [|[k v] m IH]; cbn [add_pos lookup].
    - destruct (lab_eqb l l') eqn:E; [|reflexivity]. apply LE in E. contradiction.
    - destruct (lab_eqb k l) eqn:E; cbn [lookup].
      + apply LE in E. subst k. destruct (lab_eqb l l') eqn:E'; [|reflexivity]. apply LE in E'. contradiction.
      + destruct (lab_eqb k l'); [reflexivity|exact IH].
  Qed.

  Lemma positions_in (fs : list fac) : forall pos m b l i,
    In i (at_label l (fst (positions lab_eqb label pos fs m b))) <->
    In i (at_label l m) \/ (pos <= i /\ nth_error (operators label fs) (i - pos) = Some (Some l)).
  Proof.
    induction fs as [|f fs IH]; intros pos m b l i; cbn [positions fst].
    - split; [auto|]. intros [H|[_ H]]; [exact H|]. cbn in H. destruct (i - pos); discriminate.
    - destruct f as [o|n|a]; rewrite IH; cbn [operators flat_map app]; fold (operators label fs).
      + assert (Q : In i (at_label l (add_pos lab_eqb (label o) pos m)) <-> In i (at_label l m) \/ (i = pos /\ label o = l)).
        { destruct (lab_eqb (label o) l) eqn:E.
          - apply LE in E. subst l. rewrite add_pos_same, in_app_iff. cbn. intuition.
          - assert (N : label o <> l) by (intros X; apply LE in X; congruence). rewrite add_pos_other by exact N. intuition. }
        rewrite Q. destruct (Nat.eq_dec i pos) as [->|NE].
        * rewrite Nat.sub_diag. cbn [nth_error]. split.
          -- intros [[H|[_ ->]]|[H _]]; [auto| |lia]. right. auto.
          -- intros [H|[_ H]]; [auto|]. injection H as ->. auto.
        * split.
          -- intros [[H|[H _]]|[H1 H2]]; [auto|congruence|]. right. split; [lia|]. replace (i - pos) with (S (i - S pos)) by lia. exact H2.
          -- intros [H|[H1 H2]]; [auto|]. right. split; [lia|]. replace (i - pos) with (S (i - S pos)) in H2 by lia. exact H2.
      + destruct (Nat.eq_dec i pos) as [->|NE].
        * rewrite Nat.sub_diag. cbn [nth_error]. split; [intros [H|[H _]]; [auto|lia]|]. intros [H|[_ H]]; [auto|discriminate].
        * split; (intros [H|[H1 H2]]; [auto|]); right; (split; [lia|]); replace (i - pos) with (S (i - S pos)) in *  by lia; exact H2.
      + reflexivity.
  Qed.

  Lemma lower_in m pairs i j : In (i, j) (lower_label_pairs lab_eqb m pairs) <->
    i < j /\ exists a b, In (a, b) pairs /\ In i (at_label a m) /\ In j (at_label b m).
  Proof.
    unfold lower_label_pairs. rewrite in_flat_map. split.
    - intros [[a b] [Hp H]]. cbn [fst snd] in H. destruct (lookup lab_eqb a m) as [l1|] eqn:E1; [|destruct H].
      destruct (lookup lab_eqb b m) as [l2|] eqn:E2; [|destruct H].
      apply in_flat_map in H. destruct H as [x [Hx H]]. apply in_flat_map in H. destruct H as [y [Hy H]].
      destruct (Nat.ltb_spec x y) as [L|L]; [|destruct H]. destruct H as [H|[]]. injection H as -> ->.
      split; [exact L|]. exists a, b. unfold at_label. rewrite E1, E2. auto.
    - intros (L & a & b & Hp & H1 & H2). exists (a, b). split; [exact Hp|]. cbn [fst snd]. unfold at_label in *.
      destruct (lookup lab_eqb a m) as [l1|]; [|destruct H1]. destruct (lookup lab_eqb b m) as [l2|]; [|destruct H2].
      apply in_flat_map. exists i. split; [exact H1|]. apply in_flat_map. exists j. split; [exact H2|].
      apply Nat.ltb_lt in L. rewrite L. left. reflexivity.
  Qed.

  Lemma lowered_exactly (fs : list fac) pairs b :
    exactly (lower_label_pairs lab_eqb (fst (positions lab_eqb label 0 fs [] b)) pairs) (paired label pairs fs).
  Proof.
    intros i j. rewrite lower_in. unfold paired. split; intros (L & x & y & Hp & H1 & H2); (split; [exact L|]); exists x, y; (split; [exact Hp|]).
    - apply positions_in in H1, H2. rewrite Nat.sub_0_r in *. cbn in H1, H2. intuition.
    - split; apply positions_in; right; rewrite Nat.sub_0_r; (split; [lia|assumption]).
  Qed.

  Lemma ops_only_spec (fs : list fac) : forall pos m b, snd (positions lab_eqb label pos fs m b) = b && forallb (fun f => match f with FOp _ => true | _ => false end) fs.
  Proof.
    induction fs as [|f fs IH]; intros pos m b; cbn [positions snd forallb]; [rewrite andb_true_r; reflexivity|].
    destruct f; rewrite IH; cbn; rewrite ?andb_false_r; reflexivity.
  Qed.
End Pairs.
