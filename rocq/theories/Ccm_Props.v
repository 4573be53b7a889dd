(** * Properties of the projections *)
From Coq Require Import List Arith Bool Lia.
From Verif Require Import Ccm_Model Ccm_Spec.
Import ListNotations.

Section CcmProps.
  Context {Term K : Type} (up_to exact : nat -> Term -> bool) (av : nat -> list Term -> K).
  Context (kzero : K) (kadd : K -> K -> K) (vev : nat -> Term -> K).
  (** Zero is neutral; expectation values are linear (C151); screened terms vanish (C66). *)
  Context (add_zero : forall a, kadd kzero a = a).
  Context (av_total : forall p l, av p l = total kzero kadd vev p l).
  Context (exact_zero : forall p x, exact p x = false -> vev p x = kzero).
  Context (up_to_zero : forall p q x, up_to q x = false -> p <= q -> vev p x = kzero).
  Notation total := (total kzero kadd vev).
  Notation project := (project up_to exact av).

  Lemma total_filter p f l : (forall x, f x = false -> vev p x = kzero) -> total p (filter f l) = total p l.
  Proof.
    intros H. induction l as [|x l IH]; [reflexivity|]. cbn [filter]. destruct (f x) eqn:E.
    - unfold Ccm_Spec.total in *. cbn [fold_right]. rewrite IH. reflexivity.
    - rewrite IH. unfold Ccm_Spec.total. cbn [fold_right]. rewrite (H x E), add_zero. reflexivity.
  Qed.

  Lemma ranks_S n pmin : ranks (n + pmin) pmin = (n + pmin) :: match n with 0 => [] | S k => ranks (k + pmin) pmin end.
  Proof.
    unfold ranks. replace (S (n + pmin) - pmin) with (S n) by lia. destruct n as [|k].
    - reflexivity.
    - rewrite seq_S, rev_app_distr. cbn [rev app]. f_equal; [lia|]. f_equal. f_equal. lia.
  Qed.

  Lemma le_total (screen : bool) p h q : q <= p -> total q (if screen then filter (up_to p) h else h) = total q h.
  Proof. intros Hq. destruct screen; [apply total_filter; intros x Hx; apply (up_to_zero q p x Hx Hq)|reflexivity]. Qed.
  Lemma vev_total (screen : bool) p h w :
    (if screen then sum_or_null (filter (exact p) (if screen then filter (up_to p) h else h)) else Some h) = Some w -> total p w = total p h.
  Proof.
    destruct screen; [|congruence]. unfold sum_or_null. destruct (filter (exact p) (filter (up_to p) h)) eqn:E; [discriminate|]. intros [= <-].
    rewrite <- E, total_filter by (intros x; apply exact_zero). apply (le_total true). lia.
  Qed.

  (** What the loop has from the terms [h] is what it has from the whole [h0]. *)
  Lemma project_ok screen pmin (h0 : list Term) n : forall h,
    (forall p, p <= n + pmin -> total p h = total p h0) -> forall r, project screen (ranks (n + pmin) pmin) (Some h) = TOk r ->
    map fst r = ranks (n + pmin) pmin /\ (forall p k, In (p, k) r -> k = total p h0).
  Proof.
    induction n as [|n IH]; intros h HT r.
    - rewrite ranks_S; cbn [Ccm_Model.project]; set (p := 0 + pmin) in *;
      set (le := if screen then filter (up_to p) h else h);
      pose proof (fun q Hq => le_total screen p h q Hq) as LE; fold le in LE;
      pose proof (vev_total screen p h) as V; fold le in V;
      destruct (if screen then sum_or_null (filter (exact p) le) else Some h) as [w|] eqn:Ev; try discriminate; specialize (V w eq_refl).
      cbn [Ccm_Model.project]. intros [= <-]. split; [reflexivity|]. intros q k [[= <- <-]|[]]. rewrite av_total, V. apply HT. lia.
    - rewrite ranks_S; cbn [Ccm_Model.project]; set (p := S n + pmin) in *;
      set (le := if screen then filter (up_to p) h else h);
      pose proof (fun q Hq => le_total screen p h q Hq) as LE; fold le in LE;
      pose proof (vev_total screen p h) as V; fold le in V;
      destruct (if screen then sum_or_null (filter (exact p) le) else Some h) as [w|] eqn:Ev; try discriminate; specialize (V w eq_refl).
      destruct (project screen (ranks (n + pmin) pmin) (if screen then sum_or_null le else Some h)) as [r'| |] eqn:E; try discriminate.
      intros [= <-].
      assert (X : exists h', (if screen then sum_or_null le else Some h) = Some h' /\ forall q, q <= n + pmin -> total q h' = total q h0).
      { destruct screen.
        - unfold sum_or_null in *. destruct le as [|y le'] eqn:El; [cbn in Ev; discriminate|]. eexists. split; [reflexivity|].
          intros q Hq. rewrite LE by (unfold p; lia). apply HT. unfold p. lia.
        - eexists. split; [reflexivity|]. intros q Hq. apply HT. unfold p. lia. }
      destruct X as (h' & Eh & Hh). rewrite Eh in E. destruct (IH h' Hh r' E) as (R1 & R2).
      split; [cbn [map fst]; rewrite R1; reflexivity|]. intros q k [[= <- <-]|Hi]; [rewrite av_total, V; apply HT; lia|apply (R2 q k Hi)].
  Qed.

  Lemma in_ranks pmax pmin p : In p (ranks pmax pmin) <-> pmin <= p <= pmax.
  Proof. unfold ranks. rewrite <- in_rev, in_seq. lia. Qed.

  Lemma vector_nth n (r : list (nat * K)) p : p < n ->
    nth_error (vector n r) p = Some (match find (fun x => fst x =? p) r with Some x => Some (snd x) | None => None end).
  Proof.
    intros H. unfold vector. rewrite nth_error_map. assert (E : nth_error (seq 0 n) p = Some p).
    { rewrite (nth_error_nth' _ 0) by (rewrite seq_length; exact H). rewrite seq_nth by exact H. reflexivity. }
    rewrite E. reflexivity.
  Qed.

  Lemma find_rank (r : list (nat * K)) f p : (forall q k, In (q, k) r -> k = f q) ->
    find (fun x => fst x =? p) r = if existsb (Nat.eqb p) (map fst r) then Some (p, f p) else None.
  Proof.
    intros H. induction r as [|(q, k) r IH]; [reflexivity|]. cbn. rewrite (Nat.eqb_sym p q). destruct (Nat.eqb_spec q p) as [->|N]; cbn.
    - rewrite (H p k (or_introl eq_refl)). reflexivity.
    - apply IH. intros q' k' Hi. apply H. right. exact Hi.
  Qed.

  Lemma existsb_ranks pmax pmin p : existsb (Nat.eqb p) (ranks pmax pmin) = (pmin <=? p) && (p <=? pmax).
  Proof.
    apply eq_true_iff_eq. rewrite existsb_exists, andb_true_iff, !Nat.leb_le, <- in_ranks. split.
    - intros (x & H & E). apply Nat.eqb_eq in E. subst x. exact H.
    - intros H. exists p. split; [exact H|apply Nat.eqb_refl].
  Qed.

  (** C157: with or without screening, the result has the equations for the ranks asked for. *)
  Theorem C157_t screen h pmax pmin r : t up_to exact av screen h pmax pmin = TOk r ->
    equations kzero kadd vev h pmax pmin r.
  Proof.
    unfold t. destruct (Nat.leb_spec pmin pmax) as [L|L]; [|discriminate].
    destruct (project screen (ranks pmax pmin) (Some h)) as [q| |] eqn:E; try discriminate. intros [= <-].
    replace pmax with ((pmax - pmin) + pmin) in E by lia.
    destruct (project_ok screen pmin h (pmax - pmin) h (fun p _ => eq_refl) q E) as (R1 & R2).
    replace (pmax - pmin + pmin) with pmax in R1 by lia.
    split; [unfold vector; rewrite map_length, seq_length; reflexivity|]. split; intros p Hp.
    - rewrite vector_nth by lia. rewrite (find_rank q (fun p => total p h) p R2), R1, existsb_ranks.
      rewrite (proj2 (Nat.leb_le pmin p)), (proj2 (Nat.leb_le p pmax)) by lia. reflexivity.
    - intros Hm. rewrite vector_nth by lia. rewrite (find_rank q (fun p => total p h) p R2), R1, existsb_ranks.
      rewrite (proj2 (Nat.leb_gt pmin p)) by lia. reflexivity.
  Qed.

  (** Likewise for [λ], whose element 0 is the pseudoenergy. *)
  Theorem C157_lambda screen h pseudo N r : lambda up_to exact av screen h pseudo N = TOk r ->
    length r = S N /\ nth_error r 0 = Some (Some pseudo) /\ forall p, 1 <= p <= N -> nth_error r p = Some (Some (total p h)).
  Proof.
    unfold lambda. destruct (project screen (ranks N 1) (Some h)) as [q| |] eqn:E; try discriminate. intros [= <-].
    split; [unfold vector; rewrite map_length, seq_length; reflexivity|]. split; [reflexivity|]. intros p Hp.
    rewrite vector_nth by lia. cbn [find fst]. destruct (Nat.eqb_spec 0 p) as [<-|_]; [lia|].
    replace N with ((N - 1) + 1) in E by lia. destruct (project_ok screen 1 h (N - 1) h (fun p _ => eq_refl) q E) as (R1 & R2).
    replace (N - 1 + 1) with N in R1 by lia. rewrite (find_rank q (fun p => total p h) p R2), R1, existsb_ranks.
    rewrite (proj2 (Nat.leb_le 1 p)), (proj2 (Nat.leb_le p N)) by lia. reflexivity.
  Qed.
End CcmProps.

Section CcmNull.
  Context {Term K : Type} (up_to exact : nat -> Term -> bool) (av : nat -> list Term -> K).
  Notation project := (project up_to exact av).

  (** Without screening nothing goes wrong. *)
  Theorem C158_unscreened h pmax pmin : pmin <= pmax -> exists r, t up_to exact av false h pmax pmin = TOk r.
  Proof.
    intros L. unfold t. rewrite (proj2 (Nat.leb_le _ _) L).
    assert (H : forall ps, exists r, project false ps (Some h) = TOk r).
    { induction ps as [|p ps (r & IH)]; [eexists; reflexivity|]. cbn [Ccm_Model.project]. rewrite IH. eexists. reflexivity. }
    destruct (H (ranks pmax pmin)) as (r & ->). eexists. reflexivity.
  Qed.

  Lemma sum_or_null_some (l : list Term) x : In x l -> sum_or_null l = Some l.
  Proof. destruct l; [intros []|reflexivity]. Qed.

  (** What is left of the terms after the ranks above [p]. *)
  Lemma project_reached pmin n : forall h,
    (exists r, project true (ranks (n + pmin) pmin) (Some h) = TOk r) <->
    (forall p, pmin <= p <= n + pmin -> reached up_to exact h (n + pmin) p).
  Proof.
    induction n as [|n IH]; intros h; rewrite ranks_S; cbn [Ccm_Model.project].
    - set (P := 0 + pmin) in *; set (le := filter (up_to P) h). split.
      + intros (r & H) p Hp. replace p with P by (unfold P in *; cbn in *; lia). unfold sum_or_null in H.
        destruct (filter (exact P) le) as [|x l] eqn:E; [discriminate|].
        assert (X : In x (filter (exact P) le)) by (rewrite E; left; reflexivity). apply filter_In in X. destruct X as (X1 & X2).
        apply filter_In in X1. exists x. split; [tauto|]. split; [exact X2|]. intros q Hq. replace q with P by lia. tauto.
      + intros H. destruct (H P) as (x & H1 & H2 & H3); [unfold P; cbn; lia|].
        assert (X : In x (filter (exact P) le)) by (apply filter_In; split; [apply filter_In; split; [exact H1|apply H3; lia]|exact H2]).
        rewrite (sum_or_null_some _ x X). eexists. reflexivity.
    - set (P := S n + pmin) in *; set (le := filter (up_to P) h). split.
      + intros (r & H) p Hp. unfold sum_or_null in H at 1.
        destruct (filter (exact P) le) as [|x l] eqn:E; [discriminate|].
        assert (X : In x (filter (exact P) le)) by (rewrite E; left; reflexivity). apply filter_In in X. destruct X as (X1 & X2).
        rewrite (sum_or_null_some le x X1) in H. apply filter_In in X1.
        destruct (Nat.eq_dec p P) as [->|NE].
        * exists x. split; [tauto|]. split; [exact X2|]. intros q Hq. replace q with P by lia. tauto.
        * assert (G : exists r, project true (ranks (n + pmin) pmin) (Some le) = TOk r).
          { destruct (project true (ranks (n + pmin) pmin) (Some le)) as [q| |]; [exists q; reflexivity|discriminate..]. }
          apply IH with (p := p) in G; [|unfold P in *; lia]. destruct G as (y & Y1 & Y2 & Y3). apply filter_In in Y1.
          exists y. split; [tauto|]. split; [exact Y2|]. intros q Hq. destruct (Nat.eq_dec q P) as [->|NQ]; [tauto|]. apply Y3. unfold P in *. lia.
      + intros H. destruct (H P) as (x & H1 & H2 & H3); [unfold P; lia|].
        assert (X1 : In x le) by (apply filter_In; split; [exact H1|apply H3; lia]).
        assert (X : In x (filter (exact P) le)) by (apply filter_In; split; assumption).
        rewrite (sum_or_null_some _ x X), (sum_or_null_some le x X1).
        assert (G : exists r, project true (ranks (n + pmin) pmin) (Some le) = TOk r).
        { apply IH. intros p Hp. destruct (H p) as (y & Y1 & Y2 & Y3); [unfold P; lia|]. exists y. split; [apply filter_In; split; [exact Y1|apply Y3; unfold P; lia]|].
          split; [exact Y2|]. intros q Hq. apply Y3. unfold P. lia. }
        destruct G as (r & ->). eexists. reflexivity.
  Qed.

  (** With screening the call succeeds exactly if every rank asked for is reached by some term; else a null
      pointer is used. *)
  Theorem C158_screened_partial h pmax pmin : pmin <= pmax ->
    (exists r, t up_to exact av true h pmax pmin = TOk r) <-> (forall p, pmin <= p <= pmax -> reached up_to exact h pmax p).
  Proof.
    intros L. pose proof (project_reached pmin (pmax - pmin) h) as Q. replace (pmax - pmin + pmin) with pmax in Q by lia.
    rewrite <- Q. unfold t. rewrite (proj2 (Nat.leb_le _ _) L). split.
    - intros (r & H). destruct (project true (ranks pmax pmin) (Some h)) as [q| |]; [exists q; reflexivity|discriminate..].
    - intros (q & ->). eexists. reflexivity.
  Qed.
End CcmNull.

Module CcmExamples.
  (** Terms are the ranks they reach; the value of a projection is the number of terms that reach it. *)
  Definition up_to (p x : nat) : bool := x <=? p.
  Definition exact (p x : nat) : bool := x =? p.
  Definition vev (p x : nat) : nat := if x =? p then 1 else 0.
  Definition av (p : nat) (l : list nat) : nat := total 0 Nat.add vev p l.

  Theorem hypotheses_met : (forall p x, exact p x = false -> vev p x = 0) /\
    (forall p q x, up_to q x = false -> p <= q -> vev p x = 0) /\
    t up_to exact av true [0; 1; 2; 2; 3] 2 1 = TOk [None; Some 1; Some 2].
  Proof.
    split; [|split; [|reflexivity]].
    - intros p x H. unfold vev, exact in *. rewrite H. reflexivity.
    - intros p q x H L. unfold up_to in H. apply Nat.leb_gt in H. unfold vev. destruct (Nat.eqb_spec x p); [lia|reflexivity].
  Qed.

  (** A rank that no term reaches: zero without screening, a null pointer with it. *)
  Theorem C158_null_refuted : t up_to exact av false [0; 1; 2] 3 0 = TOk [Some 1; Some 1; Some 1; Some 0] /\
    t up_to exact av true [0; 1; 2] 3 0 = TNull.
  Proof. split; reflexivity. Qed.
End CcmExamples.
