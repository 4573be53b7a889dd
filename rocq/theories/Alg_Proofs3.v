(** count_cycles: union-find counts connected components. *)
From Coq Require Import ZArith List Arith Bool Permutation Relations Lia.
From Verif Require Import Alg_Model Alg_Spec.
Import ListNotations.

(* ---------- counting classes ---------- *)
Lemma rel_pigeon {A B : Type} (R : A -> B -> Prop) (l : list A) : forall m : list B,
  NoDup l -> (forall x, In x l -> exists y, In y m /\ R x y) ->
  (forall x x' y, In x l -> In x' l -> R x y -> R x' y -> x = x') ->
  length l <= length m.
Proof.
  induction l as [|a l IH]; intros m ND Tot Inj; [cbn; lia|].
  inversion ND as [|? ? Na Nl]; subst.
  destruct (Tot a) as (b & Hb & Rab); [cbn; auto|].
  apply in_split in Hb. destruct Hb as (m1 & m2 & ->).
  assert (length l <= length (m1 ++ m2)).
  { apply IH; auto.
    - intros x Hx. destruct (Tot x) as (y & Hy & Rxy); [cbn; auto|].
      exists y. split; auto. rewrite in_app_iff in *. cbn in Hy.
      destruct Hy as [?|[<-|?]]; auto. exfalso. apply Na.
      rewrite (Inj a x b); cbn; auto.
    - intros x x' y Hx Hx'. apply Inj; cbn; auto. }
  rewrite app_length in *. cbn. lia.
Qed.

Lemma linked_trans E X x y z : linked E X x y -> linked E X y z -> linked E X x z.
Proof. intros. eapply rst_trans; eauto. Qed.
Lemma linked_sym E X x y : linked E X x y -> linked E X y x.
Proof. intros. apply rst_sym. auto. Qed.

Lemma n_classes_unique E X n m : n_classes E X n -> n_classes E X m -> n = m.
Proof.
  assert (H : forall n m, n_classes E X n -> n_classes E X m -> n <= m).
  { clear. intros n m (r & <- & N1 & I1 & C1 & D1) (s & <- & N2 & I2 & C2 & D2).
    apply (rel_pigeon (linked E X)); auto.
    intros x x' y Hx Hx' H1 H2. apply D1; auto. eapply linked_trans; eauto. apply linked_sym; auto. }
  intros. apply Nat.le_antisymm; auto.
Qed.

(** Classes only depend on the generated equivalence. *)
Lemma n_classes_ext E F X n :
  (forall x y, In x X -> In y X -> (linked E X x y <-> linked F X x y)) ->
  n_classes E X n -> n_classes F X n.
Proof.
  intros H (r & L & N & I & C & D). exists r. repeat split; auto.
  - intros x Hx. destruct (C x Hx) as (s & Hs & Ls). exists s. split; auto. apply H; auto.
  - intros a b Ha Hb Hab. apply D; auto. apply H; auto.
Qed.

Lemma rst_incl (R S : nat -> nat -> Prop) x y :
  (forall a b, R a b -> clos_refl_sym_trans nat S a b) ->
  clos_refl_sym_trans nat R x y -> clos_refl_sym_trans nat S x y.
Proof.
  intros H C. induction C; auto.
  - apply rst_refl.
  - apply rst_sym. auto.
  - eapply rst_trans; eauto.
Qed.

(* ---------- union-find ---------- *)
Definition conn (p : nat -> nat) : nat -> nat -> Prop := clos_refl_sym_trans nat (fun x y => p x = y).

Definition valid (d p : nat -> nat) (b n : nat) : Prop :=
  (forall x, p x <> x -> d (p x) < d x) /\ (forall x, p x = x -> d x = 0) /\ (forall x, d x <= b) /\
  (forall x, x < n -> p x < n).

Lemma conn_step p x : conn p x (p x).
Proof. apply rst_step. reflexivity. Qed.

Lemma halve d p b n x : valid d p b n -> p x <> x -> let p' := pset p x (p (p x)) in
  valid d p' b n /\ (forall u v, conn p' u v <-> conn p u v) /\ (forall y, p' y = y <-> p y = y).
Proof.
  intros (V1 & V2 & V3 & V4) Hx p'.
  assert (Dx : d (p (p x)) < d x).
  { pose proof (V1 x Hx). destruct (Nat.eq_dec (p (p x)) (p x)) as [E|E]; [rewrite E; auto|].
    pose proof (V1 (p x) E). lia. }
  assert (Hr : forall y, p' y = y <-> p y = y).
  { intros y. unfold p', pset. destruct (Nat.eqb_spec y x) as [->|]; [|tauto].
    split; [|contradiction]. intros E. rewrite E in Dx. lia. }
  split; [split; [|split; [|split]]|split; auto].
  - intros y. unfold p', pset. destruct (Nat.eqb_spec y x) as [Ey|Ey]; [rewrite Ey; intros _; exact Dx|apply V1].
  - intros y Hy. apply V2, Hr. auto.
  - auto.
  - intros y Hy. unfold p', pset. destruct (Nat.eqb_spec y x) as [->|]; auto.
  - intros u v. split; apply rst_incl; intros a c <-.
    + unfold p', pset. destruct (Nat.eqb_spec a x) as [->|]; [|apply conn_step].
      eapply rst_trans; apply conn_step.
    + destruct (Nat.eq_dec a x) as [->|N].
      * assert (E1 : p' x = p (p x)) by (unfold p', pset; rewrite Nat.eqb_refl; auto).
        assert (E2 : p' (p x) = p (p x)) by (unfold p', pset; destruct (Nat.eqb_spec (p x) x); congruence).
        eapply rst_trans; [apply (conn_step p')|]. rewrite E1, <- E2. apply rst_sym. apply (conn_step p').
      * assert (E : p' a = p a) by (unfold p', pset; destruct (Nat.eqb_spec a x); congruence).
        rewrite <- E. apply (conn_step p').
Qed.

Lemma find_ok fuel : forall d p b n x, valid d p b n -> d x < fuel ->
  exists p' r, uf_find fuel p x = Some (p', r) /\ valid d p' b n /\
    (forall u v, conn p' u v <-> conn p u v) /\ (forall y, p' y = y <-> p y = y) /\
    p' r = r /\ conn p x r /\ (x < n -> r < n).
Proof.
  induction fuel as [|f IH]; intros d p b n x V Hd; [lia|]. cbn [uf_find].
  destruct (Nat.eqb_spec (p x) x) as [E|E].
  - exists p, x. split; auto. split; auto. split; [tauto|]. split; [tauto|]. split; auto. split; auto. apply rst_refl.
  - destruct (halve d p b n x V E) as (V' & C' & R').
    set (p1 := pset p x (p (p x))) in *.
    assert (Ex : p1 x = p (p x)) by (unfold p1, pset; rewrite Nat.eqb_refl; auto).
    destruct (IH d p1 b n (p1 x) V') as (p' & r & H1 & H2 & H3 & H4 & H5 & H6 & H7).
    + destruct V' as (V1 & _). assert (p1 x <> x) by (intros F; apply R' in F; auto). pose proof (V1 x H). lia.
    + exists p', r. split; auto. split; auto. split.
      { intros u v. rewrite H3. apply C'. } split.
      { intros y. rewrite H4. apply R'. } split; auto. split.
      { apply C'. eapply rst_trans; [apply (conn_step p1)|exact H6]. }
      { intros Hx. apply H7. destruct V' as (_ & _ & _ & V4). apply V4. auto. }
Qed.

Inductive reaches (p : nat -> nat) : nat -> nat -> Prop :=
| r_here x : p x = x -> reaches p x x
| r_step x r : p x <> x -> reaches p (p x) r -> reaches p x r.

Lemma reaches_total d p b n : valid d p b n -> forall x, exists r, reaches p x r.
Proof.
  intros (V1 & _) x. remember (d x) as k eqn:E. revert x E.
  induction k as [k IH] using lt_wf_ind. intros x ->.
  destruct (Nat.eq_dec (p x) x) as [E|E]; [exists x; constructor; auto|].
  destruct (IH _ (V1 x E) (p x) eq_refl) as (r & Hr). exists r. apply r_step; auto.
Qed.

Lemma reaches_fun p x r s : reaches p x r -> reaches p x s -> r = s.
Proof.
  intros H. induction H as [x Hx|x r Hx H IH]; intros H'; inversion H'; subst; auto; contradiction.
Qed.

Lemma reaches_root p x r : reaches p x r -> p r = r.
Proof. intros H. induction H; auto. Qed.

Lemma reaches_conn p x y : conn p x y -> forall r, reaches p x r <-> reaches p y r.
Proof.
  intros C. induction C as [x y E|x|x y C IH|x y z C1 IH1 C2 IH2]; intros r.
  - subst y. destruct (Nat.eq_dec (p x) x) as [E|E]; [rewrite E; tauto|].
    split; intros H; [inversion H; subst; auto; contradiction|apply r_step; auto].
  - tauto.
  - symmetry. apply IH.
  - rewrite IH1. apply IH2.
Qed.

Lemma reaches_is_conn p x r : reaches p x r -> conn p x r.
Proof. intros H. induction H; [apply rst_refl|]. eapply rst_trans; [apply conn_step|auto]. Qed.

Lemma roots_conn p r s : p r = r -> p s = s -> conn p r s -> r = s.
Proof.
  intros Hr Hs C. pose proof (proj1 (reaches_conn p r s C r) (r_here p r Hr)) as H.
  inversion H; subst; auto. contradiction.
Qed.

(** the edges united so far *)
Definition edges (es : list (nat * nat)) : nat -> nat -> Prop :=
  clos_refl_sym_trans nat (fun x y => In (x, y) es).

Definition uf_inv (es : list (nat * nat)) (p : nat -> nat) (b n : nat) : Prop :=
  (exists d, valid d p b n) /\ (forall u v, conn p u v <-> edges es u v).

Lemma reaches_dec d p b n y : valid d p b n -> forall x, reaches p x y \/ ~ reaches p x y.
Proof.
  intros V x. destruct (reaches_total d p b n V x) as (r & Hr).
  destruct (Nat.eq_dec r y) as [->|N]; auto. right. intros H. apply N. eapply reaches_fun; eauto.
Qed.

Fixpoint root_of (k : nat) (p : nat -> nat) (x : nat) : nat :=
  match k with O => x | S k' => root_of k' p (p x) end.
Lemma root_of_reaches d p b n : valid d p b n -> forall k x, d x <= k -> reaches p x (root_of k p x).
Proof.
  intros (V1 & V2 & _). induction k as [|k IH]; intros x Hx; cbn.
  - destruct (Nat.eq_dec (p x) x) as [E|E]; [constructor; auto|]. pose proof (V1 x E). lia.
  - destruct (Nat.eq_dec (p x) x) as [E|E].
    + rewrite E. apply IH. rewrite (V2 x E). lia.
    + apply r_step; auto. apply IH. pose proof (V1 x E). lia.
Qed.

Lemma unite_ok fuel es p b n a c : uf_inv es p b n -> b < fuel -> a < n -> c < n ->
  exists p', uf_unite fuel p a c = Some p' /\ uf_inv ((a, c) :: es) p' (S b) n.
Proof.
  intros ((d & V) & C) Hf Ha Hc. unfold uf_unite.
  assert (Dl : forall x, d x < fuel) by (intros x; destruct V as (_ & _ & V3 & _); specialize (V3 x); lia).
  destruct (find_ok fuel d p b n c V (Dl c)) as (p1 & rc & -> & V1 & C1 & R1 & F1 & K1 & N1).
  destruct (find_ok fuel d p1 b n a V1 (Dl a)) as (p2 & ra & -> & V2 & C2 & R2 & F2 & K2 & N2).
  exists (pset p2 ra rc). split; auto. set (p3 := pset p2 ra rc).
  assert (Rc : p2 rc = rc) by (apply R2; auto).
  assert (Cp2 : forall u v, conn p2 u v <-> edges es u v) by (intros; rewrite C2, C1; apply C).
  assert (Ka : conn p2 a ra) by (apply C2; auto).
  assert (Kc : conn p2 c rc) by (apply C2, C1; auto).
  assert (E3 : forall x, x <> ra -> p3 x = p2 x) by (intros x N; unfold p3, pset; destruct (Nat.eqb_spec x ra); congruence).
  assert (Era : p3 ra = rc) by (unfold p3, pset; rewrite Nat.eqb_refl; auto).
  split.
  - destruct (Nat.eq_dec ra rc) as [E|E].
    + exists d. destruct V2 as (A1 & A2 & A3 & A4).
      assert (Ee : forall x, p3 x = p2 x) by (intros x; destruct (Nat.eq_dec x ra) as [Ex|]; [rewrite Ex; congruence|auto]).
      split; [|split; [|split]]; intros x; rewrite ?Ee; auto.
    + exists (fun x => if Nat.eqb (root_of b p2 x) ra then S (d x) else d x).
      pose proof (root_of_reaches d p2 b n V2 b) as RR. destruct V2 as (A1 & A2 & A3 & A4).
      assert (RR' : forall x, reaches p2 x (root_of b p2 x)) by (intros; apply RR; auto).
      assert (Rr : root_of b p2 rc = rc) by (eapply reaches_fun; [apply RR'|constructor; auto]).
      assert (Rar : root_of b p2 ra = ra) by (eapply reaches_fun; [apply RR'|constructor; auto]).
      split; [|split; [|split]].
      * intros x Hx. destruct (Nat.eq_dec x ra) as [Ex|N]; [subst x|].
        -- rewrite Era, Rr, Rar. rewrite Nat.eqb_refl. destruct (Nat.eqb_spec rc ra); [congruence|].
           rewrite (A2 rc Rc). lia.
        -- rewrite E3 in * by auto. specialize (A1 x Hx).
           assert (root_of b p2 (p2 x) = root_of b p2 x).
           { eapply reaches_fun; [apply RR'|]. apply (reaches_conn p2 x (p2 x)); [apply conn_step|apply RR']. }
           rewrite H. destruct (Nat.eqb _ _); lia.
      * intros x Hx. destruct (Nat.eq_dec x ra) as [Ex|N]; [subst x; congruence|]. rewrite E3 in Hx by auto.
        assert (root_of b p2 x = x) by (eapply reaches_fun; [apply RR'|constructor; auto]).
        rewrite H. destruct (Nat.eqb_spec x ra); [congruence|auto].
      * intros x. specialize (A3 x). destruct (Nat.eqb _ _); lia.
      * intros x Hx. unfold p3, pset. destruct (Nat.eqb_spec x ra); auto.
  - intros u v. split.
    + apply rst_incl. intros x y <-. destruct (Nat.eq_dec x ra) as [->|N].
      * rewrite Era. assert (M : forall x y, conn p2 x y -> edges ((a, c) :: es) x y).
        { intros x y H. apply Cp2 in H. revert H. apply rst_incl. intros s t H. apply rst_step. cbn. auto. }
        eapply rst_trans; [apply rst_sym, M, Ka|]. eapply rst_trans; [apply rst_step; cbn; left; reflexivity|]. apply M. auto.
      * rewrite E3 by auto. pose proof (proj1 (Cp2 x (p2 x)) (conn_step p2 x)) as H. revert H.
        apply rst_incl. intros s t H. apply rst_step. cbn. auto.
    + assert (M : forall x y, conn p2 x y -> conn p3 x y).
      { intros x y. apply rst_incl. intros s t <-. destruct (Nat.eq_dec s ra) as [->|N].
        - rewrite F2. apply rst_refl.
        - rewrite <- (E3 s N). apply conn_step. }
      apply rst_incl. intros x y [H|H].
      * injection H as <- <-. eapply rst_trans; [apply M, Ka|].
        eapply rst_trans; [apply (conn_step p3 ra)|]. rewrite Era. apply rst_sym, M, Kc.
      * apply M, Cp2. apply rst_step. auto.
Qed.

Lemma edges_same es es' : (forall e, In e es <-> In e es') -> forall u v, edges es u v <-> edges es' u v.
Proof. intros H u v. split; apply rst_incl; intros x y E; apply rst_step; apply H; auto. Qed.

Lemma uf_inv_weaken es es' p b b' n : (forall e, In e es <-> In e es') -> b <= b' -> uf_inv es p b n -> uf_inv es' p b' n.
Proof.
  intros H L ((d & V1 & V2 & V3 & V4) & C). split.
  - exists d. split; [|split; [|split]]; auto. intros x. specialize (V3 x). lia.
  - intros u v. rewrite C. apply edges_same. auto.
Qed.

Lemma columns_ok fuel n0 n cols : forall es p b, uf_inv es p b n -> b + length cols <= fuel ->
  (forall i, In i cols -> i < n /\ n0 + i < n) ->
  exists p', uf_columns fuel p n0 cols = Some p' /\
    uf_inv (map (fun i => (i, n0 + i)) cols ++ es) p' (b + length cols) n.
Proof.
  induction cols as [|i cols IH]; intros es p b I Hf Hr; cbn [uf_columns].
  - exists p. split; auto. cbn. eapply uf_inv_weaken; [..|exact I]; [tauto|lia].
  - cbn in Hf. destruct (unite_ok fuel es p b n i (n0 + i) I) as (p1 & -> & I1); [lia|apply Hr; cbn; auto..|].
    destruct (IH _ p1 (S b) I1) as (p2 & E2 & I2); [lia|intros; apply Hr; cbn; auto|].
    exists p2. split; auto. cbn [map length]. eapply uf_inv_weaken; [..|exact I2]; [|lia].
    intros e. cbn [app In]. rewrite !in_app_iff. cbn [In]. tauto.
Qed.

Lemma add_slots_ok fuel n vs : forall done es m p b,
  uf_inv es p b n -> b + length vs <= fuel ->
  (forall v s, In (v, s) (done ++ vs) -> s < n) ->
  (forall v s, lookup_slot m v = Some s -> In (v, s) done) ->
  (forall v s, In (v, s) done -> exists s0, lookup_slot m v = Some s0 /\ (s0 = s \/ In (s0, s) es)) ->
  exists p' m' es', uf_add_slots fuel (p, m) vs = Some (p', m') /\
    uf_inv (es' ++ es) p' (b + length vs) n /\
    (forall x y, In (x, y) es' -> exists v, In (v, x) (done ++ vs) /\ In (v, y) (done ++ vs)) /\
    (forall v s, In (v, s) (done ++ vs) -> exists s0, lookup_slot m' v = Some s0 /\ (s0 = s \/ In (s0, s) (es' ++ es))).
Proof.
  induction vs as [|(v, s) vs IH]; intros done es m p b I Hf Hr Hm Hd; cbn [uf_add_slots fst snd].
  - exists p, m, []. rewrite app_nil_r in *. split; [auto|]. split; [|split; [contradiction|auto]].
    cbn [app length]. eapply uf_inv_weaken; [..|exact I]; [tauto|lia].
  - cbn in Hf. destruct (lookup_slot m v) as [s0|] eqn:L.
    + assert (Is : In (v, s) (done ++ (v, s) :: vs)) by (apply in_or_app; cbn; auto).
      assert (Is0 : In (v, s0) (done ++ (v, s) :: vs)) by (apply in_or_app; left; apply Hm; auto).
      destruct (unite_ok fuel es p b n s0 s I) as (p1 & -> & I1); [lia|eapply Hr; eauto..|].
      destruct (IH (done ++ [(v, s)]) ((s0, s) :: es) m p1 (S b) I1) as (p' & m' & es' & E & I' & A & B).
      * lia.
      * intros v' s'. rewrite <- app_assoc. cbn [app]. apply Hr.
      * intros v' s' H. apply in_or_app. left. auto.
      * intros v' s' H. apply in_app_iff in H. destruct H as [H|[H|[]]].
        -- destruct (Hd v' s' H) as (t & T1 & T2). exists t. split; auto. cbn. tauto.
        -- injection H as <- <-. exists s0. split; auto. cbn. auto.
      * rewrite <- app_assoc in A, B. cbn [app] in A, B.
        exists p', m', (es' ++ [(s0, s)]). split; auto. split; [|split].
        -- rewrite <- app_assoc. cbn [app length]. eapply uf_inv_weaken; [..|exact I']; [tauto|lia].
        -- intros x y H. apply in_app_iff in H. destruct H as [H|[H|[]]]; auto.
           injection H as <- <-. exists v. auto.
        -- intros v' s' H. rewrite <- app_assoc. cbn [app]. auto.
    + destruct (IH (done ++ [(v, s)]) es ((v, s) :: m) p b I) as (p' & m' & es' & E & I' & A & B).
      * lia.
      * intros v' s'. rewrite <- app_assoc. cbn [app]. apply Hr.
      * intros v' s' H. cbn in H. destruct (Nat.eqb_spec v' v) as [->|N].
        -- injection H as ->. apply in_or_app. cbn. auto.
        -- apply in_or_app. left. auto.
      * intros v' s' H. apply in_app_iff in H. cbn [lookup_slot]. destruct (Nat.eqb_spec v' v) as [->|N].
        -- destruct H as [H|[H|[]]].
           ++ destruct (Hd v s' H) as (t & T1 & _). congruence.
           ++ injection H as <-. exists s. auto.
        -- destruct H as [H|[H|[]]]; [auto|]. injection H as H _. congruence.
      * rewrite <- app_assoc in A, B. cbn [app] in A, B.
        exists p', m', es'. split; auto. split; [|split]; auto.
        cbn [length]. eapply uf_inv_weaken; [..|exact I']; [tauto|lia].
Qed.

Lemma count_ok fuel d b n slots : forall p, valid d p b n -> b < fuel ->
  uf_count fuel p slots = Some (length (filter (fun i => Nat.eqb (p i) i) slots)).
Proof.
  induction slots as [|i slots IH]; intros p V Hb; auto. cbn [uf_count].
  destruct (find_ok fuel d p b n i V) as (p' & r & -> & V' & C & R & Fr & K & _).
  { destruct V as (_ & _ & V3 & _). specialize (V3 i). lia. }
  rewrite (IH p' V' Hb). cbn [option_map filter].
  assert (E : filter (fun j => Nat.eqb (p' j) j) slots = filter (fun j => Nat.eqb (p j) j) slots).
  { apply filter_ext. intros j. destruct (Nat.eqb_spec (p j) j) as [e|e], (Nat.eqb_spec (p' j) j) as [e'|e']; auto.
    - apply R in e. contradiction.
    - apply R in e'. contradiction. }
  rewrite E. destruct (Nat.eqb_spec (p i) i) as [e|e].
  - assert (r = i). { symmetry. apply (roots_conn p); auto. apply R. auto. } subst r. rewrite Nat.eqb_refl. reflexivity.
  - destruct (Nat.eqb_spec r i) as [->|]; [|reflexivity]. apply R in Fr. contradiction.
Qed.

Lemma combine_seq_In (l : list nat) : forall k v s,
  In (v, s) (combine l (seq k (length l))) <-> k <= s /\ nth_error l (s - k) = Some v.
Proof.
  induction l as [|x l IH]; intros k v s; cbn [length seq combine].
  - cbn. split; [contradiction|]. intros (_ & H). destruct (s - k); discriminate.
  - cbn [In]. rewrite IH. split.
    + intros [H|(H1 & H2)].
      * injection H as <- <-. rewrite Nat.sub_diag. auto.
      * split; [lia|]. replace (s - k) with (S (s - S k)) by lia. auto.
    + intros (H1 & H2). destruct (Nat.eq_dec s k) as [->|N].
      * rewrite Nat.sub_diag in H2. cbn in H2. left. congruence.
      * right. split; [lia|]. replace (s - k) with (S (s - S k)) in H2 by lia. auto.
Qed.

Lemma slots_In (v0 v1 : list nat) v s :
  In (v, s) (combine v0 (seq 0 (length v0)) ++ combine v1 (seq (length v0) (length v1)))
  <-> nth_error (v0 ++ v1) s = Some v.
Proof.
  rewrite in_app_iff, !combine_seq_In, Nat.sub_0_r.
  destruct (le_lt_dec (length v0) s) as [L|L].
  - rewrite nth_error_app2 by auto. split; [|auto]. intros [(_ & H)|(_ & H)]; auto.
    assert (s < length v0) by (apply nth_error_Some; congruence). lia.
  - rewrite nth_error_app1 by auto. split; [intros [(_ & H)|(H & _)]; [auto|lia]|]. intros. left. split; [lia|auto].
Qed.

Lemma count_cycles_ok v0 v1 : length v0 = length v1 ->
  exists c, count_cycles v0 v1 = Some c /\
    n_classes (slot_edge v0 v1) (seq 0 (length v0 + length v1)) c.
Proof.
  intros Hl. unfold count_cycles. rewrite <- Hl, Nat.min_id. set (n0 := length v0). set (n := n0 + n0).
  set (fuel := S (n + n)).
  assert (I0 : uf_inv [] (fun x => x) 0 n).
  { split.
    - exists (fun _ => 0). repeat split; auto; congruence.
    - intros u v. split; apply rst_incl; intros x y H; [subst; apply rst_refl|destruct H]. }
  destruct (columns_ok fuel n0 n (seq 0 n0) [] _ 0 I0) as (p1 & -> & I1).
  { rewrite seq_length. unfold fuel, n. lia. }
  { intros i Hi. apply in_seq in Hi. unfold n. lia. }
  rewrite seq_length in I1. cbn [Nat.add] in I1. rewrite app_nil_r in I1.
  set (vs := combine v0 (seq 0 n0) ++ combine v1 (seq n0 n0)).
  assert (Hvs : forall v s, In (v, s) vs <-> nth_error (v0 ++ v1) s = Some v).
  { intros v s. unfold vs, n0. rewrite Hl at 3. apply slots_In. }
  assert (Lvs : length vs = n).
  { unfold vs, n, n0. rewrite app_length, !combine_length, !seq_length, <- Hl. lia. }
  assert (Bd : forall s v, nth_error (v0 ++ v1) s = Some v -> s < n).
  { intros s v H. assert (s < length (v0 ++ v1)) by (apply nth_error_Some; congruence). rewrite app_length, <- Hl in H0. exact H0. }
  destruct (add_slots_ok fuel n vs [] _ [] p1 n0 I1) as (p2 & m2 & es & -> & I2 & A & B).
  { rewrite Lvs. unfold fuel, n. lia. }
  { cbn [app]. intros v s H. apply Hvs in H. eapply Bd; eauto. }
  { cbn. discriminate. }
  { cbn. contradiction. }
  cbn [app] in A, B. destruct I2 as ((d & V) & C).
  rewrite (count_ok fuel d (n0 + length vs) n _ p2 V) by (rewrite Lvs; unfold fuel, n; lia).
  eexists. split; [reflexivity|].
  set (ces := map (fun i => (i, n0 + i)) (seq 0 n0)) in *.
  (* the generated equivalences agree *)
  assert (Eq : forall u v, conn p2 u v <-> linked (slot_edge v0 v1) (seq 0 n) u v).
  { intros u v. rewrite C. split; apply rst_incl; intros x y H.
    - apply rst_step. apply in_app_iff in H. destruct H as [H|H].
      + destruct (A x y H) as (w & H1 & H2). apply Hvs in H1, H2. rewrite !in_seq.
        pose proof (Bd _ _ H1). pose proof (Bd _ _ H2). split; [lia|]. split; [lia|]. right. congruence.
      + apply in_map_iff in H. destruct H as (i & E & Hi). injection E as <- <-. apply in_seq in Hi. rewrite !in_seq.
        unfold n. split; [lia|]. split; [lia|]. left. reflexivity.
    - destruct H as (Hx & Hy & [->|H]).
      + apply in_seq in Hy. apply rst_step. apply in_app_iff. right. apply in_map_iff. exists x. split; auto.
        apply in_seq. fold n0 in Hy. unfold n in Hy. lia.
      + destruct (nth_error (v0 ++ v1) x) as [w|] eqn:Ex.
        2:{ apply nth_error_None in Ex. apply in_seq in Hx. rewrite app_length, <- Hl in Ex. fold n0 in Ex. fold n in Ex. lia. }
        symmetry in H. apply Hvs in Ex, H. destruct (B _ _ Ex) as (s & S1 & S2). destruct (B _ _ H) as (t & T1 & T2).
        assert (s = t) by congruence. subst t.
        assert (M : forall z, s = z \/ In (s, z) (es ++ ces) -> edges (es ++ ces) s z).
        { intros z [->|Hz]; [apply rst_refl|apply rst_step; auto]. }
        eapply rst_trans; [apply rst_sym, M, S2|apply M, T2]. }
  exists (filter (fun i => Nat.eqb (p2 i) i) (seq 0 n)). split; auto. split; [|split; [|split]].
  - apply NoDup_filter, seq_NoDup.
  - intros x Hx. apply filter_In in Hx. tauto.
  - intros x Hx. apply in_seq in Hx. destruct (reaches_total d p2 _ n V x) as (r & Hr). exists r. split.
    + apply filter_In. split; [|apply Nat.eqb_eq; eapply reaches_root; eauto].
      assert (r < n); [|apply in_seq; lia]. destruct V as (_ & _ & _ & V4). clear - Hr V4 Hx.
      assert (x < n) by lia. clear Hx. induction Hr; auto.
    + apply Eq. apply reaches_is_conn. auto.
  - intros r s Hr Hs L. apply filter_In in Hr, Hs. destruct Hr as (_ & Hr), Hs as (_ & Hs).
    apply Nat.eqb_eq in Hr, Hs. apply (roots_conn p2); auto. apply Eq. auto.
Qed.

(* ---------- columns ---------- *)
Section Columns.
  Variables v0 v1 : list nat.
  Hypothesis Hl : length v0 = length v1.
  Let n := length v0.
  Let col (s : nat) : nat := if Nat.ltb s n then s else s - n.

  Lemma col_lt s : s < n + n -> col s < n.
  Proof. unfold col. destruct (Nat.ltb_spec s n); lia. Qed.

  Lemma col_value s v : s < n + n -> nth_error (v0 ++ v1) s = Some v ->
    nth_error v0 (col s) = Some v \/ nth_error v1 (col s) = Some v.
  Proof.
    intros Hs H. unfold col. destruct (Nat.ltb_spec s n).
    - left. rewrite nth_error_app1 in H; auto.
    - right. rewrite nth_error_app2 in H; auto.
  Qed.

  Let SX := seq 0 (length v0 + length v1).
  Let CX := seq 0 n.

  Lemma slot_to_col s t : linked (slot_edge v0 v1) SX s t -> linked (share_value v0 v1) CX (col s) (col t).
  Proof.
    intros H. induction H as [s t (Hs & Ht & E)|s|s t H IH|s t u H1 IH1 H2 IH2].
    - unfold SX in Hs, Ht. rewrite <- Hl in Hs, Ht. fold n in Hs, Ht. apply in_seq in Hs, Ht.
      destruct E as [E|E].
      + assert (col t = col s).
        { subst t. fold n. unfold col. fold n in Ht. destruct (Nat.ltb_spec (n + s) n), (Nat.ltb_spec s n); lia. }
        rewrite H. apply rst_refl.
      + destruct (nth_error (v0 ++ v1) s) as [v|] eqn:Ev.
        * apply rst_step. unfold CX. split; [|split].
          -- pose proof (col_lt s). apply in_seq. lia.
          -- pose proof (col_lt t). apply in_seq. lia.
          -- exists v. split; apply col_value; auto; lia.
        * exfalso. apply nth_error_None in Ev. rewrite app_length, <- Hl in Ev. fold n in Ev. lia.
    - apply rst_refl.
    - apply rst_sym. auto.
    - eapply rst_trans; eauto.
  Qed.

  Lemma slot_col s : In s SX -> linked (slot_edge v0 v1) SX s (col s).
  Proof.
    intros Hs. pose proof Hs as Hs'. unfold SX in Hs. apply in_seq in Hs. rewrite <- Hl in Hs. fold n in Hs.
    unfold col. destruct (Nat.ltb_spec s n); [apply rst_refl|].
    apply rst_sym, rst_step. split; [|split]; auto.
    - unfold SX. rewrite <- Hl. fold n. apply in_seq. lia.
    - left. fold n. lia.
  Qed.

  Lemma col_to_slot i j : linked (share_value v0 v1) CX i j -> linked (slot_edge v0 v1) SX i j.
  Proof.
    apply rst_incl. intros x y (Hx & Hy & v & Vx & Vy). unfold CX in *. apply in_seq in Hx, Hy.
    assert (K : forall x, x < n -> nth_error v0 x = Some v \/ nth_error v1 x = Some v ->
      exists s, In s SX /\ nth_error (v0 ++ v1) s = Some v /\ linked (slot_edge v0 v1) SX x s).
    { intros z Hz [H|H].
      - exists z. split; [|split].
        + unfold SX. rewrite <- Hl. fold n. apply in_seq. lia.
        + rewrite nth_error_app1; auto.
        + apply rst_refl.
      - exists (n + z). split; [|split].
        + unfold SX. rewrite <- Hl. fold n. apply in_seq. lia.
        + rewrite nth_error_app2 by (fold n; lia). fold n. replace (n + z - n) with z by lia. auto.
        + apply rst_step. split; [|split].
          * unfold SX. rewrite <- Hl. fold n. apply in_seq. lia.
          * unfold SX. rewrite <- Hl. fold n. apply in_seq. lia.
          * left. reflexivity. }
    destruct (K x) as (s & S1 & S2 & S3); [lia|auto|]. destruct (K y) as (t & T1 & T2 & T3); [lia|auto|].
    eapply rst_trans; [exact S3|]. eapply rst_trans; [|apply rst_sym; exact T3].
    apply rst_step. split; auto. split; auto. right. congruence.
  Qed.

  Lemma classes_columns c : n_classes (slot_edge v0 v1) SX c -> n_classes (share_value v0 v1) CX c.
  Proof.
    intros (reps & L & N & I & Cv & D). exists (map col reps).
    assert (Inj : forall r s, In r reps -> In s reps -> linked (share_value v0 v1) CX (col r) (col s) -> r = s).
    { intros r s Hr Hs H. apply D; auto. apply col_to_slot in H.
      eapply linked_trans; [apply slot_col; apply I; auto|].
      eapply linked_trans; [exact H|]. apply linked_sym. apply slot_col; apply I; auto. }
    split; [rewrite map_length; auto|]. split; [|split; [|split]].
    - clear - N Inj. induction reps as [|r reps IH]; cbn; [constructor|]. inversion N; subst. constructor.
      + intros H. apply in_map_iff in H. destruct H as (s & E & Hs).
        assert (r = s). { apply Inj; cbn; auto. rewrite E. apply rst_refl. } subst. contradiction.
      + apply IH; auto. intros a b Ha Hb. apply Inj; cbn; auto.
    - intros x Hx. apply in_map_iff in Hx. destruct Hx as (r & <- & Hr). apply I in Hr.
      unfold SX in Hr. apply in_seq in Hr. rewrite <- Hl in Hr. fold n in Hr. pose proof (col_lt r). unfold CX. apply in_seq. lia.
    - intros x Hx. unfold CX in Hx. apply in_seq in Hx.
      assert (Hs : In x SX) by (unfold SX; rewrite <- Hl; fold n; apply in_seq; lia).
      destruct (Cv x Hs) as (r & Hr & Lr). exists (col r). split; [apply in_map; auto|].
      apply slot_to_col in Lr. assert (col x = x) by (unfold col; destruct (Nat.ltb_spec x n); lia). rewrite H in Lr. auto.
    - intros r s Hr Hs H. apply in_map_iff in Hr, Hs. destruct Hr as (r' & <- & Hr'), Hs as (s' & <- & Hs').
      f_equal. apply Inj; auto.
  Qed.
End Columns.

Lemma count_cycles_columns v0 v1 : length v0 = length v1 ->
  exists c, count_cycles v0 v1 = Some c /\ n_classes (share_value v0 v1) (seq 0 (length v0)) c.
Proof.
  intros Hl. destruct (count_cycles_ok v0 v1 Hl) as (c & E & N). exists c. split; auto.
  apply classes_columns; auto.
Qed.

Lemma count_cycles_orientation v0 v1 w0 w1 :
  length v0 = length v1 -> length w0 = length v0 -> length w1 = length v1 ->
  (forall i, (nth_error w0 i = nth_error v0 i /\ nth_error w1 i = nth_error v1 i) \/
             (nth_error w0 i = nth_error v1 i /\ nth_error w1 i = nth_error v0 i)) ->
  count_cycles w0 w1 = count_cycles v0 v1.
Proof.
  intros H1 H2 H3 Sw. destruct (count_cycles_columns v0 v1 H1) as (c & E & N).
  destruct (count_cycles_columns w0 w1) as (c' & E' & N'); [congruence|]. rewrite E, E'. f_equal.
  rewrite H2 in N'. eapply n_classes_unique; [exact N'|]. eapply n_classes_ext; [|exact N].
  assert (K : forall i j, share_value v0 v1 i j <-> share_value w0 w1 i j).
  { intros i j. unfold share_value.
    split; intros (v & Hi & Hj); exists v; destruct (Sw i) as [(A & B)|(A & B)], (Sw j) as [(C & D)|(C & D)];
      rewrite ?A, ?B, ?C, ?D in *; tauto. }
  intros x y _ _. split; apply rst_incl; intros a b (Ha & Hb & H); apply rst_step; split; auto; split; auto; apply K; auto.
Qed.

Lemma nth_error_inj (l : list nat) i j v : NoDup l -> nth_error l i = Some v -> nth_error l j = Some v -> i = j.
Proof.
  intros N Hi Hj. rewrite NoDup_nth_error in N. apply N; [apply nth_error_Some; congruence|congruence].
Qed.

Lemma count_cycles_perm v0 v1 : NoDup v0 -> Permutation v0 v1 ->
  exists c, count_cycles v0 v1 = Some c /\ n_classes (maps_to v0 v1) (seq 0 (length v0)) c.
Proof.
  intros N P. assert (Hl : length v0 = length v1) by (apply Permutation_length; auto).
  assert (N1 : NoDup v1) by (eapply Permutation_NoDup; eauto).
  destruct (count_cycles_columns v0 v1 Hl) as (c & E & C). exists c. split; auto.
  eapply n_classes_ext; [|exact C]. intros x y _ _.
  split; apply rst_incl; intros a b (Ha & Hb & v & H1 & H2).
  - destruct H1 as [H1|H1], H2 as [H2|H2].
    + rewrite (nth_error_inj v0 a b v N H1 H2). apply rst_refl.
    + apply rst_sym, rst_step. split; auto. split; auto. exists v. auto.
    + apply rst_step. split; auto. split; auto. exists v. auto.
    + rewrite (nth_error_inj v1 a b v N1 H1 H2). apply rst_refl.
  - apply rst_step. split; auto. split; auto. exists v. auto.
Qed.
