From Coq Require Import List Arith Bool Lia.
From Verif Require Import Hug_Model Hug_Spec Hug_Proofs Hug_Props Nop_Model Nop_Spec.
Import ListNotations.

Section Proofs.
  Context {Index Vac Hash : Type} (ieqb type_eqb : Index -> Index -> bool)
          (veqb : Vac -> Vac -> bool) (heqb : Hash -> Hash -> bool) (chk : bool) (hash : list (op Index) -> Hash).
  Notation op := (op Index).
  Notation nop := (nop Index Vac Hash).
  Notation ncall := (ncall Index).
  Notation do_ncall := (do_ncall type_eqb heqb chk hash).
  Notation do_ncalls := (do_ncalls type_eqb heqb chk hash).

  Lemma op_equivalence : equivalence type_eqb -> equivalence (op_type_eqb type_eqb).
  Proof.
    intros (R & S & T). unfold op_type_eqb. split; [|split].
    - intros a. rewrite Bool.eqb_reflx, R. reflexivity.
    - intros a b H. apply andb_prop in H. destruct H as [H1 H2]. apply Bool.eqb_prop in H1. rewrite H1, Bool.eqb_reflx, (S _ _ H2). reflexivity.
    - intros a b c H K. apply andb_prop in H, K. destruct H as [H1 H2], K as [K1 K2]. apply Bool.eqb_prop in H1, K1.
      rewrite H1, K1, Bool.eqb_reflx, (T _ _ _ H2 K2). reflexivity.
  Qed.

  Lemma count_app (l m : list op) : count_creators (l ++ m) = count_creators l + count_creators m.
  Proof. unfold count_creators. rewrite filter_app, app_length. reflexivity. Qed.
  Lemma count_cons o (m : list op) : count_creators (o :: m) = (if creates o then 1 else 0) + count_creators m.
  Proof. unfold count_creators. cbn. destruct (creates o); reflexivity. Qed.
  Lemma count_sum (l : list op) : count_creators l + count_annihilators l = length l.
  Proof. unfold count_creators, count_annihilators. induction l as [|o l IH]; cbn; [reflexivity|]. destruct (creates o); cbn; lia. Qed.
  Lemma count_rev (l : list op) : count_creators (rev l) = count_creators l.
  Proof. induction l as [|o l IH]; [reflexivity|]. cbn [rev]. rewrite count_app, !count_cons, IH. unfold count_creators at 2. cbn. lia. Qed.
  Lemma count_adj (l : list op) : count_creators (map op_adjoint l) = count_annihilators l.
  Proof. unfold count_creators, count_annihilators. induction l as [|o l IH]; cbn; [reflexivity|]. destruct (creates o); cbn; rewrite IH; reflexivity. Qed.
  Lemma count_trf f (l : list op) : count_creators (map (fun o => mkOp (creates o) (fst (f (index o) : Index * bool))) l) = count_creators l.
  Proof. unfold count_creators. induction l as [|o l IH]; cbn; [reflexivity|]. destruct (creates o); cbn; rewrite IH; reflexivity. Qed.
  Lemma count_all (b : bool) (l : list op) : Forall (fun o => creates o = b) l -> count_creators l = if b then length l else 0.
  Proof. unfold count_creators. induction 1 as [|o l Ho F IH]; cbn; [destruct b; reflexivity|]. rewrite Ho. destruct b; cbn; lia. Qed.

  (** The sequence, the count of creators and the vacuum. *)
  Lemma call_counts c (n n' : nop) : do_ncall c n = NOk n' -> ncreators_ n = count_creators (ops n) ->
    neffect c (ops n) = Some (ops n') /\ ncreators_ n' = count_creators (ops n') /\ vacuum n' = vacuum n.
  Proof.
    intros H K. destruct c as [i o|i| |f| |]; cbn [Nop_Model.do_ncall neffect] in *.
    - unfold nop_insert in H. destruct (Nat.ltb_spec (length (ops n)) i) as [L|L]; [discriminate|].
      destruct (on_hug _ _); try discriminate. injection H as <-. cbn [ops ncreators_ vacuum].
      destruct (Nat.leb_spec i (length (ops n))); [|lia]. split; [reflexivity|]. split; [|reflexivity].
      rewrite count_app, count_cons. rewrite K. pose proof (count_app (firstn i (ops n)) (skipn i (ops n))) as Q. rewrite firstn_skipn in Q. destruct (creates o); lia.
    - unfold nop_erase in H. destruct (nth_error (ops n) i) as [o|] eqn:N; [|discriminate].
      destruct (on_hug _ _); try discriminate. injection H as <-. cbn [ops ncreators_ vacuum].
      assert (L : i < length (ops n)) by (apply nth_error_Some; congruence). apply Nat.ltb_lt in L. rewrite L.
      split; [reflexivity|]. split; [|reflexivity]. destruct (nth_error_split _ _ N) as [u [w [E EL]]]. rewrite E in *. subst i.
      pose proof (cut_mid u w o) as Q. cbn [skipn] in Q |- *. rewrite Q. rewrite K, !count_app, count_cons. destruct (creates o); lia.
    - injection H as <-. cbn [nop_adjoint ops ncreators_ vacuum]. split; [reflexivity|]. split; [|reflexivity].
      rewrite count_adj, K. pose proof (count_sum (rev (ops n))) as S. rewrite count_rev, rev_length in S. lia.
    - injection H as <-. cbn [nop_transform fst ops ncreators_ vacuum]. split; [reflexivity|]. split; [|reflexivity].
      rewrite K. symmetry. apply count_trf.
    - unfold get_hug in H. destruct (hug_ n); [injection H as <-; auto|]. destruct (make_vertex _ _ _); try discriminate.
      injection H as <-. auto.
    - unfold hash_value in H. destruct (hash_value_ n); [destruct (chk && _); [discriminate|]; injection H as <-; auto|].
      injection H as <-. auto.
  Qed.

  Lemma calls_counts cs : forall n n' : nop, do_ncalls cs n = NOk n' -> ncreators_ n = count_creators (ops n) ->
    neffects cs (ops n) = Some (ops n') /\ ncreators_ n' = count_creators (ops n') /\ vacuum n' = vacuum n.
  Proof.
    induction cs as [|c cs IH]; intros n n' H K; cbn [Nop_Model.do_ncalls neffects] in *.
    - injection H as <-. auto.
    - destruct (do_ncall c n) as [n1| | |] eqn:E; try discriminate.
      destruct (call_counts c n n1 E K) as (A & B & C). rewrite A. destruct (IH n1 n' H B) as (A' & B' & C'). rewrite C', C. auto.
  Qed.

  Lemma make_counts (cre ann : list Index) (v : Vac) : ncreators_ (make_nop (Hash := Hash) cre ann v) = count_creators (ops (make_nop (Hash := Hash) cre ann v)).
  Proof.
    cbn [make_nop ncreators_ ops]. rewrite count_app. rewrite (count_all true (map (mkOp true) cre)), (count_all false (map (mkOp false) (rev ann))).
    - rewrite map_length. lia.
    - apply Forall_forall. intros o H. apply in_map_iff in H. destruct H as [x [<- _]]. reflexivity.
    - apply Forall_forall. intros o H. apply in_map_iff in H. destruct H as [x [<- _]]. reflexivity.
  Qed.

  Lemma filter_all (p : op -> bool) l : Forall (fun o => p o = true) l -> filter p l = l.
  Proof. induction 1 as [|o l Ho F IH]; cbn; [reflexivity|]. rewrite Ho, IH. reflexivity. Qed.
  Lemma filter_none (p : op -> bool) l : Forall (fun o => p o = false) l -> filter p l = [].
  Proof. induction 1 as [|o l Ho F IH]; cbn; [reflexivity|]. rewrite Ho, IH. reflexivity. Qed.

  Lemma ordered_views (n : nop) : ncreators_ n = count_creators (ops n) -> normal_ordered (ops n) ->
    creators n = filter creates (ops n) /\ annihilators n = rev (filter (fun o => negb (creates o)) (ops n)).
  Proof.
    intros K (c & a & E & Fc & Fa). unfold creators, annihilators, nannihilators, ncreators. rewrite K, E.
    rewrite count_app, (count_all true c Fc), (count_all false a Fa), Nat.add_0_r.
    rewrite !filter_app, (filter_all creates c Fc), (filter_none creates a Fa).
    rewrite (filter_none (fun o => negb (creates o)) c), (filter_all (fun o => negb (creates o)) a).
    - rewrite app_nil_r. cbn [app]. split.
      + rewrite firstn_app, Nat.sub_diag, firstn_all. cbn. apply app_nil_r.
      + rewrite app_length, rev_app_distr. replace (length c + length a - length c) with (length (rev a)) by (rewrite rev_length; lia).
        rewrite firstn_app, Nat.sub_diag, firstn_all. cbn. apply app_nil_r.
    - revert Fa. apply Forall_impl. intros o ->. reflexivity.
    - revert Fc. apply Forall_impl. intros o ->. reflexivity.
  Qed.

  (** ** The Hugenholtz vertex *)
  Section Hug.
    Hypothesis EQ : equivalence type_eqb.
    Let OE := op_equivalence EQ.

    Definition hinv (n : nop) : Prop := match hug_ n with None => True | Some v => inv (op_type_eqb type_eqb) (ops n) v end.

    Lemma inv_map (g : op -> op) es v : (forall o, op_type_eqb type_eqb o (g o) = true) ->
      inv (op_type_eqb type_eqb) es v -> inv (op_type_eqb type_eqb) (map g es) v.
    Proof.
      intros Hg (A & B & C & D).
      assert (R : forall r o, op_type_eqb type_eqb r (g o) = op_type_eqb type_eqb r o).
      { intros r o. rewrite (eq_sym_ _ OE r (g o)), (eq_sym_ _ OE r o). symmetry. apply (eq_left _ OE). apply Hg. }
      assert (G : forall rs o, gidx (op_type_eqb type_eqb) rs (g o) = gidx (op_type_eqb type_eqb) rs o).
      { intros rs o. induction rs as [|r rs IH]; cbn; [reflexivity|]. rewrite R, IH. reflexivity. }
      assert (P : forall b r l, pos (op_type_eqb type_eqb) b r (map g l) = pos (op_type_eqb type_eqb) b r l).
      { intros b r l. revert b. induction l as [|x l IH]; intros b; cbn; [reflexivity|]. rewrite R, IH. reflexivity. }
      split; [|split; [|split]].
      - rewrite map_map, A. apply map_ext. intros o. symmetry. apply G.
      - apply Forall_forall. intros o Ho. apply in_map_iff in Ho. destruct Ho as [x [<- Hx]]. rewrite G.
        rewrite Forall_forall in B. apply B. exact Hx.
      - exact C.
      - revert D. apply Forall_impl. intros x ->. symmetry. apply P.
    Qed.

    Lemma call_hug c (n : nop) l : hinv n -> keeps_types type_eqb c -> neffect c (ops n) = Some l -> (c = NHash -> hash_value_ n = None \/ hash_value_ n = Some (hash (ops n)) \/ chk = false) ->
      (forall h, heqb h h = true) ->
      exists n', do_ncall c n = NOk n' /\ ops n' = l /\ hinv n'.
    Proof.
      intros H KT E HH HR. destruct c as [i o|i| |f| |]; cbn [Nop_Model.do_ncall neffect] in *.
      - destruct (Nat.leb_spec i (length (ops n))) as [L|L]; [|discriminate]. injection E as <-.
        unfold nop_insert. destruct (Nat.ltb_spec (length (ops n)) i); [lia|]. unfold hinv in H. destruct (hug_ n) as [v|]; cbn [on_hug].
        + destruct (call_ok _ OE chk (CIns i o) (ops n) _ v H ltac:(cbn; destruct (Nat.leb_spec i (length (ops n))); [reflexivity|lia])) as [v' [A B]].
          cbn [do_call] in A. rewrite A. eexists. split; [reflexivity|]. split; [reflexivity|exact B].
        + eexists. split; [reflexivity|]. split; [reflexivity|exact Logic.I].
      - destruct (Nat.ltb_spec i (length (ops n))) as [L|L]; [|discriminate]. injection E as <-.
        unfold nop_erase. destruct (nth_error (ops n) i) as [o|] eqn:N; [|apply nth_error_None in N; lia].
        unfold hinv in H. destruct (hug_ n) as [v|]; cbn [on_hug].
        + destruct (call_ok _ OE chk (CErs i o) (ops n) (firstn i (ops n) ++ skipn (S i) (ops n)) v H) as [v' [A B]].
          { unfold effect. rewrite N. rewrite (eq_refl_ _ OE o). reflexivity. }
          cbn [do_call] in A. rewrite A. eexists. split; [reflexivity|]. split; [reflexivity|exact B].
        + eexists. split; [reflexivity|]. split; [reflexivity|exact Logic.I].
      - injection E as <-. eexists. split; [reflexivity|]. split; [reflexivity|exact Logic.I].
      - injection E as <-. eexists. split; [reflexivity|]. split; [reflexivity|]. unfold hinv in *. cbn [nop_transform fst hug_ ops].
        destruct (hug_ n) as [v|]; [|exact Logic.I]. apply inv_map; [|exact H]. intros o. unfold op_type_eqb. cbn [creates index].
        rewrite Bool.eqb_reflx. apply KT.
      - injection E as <-. unfold get_hug, hinv in *. destruct (hug_ n) as [v|] eqn:HN.
        + eexists. split; [reflexivity|]. split; [reflexivity|]. rewrite HN. exact H.
        + destruct (add_edges_ok _ OE chk (ops n) [] empty_vertex (empty_inv _)) as [v [A B]]. cbn [length] in A. unfold make_vertex. rewrite A.
          eexists. split; [reflexivity|]. split; [reflexivity|exact B].
      - injection E as <-. unfold hash_value. destruct (HH eq_refl) as [Q|[Q|Q]].
        + rewrite Q. eexists. split; [reflexivity|]. split; [reflexivity|exact H].
        + rewrite Q, HR, andb_false_r. eexists. split; [reflexivity|]. split; [reflexivity|exact H].
        + rewrite Q. cbn [andb]. destruct (hash_value_ n); eexists; (split; [reflexivity|]); (split; [reflexivity|exact H]).
    Qed.

    Lemma hug_shown (n : nop) : hinv n -> exists n' v, get_hug type_eqb chk n = NOk (n', v) /\ ops n' = ops n /\ shows (op_type_eqb type_eqb) chk v (ops n).
    Proof.
      unfold get_hug, hinv. destruct (hug_ n) as [v|].
      - intros H. exists n, v. split; [reflexivity|]. split; [reflexivity|]. apply inv_shows; assumption.
      - intros _. destruct (add_edges_ok _ OE chk (ops n) [] empty_vertex (empty_inv _)) as [v [A B]]. cbn [length] in A. unfold make_vertex. rewrite A.
        eexists. exists v. split; [reflexivity|]. split; [reflexivity|]. apply inv_shows; assumption.
    Qed.

    Definition hashok (n : nop) : Prop := hash_value_ n = None \/ hash_value_ n = Some (hash (ops n)).

    Lemma calls_hug_nohash cs : forall (n : nop) l, hinv n -> Forall (keeps_types type_eqb) cs -> forallb (fun c => negb (hashes c)) cs = true ->
      neffects cs (ops n) = Some l -> (forall h, heqb h h = true) -> exists n', do_ncalls cs n = NOk n' /\ ops n' = l /\ hinv n'.
    Proof.
      induction cs as [|c cs IH]; intros n l H KT NH E HR; cbn [neffects Nop_Model.do_ncalls forallb] in *.
      - injection E as <-. exists n. auto.
      - destruct (neffect c (ops n)) as [l1|] eqn:E1; [|discriminate]. apply andb_prop in NH. destruct NH as [NH1 NH2].
        inversion KT as [|? ? K1 K2]; subst.
        destruct (call_hug c n l1 H K1 E1) as [n1 (A & B & C)]; [intros ->; discriminate|exact HR|].
        rewrite A. subst l1. apply (IH n1 l C K2 NH2 E HR).
    Qed.
  End Hug.

  (** ** The hash *)
  Lemma call_hash (c : ncall) (n n' : nop) : do_ncall c n = NOk n' -> hashok n -> resizes c = false -> reports c -> hashok n'.
  Proof.
    intros H K R P. destruct c as [i o|i| |f| |]; cbn [Nop_Model.do_ncall resizes] in *; try discriminate.
    - injection H as <-. left. reflexivity.
    - injection H as <-. unfold hashok. cbn [nop_transform fst hash_value_ ops]. destruct (existsb _ (ops n)) eqn:X; [left; reflexivity|].
      assert (M : map (fun o => mkOp (creates o) (fst (f (index o)))) (ops n) = ops n).
      { rewrite <- (map_id (ops n)) at 2. apply map_ext_in. intros o Ho.
        assert (Y : snd (f (index o)) = false).
        { destruct (snd (f (index o))) eqn:Y; [|reflexivity]. rewrite <- X. symmetry. apply existsb_exists. exists o. auto. }
        rewrite (P _ Y). destruct o; reflexivity. }
      rewrite M. exact K.
    - unfold get_hug in H. destruct (hug_ n); [injection H as <-; exact K|]. destruct (make_vertex _ _ _); try discriminate. injection H as <-. exact K.
    - unfold hash_value in H. destruct (hash_value_ n) eqn:Q.
      + destruct (chk && _); [discriminate|]. injection H as <-. unfold hashok in *. rewrite Q in *. exact K.
      + injection H as <-. right. reflexivity.
  Qed.

  Lemma calls_hash cs : forall n n' : nop, do_ncalls cs n = NOk n' -> hashok n ->
    forallb (fun c => negb (resizes c)) cs = true -> Forall reports cs -> hashok n'.
  Proof.
    induction cs as [|c cs IH]; intros n n' H K R P; cbn [Nop_Model.do_ncalls forallb] in *.
    - injection H as <-. exact K.
    - apply andb_prop in R. destruct R as [R1 R2]. inversion P as [|? ? P1 P2]; subst.
      destruct (do_ncall c n) as [n1| | |] eqn:E; try discriminate.
      apply (IH n1 n' H); auto. apply (call_hash c n n1 E K); [|exact P1]. destruct (resizes c); [discriminate|reflexivity].
  Qed.

  Lemma calls_none cs : forall n n' : nop, do_ncalls cs n = NOk n' -> hash_value_ n = None -> forallb (fun c => negb (hashes c)) cs = true -> hash_value_ n' = None.
  Proof.
    induction cs as [|c cs IH]; intros n n' H K R; cbn [Nop_Model.do_ncalls forallb] in *.
    - injection H as <-. exact K.
    - apply andb_prop in R. destruct R as [R1 R2]. destruct (do_ncall c n) as [n1| | |] eqn:E; try discriminate.
      apply (IH n1 n' H); auto. clear IH H. destruct c as [i o|i| |f| |]; cbn [Nop_Model.do_ncall] in E.
      + unfold nop_insert in E. destruct (_ <? i); [discriminate|]. destruct (on_hug _ _); try discriminate. injection E as <-. exact K.
      + unfold nop_erase in E. destruct (nth_error _ i); [|discriminate]. destruct (on_hug _ _); try discriminate. injection E as <-. exact K.
      + injection E as <-. reflexivity.
      + injection E as <-. cbn [nop_transform fst hash_value_]. rewrite K. destruct (existsb _ _); reflexivity.
      + unfold get_hug in E. destruct (hug_ n); [injection E as <-; exact K|]. destruct (make_vertex _ _ _); try discriminate. injection E as <-. exact K.
      + discriminate.
  Qed.

  Lemma hash_ok (n : nop) : (forall h, heqb h h = true) -> hashok n -> exists n', hash_value heqb chk hash n = NOk (n', hash (ops n)).
  Proof.
    intros HR [E|E]; unfold hash_value; rewrite E; [eexists; reflexivity|]. rewrite HR, andb_false_r. eexists. reflexivity.
  Qed.

  Lemma ops_eqb_spec : (forall a b, ieqb a b = true <-> a = b) -> forall a b : list op, ops_eqb ieqb a b = true <-> a = b.
  Proof.
    intros HI. induction a as [|x a IH]; intros [|y b]; cbn; [tauto|split; discriminate|split; discriminate|].
    rewrite andb_true_iff, IH. unfold op_eqb. rewrite andb_true_iff, HI, Bool.eqb_true_iff.
    destruct x, y; cbn. split; [intros [[-> ->] ->]; reflexivity|intros E; inversion E; auto].
  Qed.
End Proofs.
