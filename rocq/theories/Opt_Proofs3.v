(** Lemmas about the generic driver and the additive objective. *)
From Coq Require Import NArith ZArith List Arith Lia Bool Sorted Permutation Relations.
From Verif Require Import Bits_Model Bits_Spec Bits_Proofs Opt_Model Opt_Spec Opt_Proofs1 Opt_Proofs2.
Import ListNotations.
Local Arguments Nat.ltb : simpl never.
Local Arguments N.shiftl : simpl never.
Local Arguments N.sub : simpl never.
Local Arguments Nat.pow : simpl never.

(* ---------- folding over the masks ---------- *)
Lemma masks_ind {St} (f : St -> N -> St) (P : nat -> St -> Prop) from : forall len s0,
  P from s0 ->
  (forall k s, from <= k < from + len -> P k s -> P (S k) (f s (N.of_nat k))) ->
  P (from + len) (fold_left f (masks from len) s0).
Proof.
  intros len. revert from. induction len as [|len IH]; intros from s0 H0 HS.
  - cbn. rewrite Nat.add_0_r. auto.
  - unfold masks. cbn [seq map fold_left]. replace (from + S len) with (S from + len) by lia.
    apply IH; [apply HS; auto; lia|]. intros k s Hk. apply HS. lia.
Qed.

Lemma table_nat nt : table_size nt = N.of_nat (Nat.pow 2 nt).
Proof. rewrite table_size_eq. rewrite Nat2N.inj_pow. reflexivity. Qed.

Lemma pow2_pos nt : 0 < Nat.pow 2 nt.
Proof. pose proof (Nat.pow_nonzero 2 nt). lia. Qed.

(* ---------- bipartitions ---------- *)
Lemma part_lt n a b : splits n a b -> b <> 0%N -> (a < n)%N.
Proof.
  intros H Hb. destruct (splits_compl n a b H) as (E & Hs).
  pose proof (compl_add b n Hs). rewrite <- E in H0. lia.
Qed.

Definition valid (conn : N -> bool) (n lp rp : N) : Prop :=
  splits n lp rp /\ lp <> 0%N /\ rp <> 0%N /\ conn lp = true /\ conn rp = true.

Lemma valid_lt conn n l r : valid conn n l r -> (l < n)%N /\ (r < n)%N.
Proof.
  intros (H & Hl & Hr & _). split; [eapply part_lt; eauto|].
  eapply part_lt; [apply splits_sym; eauto|auto].
Qed.

Lemma valid_sym conn n l r : valid conn n l r -> valid conn n r l.
Proof. intros (H & ? & ? & ? & ?). repeat split; auto; apply splits_sym in H; apply H. Qed.

Definition guard (conn : N -> bool) (lp rp : N) : bool :=
  negb (N.eqb lp 0) && negb (N.eqb rp 0) && conn lp && conn rp.

Lemma bips_some n : n <> 0%N -> popcount n < 64 ->
  exists l, bipartitions 64 n = Some l /\ bips n = l.
Proof.
  intros Hn Hp. destruct (bipartitions_ordered_defined 64 n Hp) as (l & E).
  unfold bips, bipartitions, bipartitions_unordered. rewrite E. eauto.
Qed.

Lemma bips_guard conn n lp rp : n <> 0%N -> popcount n < 64 ->
  In (lp, rp) (bips n) -> guard conn lp rp = true -> valid conn n lp rp.
Proof.
  intros Hn Hp Hin G. destruct (bips_some n Hn Hp) as (l & E & El). rewrite El in Hin.
  destruct (bipartitions_ok 64 n l Hn E) as (_ & H1 & _).
  unfold guard in G. rewrite !andb_true_iff, !negb_true_iff, !N.eqb_neq in G.
  destruct G as (((? & ?) & ?) & ?). split; auto.
Qed.

Lemma bips_complete conn n lp rp : n <> 0%N -> popcount n < 64 -> valid conn n lp rp ->
  exists a b, In (a, b) (bips n) /\ guard conn a b = true /\
              ((a = lp /\ b = rp) \/ (a = rp /\ b = lp)).
Proof.
  intros Hn Hp (Hs & Hl & Hr & Cl & Cr). destruct (bips_some n Hn Hp) as (l & E & El). rewrite El.
  destruct (bipartitions_ok 64 n l Hn E) as (_ & _ & H2).
  destruct (H2 lp rp Hs) as ([H|H] & _).
  - exists lp, rp. repeat split; auto. unfold guard.
    rewrite (proj2 (N.eqb_neq lp 0)), (proj2 (N.eqb_neq rp 0)), Cl, Cr by auto. reflexivity.
  - exists rp, lp. repeat split; auto. unfold guard.
    rewrite (proj2 (N.eqb_neq lp 0)), (proj2 (N.eqb_neq rp 0)), Cl, Cr by auto. reflexivity.
Qed.

(** [conn] marks the singletons and the full set, and every marked set of two or more tensors
    splits into two marked parts. *)
Definition splittable (conn : N -> bool) (nt : nat) : Prop :=
  (forall n, popcount n = 1 -> conn n = true) /\
  conn (full nt) = true /\
  (forall n, (n < table_size nt)%N -> 2 <= popcount n -> conn n = true ->
     exists l r, valid conn n l r).

Lemma splittable_all nt : splittable (fun _ => true) nt.
Proof.
  repeat split; auto. intros n Hn Hp _.
  assert (n <> 0%N) by (intros ->; cbn in Hp; lia).
  apply nonzero_has in H as (i & Hi).
  exists (N.lxor (N.shiftl 1 (N.of_nat i)) n), (N.shiftl 1 (N.of_nat i)).
  assert (Hs : subset_of (N.shiftl 1 (N.of_nat i)) n).
  { intros j Hj. apply has_shiftl1 in Hj. subst. auto. }
  repeat split; try (apply lxor_compl; auto).
  - intros E. assert (P := splits_perm _ _ _ (lxor_compl _ _ Hs)). apply Permutation_length in P.
    rewrite app_length, nbits_single, E, nbits_length in P. cbn in P. lia.
  - apply nonzero_has. exists i. apply has_shiftl1. auto.
Qed.

Lemma opc_cases net tixs prune :
  (outer_product_connectivity net tixs prune = connected_subsets (contractible_adjacency net tixs)
   /\ prune = true /\ connected_subsets (contractible_adjacency net tixs) (full (length net)) = true)
  \/ (outer_product_connectivity net tixs prune = (fun _ => true)
      /\ (prune = false \/ connected_subsets (contractible_adjacency net tixs) (full (length net)) = false)).
Proof.
  unfold outer_product_connectivity. destruct prune; cbn [negb]; [|auto].
  change (table_size (length net) - 1)%N with (full (length net)).
  destruct (connected_subsets (contractible_adjacency net tixs) (full (length net))) eqn:E; auto.
Qed.

Lemma opc_splittable net tixs prune :
  splittable (outer_product_connectivity net tixs prune) (length net).
Proof.
  destruct (opc_cases net tixs prune) as [(-> & _ & Hf)|(-> & _)]; [|apply splittable_all].
  assert (Sym : forall x y, has (contractible_adjacency net tixs x) y -> has (contractible_adjacency net tixs y) x).
  { intros x y. rewrite !adjacency_ok. apply contr_sym. }
  repeat split; auto.
  - intros n Hn. unfold connected_subsets. rewrite Hn. reflexivity.
  - intros n Hn Hp Hc. apply connected_subsets_ok in Hc; auto.
    destruct (connected_split _ n Sym Hc Hp) as (l & r & H1 & H2 & H3 & H4 & H5).
    exists l, r. repeat split; auto; try apply H1; apply connected_subsets_ok; auto.
Qed.

(* ---------- the driver for models whose finalize does nothing ---------- *)
Section DriverChar.
  Context {State Ctx : Type}.
  Variable leaf : Ctx -> N -> State.
  Variable init : Ctx -> N -> State.
  Variable relax : Ctx -> N -> N -> N -> State -> State -> State -> State.
  Variable finalize : Ctx -> N -> (N -> State) -> Ctx * (N -> State).
  Variable dflt : State.
  Variable conn : N -> bool.

  Lemma relax_all_ext ctx st st' n : n <> 0%N -> popcount n < 64 ->
    (forall j, (j < n)%N -> st j = st' j) ->
    relax_all init relax conn ctx st n = relax_all init relax conn ctx st' n.
  Proof.
    intros Hn Hp H. unfold relax_all.
    assert (G : forall l acc, (forall lp rp, In (lp, rp) l -> In (lp, rp) (bips n)) ->
      fold_left (fun acc '(lp, rp) =>
        if negb (N.eqb lp 0) && negb (N.eqb rp 0) && conn lp && conn rp
        then relax ctx n lp rp (st lp) (st rp) acc else acc) l acc =
      fold_left (fun acc '(lp, rp) =>
        if negb (N.eqb lp 0) && negb (N.eqb rp 0) && conn lp && conn rp
        then relax ctx n lp rp (st' lp) (st' rp) acc else acc) l acc).
    { induction l as [|(lp & rp) l IH]; cbn [fold_left]; intros acc Hl; auto.
      fold (guard conn lp rp). destruct (guard conn lp rp) eqn:E.
      - assert (V : valid conn n lp rp).
        { apply bips_guard; auto. apply Hl. left. auto. }
        apply valid_lt in V. rewrite (H lp), (H rp) by tauto. apply IH. intros. apply Hl. right. auto.
      - apply IH. intros. apply Hl. right. auto. }
    apply G. auto.
  Qed.

  Hypothesis fin : forall ctx n st, finalize ctx n st = (ctx, st).

  Lemma solve_char nt ctx : nt < 64 ->
    let F := snd (solve_single_term leaf init relax finalize dflt conn nt ctx) in
    forall n, n <> 0%N -> (n < table_size nt)%N ->
      F n = if Nat.eqb (popcount n) 1 then leaf ctx n
            else if conn n then relax_all init relax conn ctx F n else dflt.
  Proof.
    intros Hnt. cbn zeta.
    pose proof (masks_ind (solve_step leaf init relax finalize conn)
      (fun k cs => fst cs = ctx /\
        (forall n, n <> 0%N -> (n < N.of_nat k)%N ->
           snd cs n = if Nat.eqb (popcount n) 1 then leaf ctx n
                      else if conn n then relax_all init relax conn ctx (snd cs) n else dflt) /\
        (forall n, (N.of_nat k <= n)%N -> snd cs n = dflt))
      1 (Nat.pow 2 nt - 1) (ctx, fun _ => dflt)) as M.
    pose proof (pow2_pos nt) as Hpos.
    destruct M as (_ & H & _).
    - cbn. repeat split; auto. intros n Hn H. lia.
    - intros k (c & st) Hk (E & H1 & H2). cbn [fst snd] in *. subst c.
      assert (Hk0 : N.of_nat k <> 0%N) by lia.
      assert (Hkp : popcount (N.of_nat k) < 64).
      { apply Nat.le_lt_trans with nt; auto. apply popcount_bound. rewrite table_nat. lia. }
      assert (K : forall v, (forall st', (forall j, (j < N.of_nat k)%N -> st' j = st j) ->
            v = if Nat.eqb (popcount (N.of_nat k)) 1 then leaf ctx (N.of_nat k)
                else if conn (N.of_nat k) then relax_all init relax conn ctx st' (N.of_nat k) else dflt) ->
         (forall n, n <> 0%N -> (n < N.of_nat (S k))%N ->
           tupd st (N.of_nat k) v n = if Nat.eqb (popcount n) 1 then leaf ctx n
                      else if conn n then relax_all init relax conn ctx (tupd st (N.of_nat k) v) n else dflt) /\
        (forall n, (N.of_nat (S k) <= n)%N -> tupd st (N.of_nat k) v n = dflt)).
      { intros v Hv. split.
        - intros n Hn Hlt. unfold tupd at 1. destruct (N.eqb_spec n (N.of_nat k)).
          + subst n. apply Hv. intros j Hj. unfold tupd. destruct (N.eqb_spec j (N.of_nat k)); [lia|auto].
          + assert (n < N.of_nat k)%N by lia. rewrite (H1 n) by auto.
            destruct (Nat.eqb (popcount n) 1); auto. destruct (conn n); auto.
            apply relax_all_ext; auto.
            * apply Nat.le_lt_trans with nt; auto. apply popcount_bound. rewrite table_nat. lia.
            * intros j Hj. unfold tupd. destruct (N.eqb_spec j (N.of_nat k)); [lia|auto].
        - intros n Hn. unfold tupd. destruct (N.eqb_spec n (N.of_nat k)); [lia|]. apply H2. lia. }
      unfold solve_step. destruct (Nat.eqb_spec (popcount (N.of_nat k)) 1) as [Hp1|Hp1].
      + cbn [fst snd]. split; auto.
      + destruct (conn (N.of_nat k)) eqn:Hc; cbn [negb].
        * rewrite fin. cbn [fst snd]. split; auto. apply K. intros st' Hst'.
          apply relax_all_ext; auto. intros j Hj. symmetry. auto.
        * cbn [fst snd]. split; auto. split.
          -- intros n Hn Hlt. destruct (N.eq_dec n (N.of_nat k)) as [->|].
             ++ rewrite (proj2 (Nat.eqb_neq _ _) Hp1), Hc. apply H2. lia.
             ++ apply H1; auto. lia.
          -- intros n Hn. apply H2. lia.
    - intros n Hn Hlt. apply H; auto. rewrite table_nat in Hlt. lia.
  Qed.
End DriverChar.

(* ---------- structure of the additive table (with or without CSE) ---------- *)
Definition okA (conn : N -> bool) (n : N) (s : AState) : Prop := valid conn n (a_lp s) (a_rp s).

Lemma ole_None a : ole a None = true.
Proof. destruct a; reflexivity. Qed.

Lemma relax_all_okA m conn ctx st n : n <> 0%N -> popcount n < 64 ->
  (exists l r, valid conn n l r) ->
  okA conn n (relax_all a_init (a_relax m) conn ctx st n).
Proof.
  intros Hn Hp (l0 & r0 & V). unfold relax_all.
  assert (G : forall l acc, (forall lp rp, In (lp, rp) l -> In (lp, rp) (bips n)) ->
    (a_ops acc = None \/ okA conn n acc) ->
    let r := fold_left (fun acc '(lp, rp) =>
        if negb (N.eqb lp 0) && negb (N.eqb rp 0) && conn lp && conn rp
        then a_relax m ctx n lp rp (st lp) (st rp) acc else acc) l acc in
    (okA conn n acc -> okA conn n r) /\
    ((exists lp rp, In (lp, rp) l /\ guard conn lp rp = true) -> okA conn n r)).
  { induction l as [|(lp & rp) l IH]; cbn [fold_left]; intros acc Hl Hacc.
    - split; auto. intros (? & ? & [] & _).
    - fold (guard conn lp rp). destruct (guard conn lp rp) eqn:E.
      + assert (V' : valid conn n lp rp) by (apply bips_guard; auto; apply Hl; left; auto).
        assert (O : okA conn n (a_relax m ctx n lp rp (st lp) (st rp) acc)).
        { unfold a_relax. destruct (am_cse m).
          - destruct (ole _ (a_ops acc)) eqn:Eo; [exact V'|].
            destruct Hacc as [Hacc|]; auto. rewrite Hacc, ole_None in Eo. discriminate.
          - destruct (ole _ (a_ops acc)) eqn:Eo; [exact V'|].
            destruct Hacc as [Hacc|]; auto. rewrite Hacc, ole_None in Eo. discriminate. }
        destruct (IH (a_relax m ctx n lp rp (st lp) (st rp) acc)) as (I1 & I2).
        * intros. apply Hl. right; auto.
        * auto.
        * split; intros _; apply I1; auto.
      + destruct (IH acc) as (I1 & I2); auto.
        * intros. apply Hl. right; auto.
        * split; auto. intros (lp' & rp' & [Eq|Hin] & Hg); [congruence|]. apply I2. eauto. }
  destruct (bips_complete conn n l0 r0 Hn Hp V) as (a & b & Hin & Hg & _).
  apply (G (bips n) (a_init ctx n)); auto. eauto.
Qed.

Lemma a_solve_ok m conn nt : nt < 64 -> splittable conn nt ->
  forall n, (n < table_size nt)%N -> 2 <= popcount n -> conn n = true ->
    okA conn n (a_solve m conn nt n).
Proof.
  intros Hnt (_ & _ & Sp). unfold a_solve.
  pose proof (masks_ind (solve_step a_leaf a_init (a_relax m) (a_finalize m) conn)
    (fun k cs => forall n, (n < N.of_nat k)%N -> 2 <= popcount n -> conn n = true -> okA conn n (snd cs n))
    1 (Nat.pow 2 nt - 1) (fun _ => 0%Z, fun _ => a_dflt)) as M.
  pose proof (pow2_pos nt) as Hpos.
  intros n Hn Hp Hc. apply M; auto.
  - intros j Hj. assert (j = 0%N) as -> by lia. cbn. lia.
  - intros k (ctx & st) Hk H. cbn [snd] in H.
    assert (Hkt : (N.of_nat k < table_size nt)%N) by (rewrite table_nat; lia).
    assert (Hkp : popcount (N.of_nat k) < 64).
    { apply Nat.le_lt_trans with nt; auto. apply popcount_bound. auto. }
    intros j Hj Hpj Hcj. unfold solve_step.
    destruct (Nat.eqb_spec (popcount (N.of_nat k)) 1) as [Hp1|Hp1].
    + cbn [snd]. unfold tupd. destruct (N.eqb_spec j (N.of_nat k)); [subst; lia|]. apply H; auto. lia.
    + destruct (conn (N.of_nat k)) eqn:Hck; cbn [negb].
      * set (v := relax_all _ _ _ _ _ _).
        assert (snd (a_finalize m ctx (N.of_nat k) (tupd st (N.of_nat k) v)) j
                = tupd st (N.of_nat k) v j \/
                (j = N.of_nat k /\
                 a_lp (snd (a_finalize m ctx (N.of_nat k) (tupd st (N.of_nat k) v)) j) = a_lp v /\
                 a_rp (snd (a_finalize m ctx (N.of_nat k) (tupd st (N.of_nat k) v)) j) = a_rp v)) as D.
        { unfold a_finalize. destruct (am_cse m); cbn [negb snd]; auto.
          unfold tupd. destruct (N.eqb_spec j (N.of_nat k)); auto. right. rewrite N.eqb_refl. cbn. auto. }
        destruct (N.eq_dec j (N.of_nat k)) as [->|Hne].
        -- assert (V : okA conn (N.of_nat k) v).
           { apply relax_all_okA; auto. lia. }
           destruct D as [D|(_ & D1 & D2)].
           ++ rewrite D. unfold tupd. rewrite N.eqb_refl. auto.
           ++ unfold okA. rewrite D1, D2. auto.
        -- destruct D as [D|(D & _)]; [|contradiction]. rewrite D. unfold tupd.
           rewrite (proj2 (N.eqb_neq _ _) Hne). apply H; auto. lia.
      * cbn [snd]. destruct (N.eq_dec j (N.of_nat k)); [subst; congruence|]. apply H; auto. lia.
  - rewrite table_nat in Hn. lia.
Qed.

(* ---------- trees, sequences ---------- *)
Lemma run_postfix_app t : forall s stack,
  run_postfix (postfix t ++ s) stack = run_postfix s (t :: stack).
Proof.
  induction t as [i|l IHl r IHr]; intros s stack; cbn [postfix].
  - cbn [app run_postfix]. destruct (Z.eqb_spec (Z.of_nat i) (-1)); [lia|].
    destruct (Z.leb_spec 0 (Z.of_nat i)); [|lia]. rewrite Nat2Z.id. reflexivity.
  - rewrite <- !app_assoc, IHl, IHr. cbn [app run_postfix]. reflexivity.
Qed.

Lemma denotes_postfix t : denotes (postfix t) t.
Proof. unfold denotes. rewrite <- (app_nil_r (postfix t)), run_postfix_app. reflexivity. Qed.

Lemma hd_postfix t : hd 0%Z (postfix t) = Z.of_nat (first_leaf t) /\ postfix t <> [].
Proof.
  induction t as [i|l (IHl & Nl) r _]; cbn; [split; [auto|discriminate]|].
  destruct (postfix l) as [|z p]; [contradiction|]. cbn in *. split; [auto|discriminate].
Qed.

Lemma first_leaf_In t : In (first_leaf t) (leaves t).
Proof. induction t; cbn; auto. apply in_or_app. auto. Qed.

(** the tree recorded by the table *)
Inductive recorded (st : N -> AState) : N -> tree -> Prop :=
| rec_leaf n : popcount n = 1 -> recorded st n (Leaf (countr_zero n))
| rec_node n tl tr : 2 <= popcount n ->
    recorded st (a_lp (st n)) tl -> recorded st (a_rp (st n)) tr ->
    recorded st n (if Nat.ltb (first_leaf tl) (first_leaf tr) then Node tl tr else Node tr tl).

Lemma ctz_single n : popcount n = 1 -> nbits n = [countr_zero n].
Proof.
  intros H. assert (Hn : n <> 0%N) by (intros ->; discriminate).
  pose proof (clear_lowest n 64 Hn) as E. rewrite E.
  pose proof (nbits_length n) as L. rewrite E, H in L. cbn in L.
  destruct (nbits (N.land n (wdec 64 n))); [auto|discriminate].
Qed.

Lemma a_rec_ok conn nt st :
  splittable conn nt ->
  (forall n, (n < table_size nt)%N -> 2 <= popcount n -> conn n = true -> okA conn n (st n)) ->
  forall n, n <> 0%N -> (n < table_size nt)%N -> conn n = true ->
  exists t, recorded st n t /\
    fold_left (a_rec_step st) (masks 0 (Nat.pow 2 nt)) (fun _ => []) n = postfix t.
Proof.
  intros Sp Ok.
  pose proof (masks_ind (a_rec_step st)
    (fun k sq =>
      (forall n, n <> 0%N -> (n < N.of_nat k)%N -> conn n = true ->
        exists t, recorded st n t /\ sq n = postfix t) /\
      (forall n, (N.of_nat k <= n)%N -> sq n = []))
    0 (Nat.pow 2 nt) (fun _ => [])) as M.
  destruct M as (M & _).
  - split; auto. intros n Hn H. lia.
  - intros k sq Hk (H1 & H2). set (n := N.of_nat k) in *.
    assert (Hnt : (n < table_size nt)%N) by (rewrite table_nat; unfold n; lia).
    unfold a_rec_step. destruct (Nat.eqb_spec (popcount n) 1) as [Hp|Hp].
    + split.
      * intros j Hj Hlt Hc. unfold tupd. destruct (N.eqb_spec j n).
        -- subst j. exists (Leaf (countr_zero n)). split; [constructor; auto|].
           rewrite H2 by lia. reflexivity.
        -- apply H1; auto. unfold n in *. lia.
      * intros j Hj. unfold tupd. destruct (N.eqb_spec j n); [unfold n in *; lia|]. apply H2. unfold n in *. lia.
    + destruct (Nat.leb_spec 2 (popcount n)) as [Hp2|Hp2].
      * destruct (conn n) eqn:Hc.
        -- pose proof (Ok n Hnt Hp2 Hc) as V. pose proof (valid_lt _ _ _ _ V) as (Ll & Lr).
           destruct V as (Hs & Hl & Hr & Cl & Cr).
           destruct (N.eqb_spec (a_lp (st n)) 0); [contradiction|]. cbn [andb].
           destruct (H1 _ Hl Ll Cl) as (tl & Rl & El). destruct (H1 _ Hr Lr Cr) as (tr & Rr & Er).
           split.
           ++ intros j Hj Hlt Hcj. unfold tupd. destruct (N.eqb_spec j n).
              ** subst j. eexists. split; [apply rec_node; eauto|].
                 rewrite El, Er. rewrite (proj1 (hd_postfix tl)), (proj1 (hd_postfix tr)).
                 destruct (Nat.ltb_spec (first_leaf tl) (first_leaf tr)), (Z.ltb_spec (Z.of_nat (first_leaf tl)) (Z.of_nat (first_leaf tr))); try lia;
                   cbn [postfix]; rewrite app_assoc; reflexivity.
              ** apply H1; auto. unfold n in *. lia.
           ++ intros j Hj. unfold tupd. destruct (N.eqb_spec j n); [unfold n in *; lia|]. apply H2. unfold n in *. lia.
        -- assert (G : forall sq', (forall j, j <> n -> sq' j = sq j) ->
             (forall j, j <> 0%N -> (j < N.of_nat (S k))%N -> conn j = true -> exists t, recorded st j t /\ sq' j = postfix t) /\
             (forall j, (N.of_nat (S k) <= j)%N -> sq' j = [])).
           { intros sq' Hsq. split.
             - intros j Hj Hlt Hcj. assert (j <> n) by (intros ->; congruence). rewrite Hsq by auto.
               apply H1; auto. unfold n in *. lia.
             - intros j Hj. rewrite Hsq by (unfold n in *; lia). apply H2. unfold n in *. lia. }
           destruct (N.eqb (a_lp (st n)) 0 && N.eqb (a_rp (st n)) 0); apply G; auto.
           intros j Hj. unfold tupd. rewrite (proj2 (N.eqb_neq _ _) Hj). auto.
      * split.
        -- intros j Hj Hlt Hcj. destruct (N.eq_dec j n) as [->|].
           ++ exfalso. pose proof (popcount_pos n Hj). lia.
           ++ apply H1; auto. unfold n in *. lia.
        -- intros j Hj. apply H2. unfold n in *. lia.
  - intros n Hn Hlt Hc. apply M; auto. rewrite table_nat in Hlt. lia.
Qed.

Lemma recorded_leaves conn nt st :
  (forall n, (n < table_size nt)%N -> 2 <= popcount n -> conn n = true -> okA conn n (st n)) ->
  forall n t, (n < table_size nt)%N -> conn n = true -> recorded st n t ->
    Permutation (leaves t) (nbits n) /\ in_order t.
Proof.
  intros Ok n t Hn Hc R. induction R as [n Hp|n tl tr Hp Rl IHl Rr IHr].
  - rewrite ctz_single by auto. cbn. auto.
  - pose proof (Ok n Hn Hp Hc) as V. pose proof (valid_lt _ _ _ _ V) as (Ll & Lr).
    destruct V as (Hs & Hl & Hr & Cl & Cr).
    destruct IHl as (Pl & Ol); [lia|auto|]. destruct IHr as (Pr & Or); [lia|auto|].
    pose proof (splits_perm _ _ _ Hs) as P.
    assert (Ne : first_leaf tl <> first_leaf tr).
    { intros E. pose proof (first_leaf_In tl) as I1. pose proof (first_leaf_In tr) as I2.
      rewrite E in I1. apply (Permutation_in _ Pl) in I1. apply (Permutation_in _ Pr) in I2.
      apply nbits_In in I1, I2. destruct (Hs (first_leaf tr)). tauto. }
    destruct (Nat.ltb_spec (first_leaf tl) (first_leaf tr)); cbn [leaves in_order].
    + split; [|auto]. rewrite P, Pl, Pr. auto.
    + split; [|repeat split; auto; lia]. rewrite P, Pl, Pr. apply Permutation_app_comm.
Qed.

Lemma full_lt nt : (full nt < table_size nt)%N.
Proof. unfold full. rewrite table_nat. pose proof (pow2_pos nt). lia. Qed.

Lemma nbits_full nt : nbits (full nt) = seq 0 nt.
Proof.
  apply SS_nat_ext; [apply nbits_sorted|apply seq_sorted|].
  intros x. rewrite nbits_In, has_full, in_seq. lia.
Qed.

Lemma full_nonzero nt : nt <> 0 -> full nt <> 0%N.
Proof.
  intros H. apply nonzero_has. exists 0. apply has_full. lia.
Qed.

Lemma a_run_defined o net tixs : 1 <= length net <= 24 -> exists s, a_run o net tixs = Some s.
Proof.
  intros H. unfold a_run.
  destruct (Nat.eqb_spec (length net) 0); [lia|].
  destruct (Nat.eqb_spec (length net) 1); [eauto|].
  destruct (Nat.eqb_spec (length net) 2); [eauto|].
  destruct (Nat.leb_spec (length net) max_tensors); [cbn [negb]; eexists; reflexivity|unfold max_tensors in *; lia].
Qed.

Lemma a_run_big o net tixs s : a_run o net tixs = Some s -> 3 <= length net ->
  length net <= 24 /\
  exists t, recorded (a_solve (a_model o net tixs) (outer_product_connectivity net tixs (ao_prune o)) (length net)) (full (length net)) t /\
    s = postfix t.
Proof.
  intros H H3. unfold a_run in H.
  destruct (Nat.eqb_spec (length net) 0); [lia|].
  destruct (Nat.eqb_spec (length net) 1); [lia|].
  destruct (Nat.eqb_spec (length net) 2); [lia|].
  destruct (Nat.leb_spec (length net) max_tensors); [|discriminate].
  unfold max_tensors in *. split; auto. cbn [negb] in H. injection H as <-.
  set (conn := outer_product_connectivity net tixs (ao_prune o)).
  pose proof (opc_splittable net tixs (ao_prune o)) as Sp. fold conn in Sp.
  unfold a_reconstruct. apply (a_rec_ok conn (length net)); auto.
  - intros. apply a_solve_ok; auto. lia.
  - apply full_nonzero. lia.
  - apply full_lt.
  - apply Sp.
Qed.

Lemma a_run_wf o net tixs s :
  a_run o net tixs = Some s ->
  exists t, s = postfix t /\ denotes s t /\ over (length net) t /\ in_order t.
Proof.
  intros H. destruct (le_lt_dec 3 (length net)) as [H3|H3].
  - destruct (a_run_big o net tixs s H H3) as (H24 & t & R & ->).
    exists t. split; auto. split; [apply denotes_postfix|].
    pose proof (opc_splittable net tixs (ao_prune o)) as Sp.
    eapply recorded_leaves in R; try apply full_lt; try apply Sp.
    + rewrite nbits_full in R. apply R.
    + intros. apply a_solve_ok; auto. lia.
  - unfold a_run in H.
    destruct (Nat.eqb_spec (length net) 0); [discriminate|].
    destruct (Nat.eqb_spec (length net) 1) as [E|].
    + injection H as <-. exists (Leaf 0). unfold over. rewrite E. cbn. repeat split; auto.
    + destruct (Nat.eqb_spec (length net) 2) as [E|]; [|lia].
      injection H as <-. exists (Node (Leaf 0) (Leaf 1)). unfold over. rewrite E. cbn. repeat split; auto.
Qed.
