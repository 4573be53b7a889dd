(** * The state of a normal operator under insertion, erasure, adjoint and replacement of indices *)
From Coq Require Import List Arith Bool Lia.
From Verif Require Import Hug_Model Hug_Spec Hug_Proofs Hug_Props Nop_Model Nop_Spec Nop_Proofs.
Import ListNotations.

(** C145: whatever is done to a normal operator built from creators and annihilators, its numbers of
    creators and annihilators are those of its sequence, the sequence is the one the calls describe, and
    the vacuum stays. *)
Theorem C145_counts {Index Vac Hash} teq heqb chk hash (cre ann : list Index) (v : Vac) cs (n : nop Index Vac Hash) :
  do_ncalls teq heqb chk hash cs (make_nop cre ann v) = NOk n ->
  neffects cs (map (mkOp true) cre ++ map (mkOp false) (rev ann)) = Some (ops n) /\
  ncreators n = count_creators (ops n) /\ nannihilators n = count_annihilators (ops n) /\ vacuum n = v.
Proof.
  intros H. destruct (calls_counts teq heqb chk hash cs _ _ H (make_counts cre ann v)) as (A & B & C).
  split; [exact A|]. split; [exact B|]. split; [|exact C]. unfold nannihilators, ncreators. rewrite B.
  pose proof (count_sum (ops n)). lia.
Qed.

(** While the sequence is normal-ordered, [creators] are exactly its creators from left to right and
    [annihilators] its annihilators from right to left; rank is the common number, and throws if the
    numbers differ. *)
Theorem C145_views {Index Vac Hash} teq heqb chk hash (cre ann : list Index) (v : Vac) cs (n : nop Index Vac Hash) :
  do_ncalls teq heqb chk hash cs (make_nop cre ann v) = NOk n -> normal_ordered (ops n) ->
  creators n = filter creates (ops n) /\ annihilators n = rev (filter (fun o => negb (creates o)) (ops n)) /\
  rank n = if count_creators (ops n) =? count_annihilators (ops n) then NOk (count_creators (ops n)) else NThrow.
Proof.
  intros H NO. destruct (C145_counts _ _ _ _ _ _ _ _ _ H) as (A & B & C & D).
  destruct (ordered_views n B NO) as [P Q]. split; [exact P|]. split; [exact Q|].
  unfold rank. rewrite B, C. reflexivity.
Qed.

(** A new operator has the given creators and annihilators, in the given orders. *)
Theorem C145_new {Index Vac Hash} (cre ann : list Index) (v : Vac) :
  let n : nop Index Vac Hash := make_nop cre ann v in
  normal_ordered (ops n) /\ map index (creators n) = cre /\ map index (annihilators n) = ann.
Proof.
  intros n.
  assert (F : forall b (l : list Index), Forall (fun o => creates o = b) (map (mkOp b) l)).
  { intros b l. apply Forall_forall. intros o Ho. apply in_map_iff in Ho. destruct Ho as [x [<- _]]. reflexivity. }
  assert (NO : normal_ordered (ops n)).
  { exists (map (mkOp true) cre), (map (mkOp false) (rev ann)). split; [reflexivity|]. split; apply F. }
  split; [exact NO|]. destruct (ordered_views n (make_counts cre ann v) NO) as [P Q]. rewrite P, Q.
  unfold n. cbn [make_nop ops]. rewrite !filter_app.
  assert (E : forall (b : bool) (p : op Index -> bool) (l : list Index), (forall o, creates o = b -> p o = true) -> filter p (map (mkOp b) l) = map (mkOp b) l).
  { intros b p l Hp. apply filter_all. generalize (F b l). apply Forall_impl. exact Hp. }
  assert (E' : forall (b : bool) (p : op Index -> bool) (l : list Index), (forall o, creates o = b -> p o = false) -> filter p (map (mkOp b) l) = []).
  { intros b p l Hp. apply filter_none. generalize (F b l). apply Forall_impl. exact Hp. }
  rewrite (E true creates), (E' false creates), (E' true (fun o => negb (creates o))), (E false (fun o => negb (creates o)));
    try (intros o Ho; rewrite Ho; reflexivity).
  rewrite app_nil_r. cbn [app]. rewrite map_rev, !map_map. cbn [index]. rewrite !map_id, rev_involutive. auto.
Qed.

(** The adjoint exchanges the creators and the annihilators, and taken twice it changes nothing. *)
Theorem C145_adjoint {Index Vac Hash} teq heqb chk hash (cre ann : list Index) (v : Vac) cs (n : nop Index Vac Hash) :
  do_ncalls teq heqb chk hash cs (make_nop cre ann v) = NOk n ->
  let a := nop_adjoint n in
  (normal_ordered (ops n) -> normal_ordered (ops a) /\
     map index (creators a) = map index (annihilators n) /\ map index (annihilators a) = map index (creators n)) /\
  ops (nop_adjoint a) = ops n /\ ncreators (nop_adjoint a) = ncreators n /\
  ncreators a = nannihilators n /\ nannihilators a = ncreators n.
Proof.
  intros H a. destruct (C145_counts _ _ _ _ _ _ _ _ _ H) as (A & B & C & D).
  assert (INV : forall l : list (op Index), map op_adjoint (map op_adjoint l) = l).
  { intros l. rewrite map_map. rewrite <- (map_id l) at 2. apply map_ext. intros [b x]. unfold op_adjoint. cbn. rewrite negb_involutive. reflexivity. }
  pose proof (count_sum (ops n)) as S.
  assert (LA : length (ops a) = length (ops n)) by (unfold a; cbn; rewrite map_length, rev_length; reflexivity).
  split; [|split; [|split; [|split]]].
  - intros (c & d & E & Fc & Fd).
    assert (EA : ops a = map op_adjoint (rev d) ++ map op_adjoint (rev c)).
    { unfold a. cbn [nop_adjoint ops]. rewrite E, rev_app_distr, map_app. reflexivity. }
    assert (FA : Forall (fun o : op Index => creates o = true) (map op_adjoint (rev d))).
    { apply Forall_forall. intros o Ho. apply in_map_iff in Ho. destruct Ho as [x [<- Hx]]. apply in_rev in Hx.
      rewrite Forall_forall in Fd. cbn. rewrite (Fd x Hx). reflexivity. }
    assert (FB : Forall (fun o : op Index => creates o = false) (map op_adjoint (rev c))).
    { apply Forall_forall. intros o Ho. apply in_map_iff in Ho. destruct Ho as [x [<- Hx]]. apply in_rev in Hx.
      rewrite Forall_forall in Fc. cbn. rewrite (Fc x Hx). reflexivity. }
    split; [exists (map op_adjoint (rev d)), (map op_adjoint (rev c)); auto|].
    assert (NC : ncreators n = length c).
    { rewrite B, E, count_app, (count_all true c Fc), (count_all false d Fd). lia. }
    assert (NA : ncreators a = length d).
    { unfold ncreators, a. cbn [nop_adjoint ncreators_]. unfold ncreators in NC. rewrite NC, E, app_length. lia. }
    assert (M : forall l : list (op Index), map index (map op_adjoint l) = map index l).
    { intros l. rewrite map_map. reflexivity. }
    assert (T : forall X (u w : list X) k, k = length u -> firstn k (u ++ w) = u).
    { intros X u w k ->. rewrite firstn_app, Nat.sub_diag, firstn_all. cbn. apply app_nil_r. }
    unfold creators, annihilators, nannihilators. rewrite NA, NC, LA, EA, E, app_length. split.
    + rewrite T by (rewrite map_length, rev_length; reflexivity).
      rewrite rev_app_distr, T by (rewrite rev_length; lia). apply M.
    + rewrite rev_app_distr, T by (rewrite rev_length, map_length, rev_length; lia).
      rewrite T by reflexivity. rewrite <- map_rev, rev_involutive. apply M.
  - unfold a. cbn [nop_adjoint ops]. rewrite <- map_rev, rev_involutive. apply INV.
  - unfold ncreators, a. cbn [nop_adjoint ncreators_ ops]. rewrite map_length, rev_length. unfold ncreators in B. lia.
  - reflexivity.
  - unfold nannihilators. rewrite LA. unfold ncreators, a. cbn [nop_adjoint ncreators_]. unfold ncreators in B. lia.
Qed.

(** C146: in every history of calls within bounds in which replacing indices keeps their types, the calls
    succeed and the Hugenholtz vertex, whenever it was built, shows the current sequence. Missing: hashes
    taken in between (see C147), and replacements that change types, for which it is false. *)
Theorem C146_hug_partial {Index Vac Hash} teq heqb chk hash (cre ann : list Index) (v : Vac) cs l :
  equivalence teq -> (forall h : Hash, heqb h h = true) ->
  Forall (keeps_types teq) cs -> forallb (fun c => negb (hashes c)) cs = true ->
  neffects cs (map (mkOp true) cre ++ map (mkOp false) (rev ann)) = Some l ->
  exists (n n' : nop Index Vac Hash) w, do_ncalls teq heqb chk hash cs (make_nop cre ann v) = NOk n /\ ops n = l /\
    get_hug teq chk n = NOk (n', w) /\ ops n' = l /\ shows (op_type_eqb teq) chk w l.
Proof.
  intros EQ HR KT NH E.
  destruct (calls_hug_nohash teq heqb chk hash EQ cs (make_nop cre ann v) l Logic.I KT NH E HR) as (n & A & B & C).
  destruct (hug_shown teq chk EQ n C) as (n' & w & P & Q & R). exists n, n', w. subst l.
  split; [exact A|]. split; [reflexivity|]. split; [exact P|]. split; [exact Q|exact R].
Qed.

(** C147: if no operator is inserted or erased once the hash has been taken, the hash is that of the
    current sequence and taking it fails no assertion. Missing: insertions and erasures after the hash
    was taken, for which it is false. *)
Theorem C147_hash_partial {Index Vac Hash} teq heqb chk hash (cre ann : list Index) (v : Vac) cs1 cs2 (n : nop Index Vac Hash) :
  (forall h : Hash, heqb h h = true) ->
  forallb (fun c => negb (hashes c)) cs1 = true -> forallb (fun c => negb (resizes c)) cs2 = true -> Forall reports cs2 ->
  do_ncalls teq heqb chk hash (cs1 ++ cs2) (make_nop cre ann v) = NOk n ->
  exists n', hash_value heqb chk hash n = NOk (n', hash (ops n)).
Proof.
  intros HR H1 H2 H3 H. apply hash_ok; [exact HR|].
  assert (G : exists n1, do_ncalls teq heqb chk hash cs1 (make_nop cre ann v) = NOk n1 /\ do_ncalls teq heqb chk hash cs2 n1 = NOk n).
  { revert H. generalize (make_nop (Hash := Hash) cre ann v). clear H1. induction cs1 as [|c cs1 IH]; intros m; cbn [app do_ncalls].
    - intros H. exists m. auto.
    - destruct (do_ncall _ _ _ _ c m); try discriminate. apply IH. }
  destruct G as (n1 & G1 & G2).
  apply (calls_hash teq heqb chk hash cs2 n1 n G2); auto. left. apply (calls_none teq heqb chk hash cs1 _ _ G1); auto.
Qed.

(** Operators whose memoized hashes are absent or current are equal exactly if the vacua, the numbers of
    creators and the sequences are; for every hash function. *)
Theorem C147_equal_partial {Index Vac Hash} ieqb (veqb : Vac -> Vac -> bool) heqb chk hash (a b : nop Index Vac Hash) :
  (forall x y, ieqb x y = true <-> x = y) -> (forall x y, veqb x y = true <-> x = y) -> (forall x y : Hash, heqb x y = true <-> x = y) ->
  (hash_value_ a = None \/ hash_value_ a = Some (hash (ops a))) -> (hash_value_ b = None \/ hash_value_ b = Some (hash (ops b))) ->
  exists r, nop_eqb ieqb veqb heqb chk hash a b = NOk r /\
    (r = true <-> vacuum a = vacuum b /\ ncreators a = ncreators b /\ ops a = ops b).
Proof.
  intros HI HV HH Ka Kb. assert (HR : forall h, heqb h h = true) by (intros h; apply HH; reflexivity).
  unfold nop_eqb. destruct (veqb (vacuum a) (vacuum b)) eqn:V; cbn [andb].
  2:{ exists false. split; [reflexivity|]. split; [discriminate|]. intros [E _]. apply HV in E. congruence. }
  apply HV in V. destruct (Nat.eqb_spec (ncreators a) (ncreators b)) as [C|C].
  2:{ exists false. split; [reflexivity|]. split; [discriminate|]. intros [_ [E _]]. congruence. }
  destruct (Nat.eqb_spec (length (ops a)) (length (ops b))) as [L|L].
  2:{ exists false. split; [reflexivity|]. split; [discriminate|]. intros [_ [_ E]]. congruence. }
  destruct (hash_ok heqb chk hash a HR Ka) as [a' Ea]. destruct (hash_ok heqb chk hash b HR Kb) as [b' Eb]. rewrite Ea, Eb.
  destruct (ops a) as [|x l] eqn:OA.
  - exists true. split; [reflexivity|]. destruct (ops b); [|discriminate]. tauto.
  - eexists. split; [reflexivity|]. destruct (heqb (hash (x :: l)) (hash (ops b))) eqn:HE.
    + rewrite (ops_eqb_spec ieqb HI). tauto.
    + split; [discriminate|]. intros (_ & _ & E). rewrite <- E, HR in HE. discriminate.
Qed.

Module NopExamples.
  (** Indices are a space and a number; the type is the space. *)
  Definition ix := (nat * nat)%type.
  Definition ixeq (a b : ix) : bool := (fst a =? fst b) && (snd a =? snd b).
  Definition space (a b : ix) : bool := fst a =? fst b.
  Theorem space_equivalence : equivalence space.
  Proof.
    unfold space. split; [intros a; apply Nat.eqb_refl|]. split.
    - intros a b H. apply Nat.eqb_eq in H. rewrite H. apply Nat.eqb_refl.
    - intros a b c H K. apply Nat.eqb_eq in H, K. rewrite H, K. apply Nat.eqb_refl.
  Qed.
  (** A hash that tells all sequences below apart. *)
  Definition hash (l : list (op ix)) : nat := fold_right (fun o s => 1 + 7 * s + (if creates o then 1 else 0) + 3 * snd (index o)) 0 l.

  Example a_history :
    neffects [NHug; NIns 1 (mkOp true (2, 5)); NErs 0; NAdj; NTrf (fun i => ((fst i, 9), true))]
             (map (mkOp true) [(1, 1); (1, 2)] ++ map (mkOp false) (rev [(1, 3); (2, 4)]))
    = Some [mkOp true (1, 9); mkOp true (2, 9); mkOp false (1, 9); mkOp false (2, 9)].
  Proof. reflexivity. Qed.

  (** Replacing indices by ones of another space leaves the vertex as it was: it shows two classes where
      there is one, also though the vertex built afresh shows one. *)
  Theorem C146_hug_refuted : exists (n n' : nop ix unit nat) w,
    do_ncalls space Nat.eqb true hash [NHug; NTrf (fun i => ((1, snd i), true))] (make_nop [(1, 1); (2, 2)] [] tt) = NOk n /\
    get_hug space true n = NOk (n', w) /\ ops n = [mkOp true (1, 1); mkOp true (1, 2)] /\
    num_nonempty_groups w = 2 /\ group_size true w 0 = HOk 1 /\ ~ shows (op_type_eqb space) true w (ops n).
  Proof.
    eexists. eexists. eexists. split; [reflexivity|]. split; [reflexivity|]. split; [reflexivity|]. split; [reflexivity|]. split; [reflexivity|].
    intros (_ & _ & H & _). destruct (H 0 (mkOp true (1, 1)) eq_refl) as (r & s & G & _ & (_ & P) & _).
    cbn in G. injection G as <- <-. destruct (proj2 (P 1)) as [E|[]]; [|discriminate].
    exists (mkOp true (1, 2)). split; reflexivity.
  Qed.

  (** Erasing afterwards even fails an assertion. *)
  Theorem C146_erase_fails_refuted :
    do_ncalls space Nat.eqb true hash [NHug; NTrf (fun i => ((1, snd i), true)); NErs 1] (make_nop (Vac := unit) [(1, 1); (2, 2)] [] tt) = NAssert.
  Proof. reflexivity. Qed.

  (** Inserting or erasing does not reset the memoized hash: with assertions the next hash fails, and
      without them equal operators compare as different. *)
  Theorem C147_hash_refuted :
    do_ncalls space Nat.eqb true hash [NHash; NErs 1; NHash] (make_nop (Vac := unit) [(1, 1); (1, 2)] [] tt) = NAssert /\
    exists (n m : nop ix unit nat),
      do_ncalls space Nat.eqb false hash [NHash; NErs 1] (make_nop [(1, 1); (1, 2)] [] tt) = NOk n /\
      m = make_nop [(1, 1)] [] tt /\ ops n = ops m /\ vacuum n = vacuum m /\ ncreators n = ncreators m /\
      nop_eqb ixeq (fun _ _ => true) Nat.eqb false hash n m = NOk false.
  Proof. split; [reflexivity|]. eexists. eexists. repeat (split; [reflexivity|]). reflexivity. Qed.
End NopExamples.
