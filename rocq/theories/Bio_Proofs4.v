From Coq Require Import List Arith Bool PeanoNat Lia QArith Qcanon Permutation.
From Verif Require Import Bio_Model Bio_Spec Bio_Proofs1 Bio_Proofs2 Bio_Proofs3.
Import ListNotations.
Local Open Scope nat_scope.

Lemma ix_eqb_eq : forall a b, ix_eqb a b = true <-> a = b.
Proof.
  intros [a1 a2] [b1 b2]. unfold ix_eqb. cbn. rewrite andb_true_iff, !Nat.eqb_eq.
  split; [intros [-> ->]; reflexivity|intros E; injection E; auto].
Qed.
Lemma ix_eqb_refl : forall a, ix_eqb a a = true.
Proof. intros a. apply ix_eqb_eq. reflexivity. Qed.
Lemma ix_eqb_neq : forall a b, a <> b -> ix_eqb a b = false.
Proof. intros a b H. destruct (ix_eqb a b) eqn:E; [|reflexivity]. apply ix_eqb_eq in E. contradiction. Qed.

Lemma nth_map_gen : forall (A B : Type) (f : A -> B) l i d d', i < length l ->
  nth i (map f l) d = f (nth i l d').
Proof.
  intros A B f l i d d' L. rewrite (nth_indep _ d (f d')) by (rewrite map_length; exact L).
  apply map_nth.
Qed.

Lemma good_seconds : forall e, good_pairing e -> NoDup (map snd e).
Proof.
  intros e H. unfold good_pairing in H. induction (map fst e) as [|x l IH]; [exact H|].
  cbn in H. inversion H. auto.
Qed.

Lemma psnd_inj : forall e i j, good_pairing e -> i < length e -> j < length e ->
  psnd e i = psnd e j -> i = j.
Proof.
  intros e i j H Li Lj E. apply good_seconds in H.
  apply (proj1 (NoDup_nth (map snd e) dix) H); rewrite ?map_length; try assumption.
  change dix with (snd (dix, dix)). rewrite !map_nth. exact E.
Qed.

Lemma find_second : forall e i, good_pairing e -> i < length e ->
  find_pos (fun x => ix_eqb (snd x) (psnd e i)) e = i.
Proof.
  intros e i H L. apply (find_pos_spec _ _ _ (dix, dix)); [exact L|apply ix_eqb_refl|].
  intros j Lj. apply ix_eqb_neq. intros E. apply (psnd_inj e j i) in E; [lia|exact H|lia|exact L].
Qed.

Lemma trans_self : forall tconv e, good_pairing e -> trans_perm tconv e e = seq 0 (length e).
Proof.
  intros tconv e H. unfold trans_perm.
  assert (E : map (fun c => find_pos (fun r => ix_eqb (snd r) (snd c)) e) e = seq 0 (length e)).
  { apply (nth_ext _ _ 0 0); rewrite map_length, ?seq_length; [reflexivity|]. intros i L.
    rewrite seq_nth by exact L.
    rewrite (nth_map_gen _ _ _ _ _ _ (dix, dix)) by exact L. apply (find_second e i H L). }
  rewrite E. destruct tconv; [reflexivity|].
  pose proof (id_is_perm (length e)) as P.
  rewrite <- (comp_id_r (length e) (invp (seq 0 (length e)))) by (apply invp_is_perm; exact P).
  apply comp_inv_l; exact P.
Qed.

Lemma invp_id : forall n, invp (seq 0 n) = seq 0 n.
Proof.
  intros n. pose proof (id_is_perm n) as P.
  rewrite <- (comp_id_r n (invp (seq 0 n))) by (apply invp_is_perm; exact P).
  apply comp_inv_l; exact P.
Qed.

Lemma rank_id : forall n, rank (seq 0 n) n = fact n - 1.
Proof.
  intros n. rewrite <- (unrank_last n) at 1. apply rank_unrank. pose proof (lt_O_fact n). lia.
Qed.

Lemma mulp_id_r : forall conv n p, is_perm n p -> mulp conv p (seq 0 n) = p.
Proof. intros [|] n p H; cbn; [apply comp_id_r|apply comp_id_l]; exact H. Qed.

Lemma all_some_map : forall (A B : Type) (f : A -> B) l, all_some (map (fun x => Some (f x)) l) = Some (map f l).
Proof. induction l as [|x l IH]; cbn; [reflexivity|]. rewrite IH. reflexivity. Qed.

Lemma psnd_In : forall e i, i < length e -> exists a, In a e /\ psnd e i = snd a /\ pfst e i = fst a.
Proof. intros e i L. exists (nth i e (dix, dix)). split; [apply nth_In; exact L|]. split; reflexivity. Qed.

Lemma compatible_self : forall e p, one_space e -> is_perm (length e) p -> compatible e p e = true.
Proof.
  intros e p O H. apply forallb_forall. intros c I1. apply existsb_exists.
  apply In_nth with (d := (dix, dix)) in I1. destruct I1 as (i & Li & E).
  exists i. split; [apply in_seq; lia|]. apply andb_true_iff. split.
  - apply Nat.eqb_eq. unfold pfst. rewrite E. reflexivity.
  - apply Nat.eqb_eq. destruct (psnd_In e (img p i)) as (a & Ia & Ea & _); [apply (img_lt (length e)); assumption|].
    rewrite Ea. apply O; [exact Ia|]. rewrite <- E. apply nth_In. exact Li.
Qed.

Definition coeffs_of (conv : bool) (computed : nat -> nat -> Qc) (n : nat) : option (nat -> nat -> Qc) :=
  if n <=? 5 then match bio_row n with Some row => Some (bio_entry conv row n) | None => None end
  else Some computed.

Lemma transform_single : forall conv tconv computed e coeff,
  good_pairing e -> one_space e -> coeffs_of conv computed (length e) = Some coeff ->
  transform conv tconv computed [e] =
  BOk [map (fun r => (coeff (fact (length e) - 1) r, (0, replacements e e (unrank r (length e)))))
           (seq 0 (fact (length e)))].
Proof.
  intros conv tconv computed e coeff G O C.
  assert (T : forall cf : nat -> nat -> Qc,
     all_some (map (fun i =>
                  let rk := nth i [rank (trans_perm tconv e e) (length e)] 0 in
                  let reference := invp (unrank rk (length e)) in
                  all_some
                    (map (fun r =>
                            let p := mulp conv (unrank r (length e)) reference in
                            match create_expr_for (nth i [e] []) p [e] with
                            | Some t => Some (cf rk r, t)
                            | None => None
                            end)
                         (seq 0 (fact (length e)))))
               (seq 0 (length [e]))) =
     Some [map (fun r => (cf (fact (length e) - 1) r, (0, replacements e e (unrank r (length e)))))
           (seq 0 (fact (length e)))]).
  { intros cf. cbn [length seq map nth]. cbv zeta.
    rewrite trans_self, rank_id, unrank_last, invp_id by exact G.
    rewrite (map_ext_in _ (fun r => Some (cf (fact (length e) - 1) r, (0, replacements e e (unrank r (length e)))))).
    - rewrite all_some_map. reflexivity.
    - intros r _. rewrite mulp_id_r by apply unrank_is_perm.
      unfold create_expr_for. cbn [find_pos].
      rewrite compatible_self; [|exact O|apply unrank_is_perm]. reflexivity. }
  unfold coeffs_of in C. unfold transform. cbn [map].
  destruct (length e <=? 5) eqn:L5.
  - destruct (bio_row (length e)) as [row|] eqn:R; [|discriminate]. injection C as <-.
    rewrite T. reflexivity.
  - injection C as <-. rewrite T. reflexivity.
Qed.

(* lookup in the replacement list *)
Definition rentry (e : pairing) (p : perm) (k : nat) : list (ix * ix) :=
  if ix_eqb (psnd e k) (psnd e (img p k)) then [] else [(psnd e k, psnd e (img p k))].

Lemma replacements_one : forall e p, one_space e -> is_perm (length e) p ->
  replacements e e p = flat_map (rentry e p) (seq 0 (length e)).
Proof.
  intros e p O H. unfold replacements.
  rewrite !flat_map_concat_map. f_equal. apply map_ext_in.
  intros k I1. apply in_seq in I1. unfold rentry. cbv zeta.
  destruct (ix_eqb (psnd e k) (psnd e (img p k))); [reflexivity|].
  destruct (psnd_In e k) as (a & Ia & Ea & _); [lia|].
  destruct (psnd_In e (img p k)) as (b & Ib & Eb & _); [apply (img_lt (length e)); [exact H|lia]|].
  rewrite Ea, Eb, (O a b Ia Ib), Nat.eqb_refl. reflexivity.
Qed.

Lemma find_app : forall (A : Type) (f : A -> bool) l m,
  find f (l ++ m) = match find f l with Some x => Some x | None => find f m end.
Proof. induction l as [|x l IH]; intros m; cbn; [reflexivity|]. destruct (f x); auto. Qed.

Lemma find_none_keys : forall e p i ks, (forall k, In k ks -> psnd e k <> i) ->
  find (fun x => ix_eqb (fst x) i) (flat_map (rentry e p) ks) = None.
Proof.
  induction ks as [|k ks IH]; intros H; [reflexivity|].
  cbn [flat_map]. rewrite find_app, IH by (intros; apply H; right; assumption).
  unfold rentry. destruct (ix_eqb (psnd e k) (psnd e (img p k))); [reflexivity|].
  cbn. rewrite ix_eqb_neq by (apply H; left; reflexivity). reflexivity.
Qed.

Lemma lookup_repl : forall e p i, good_pairing e -> one_space e -> is_perm (length e) p ->
  lookup_ix (replacements e e p) i = permute_seconds e p i.
Proof.
  intros e p i G O H. rewrite replacements_one by assumption.
  unfold lookup_ix, permute_seconds.
  destruct (existsb (fun k => ix_eqb (psnd e k) i) (seq 0 (length e))) eqn:X.
  - apply existsb_exists in X. destruct X as (k & Ik & E). apply in_seq in Ik.
    apply ix_eqb_eq in E. subst i. rewrite find_second by (assumption || lia).
    replace (k <? length e) with true by (symmetry; apply Nat.ltb_lt; lia).
    replace (seq 0 (length e)) with (seq 0 k ++ k :: seq (S k) (length e - S k)).
    2:{ change (k :: seq (S k) (length e - S k)) with (seq k (S (length e - S k))).
        replace k with (0 + k) at 2 by lia. rewrite <- seq_app. f_equal. lia. }
    rewrite flat_map_app, find_app.
    rewrite find_none_keys.
    2:{ intros j Ij E. apply in_seq in Ij. apply psnd_inj in E; [lia|exact G|lia|lia]. }
    cbn [flat_map]. rewrite find_app.
    rewrite find_none_keys.
    2:{ intros j Ij E. apply in_seq in Ij. apply psnd_inj in E; [lia|exact G|lia|lia]. }
    unfold rentry. destruct (ix_eqb (psnd e k) (psnd e (img p k))) eqn:Q.
    + cbn. apply ix_eqb_eq in Q. exact Q.
    + cbn. rewrite ix_eqb_refl. reflexivity.
  - assert (N : forall k, k < length e -> psnd e k <> i).
    { intros k L E. assert (T : existsb (fun k => ix_eqb (psnd e k) i) (seq 0 (length e)) = true).
      { apply existsb_exists. exists k. split; [apply in_seq; lia|]. apply ix_eqb_eq. exact E. }
      congruence. }
    rewrite find_none_keys by (intros k I1; apply N; apply in_seq in I1; lia).
    replace (find_pos (fun x => ix_eqb (snd x) i) e) with (length e).
    + rewrite Nat.ltb_irrefl. reflexivity.
    + assert (Z : forall l : pairing, (forall x, In x l -> snd x <> i) -> find_pos (fun x => ix_eqb (snd x) i) l = length l).
      { induction l as [|x l IH]; intros K; [reflexivity|]. cbn.
        rewrite ix_eqb_neq by (apply K; left; reflexivity). rewrite IH by (intros; apply K; right; assumption).
        reflexivity. }
      symmetry. apply Z. intros x I1 E. apply In_nth with (d := (dix, dix)) in I1.
      destruct I1 as (k & Lk & Ek). apply (N k Lk). unfold psnd. rewrite Ek. exact E.
Qed.

Lemma terms_single : forall (V : Type) (E : nat -> (ix -> V) -> Qc) e (cf : nat -> Qc) asg,
  (forall k a b, (forall i, a i = b i) -> E k a = E k b) ->
  good_pairing e -> one_space e ->
  terms_value E (map (fun r => (cf r, (0, replacements e e (unrank r (length e))))) (seq 0 (fact (length e)))) asg =
  sumq (map (fun r => (cf r * E 0%nat (fun i => asg (permute_seconds e (unrank r (length e)) i)))%Qc) (seq 0 (fact (length e)))).
Proof.
  intros V E e cf asg PE G O. unfold terms_value. rewrite map_map. apply sumq_map_ext. intros r _.
  cbn [fst snd]. f_equal. apply PE. intros i. rewrite lookup_repl; [reflexivity|exact G|exact O|apply unrank_is_perm].
Qed.

Lemma permuted_values : forall (V : Type) e s (asg : ix -> V) d, good_pairing e -> is_perm (length e) s ->
  map (fun i => asg (permute_seconds e s i)) (map snd e) =
  map (fun i => nth i (map asg (map snd e)) d) s.
Proof.
  intros V e s asg d G H. pose proof (is_perm_length _ _ H) as Ls.
  apply (nth_ext _ _ d d); rewrite !map_length; [symmetry; exact Ls|].
  intros k L. rewrite map_map.
  rewrite (nth_map_gen _ _ _ _ _ _ (dix, dix)) by exact L. change (snd (nth k e (dix, dix))) with (psnd e k).
  unfold permute_seconds. rewrite find_second by assumption.
  replace (k <? length e) with true by (symmetry; apply Nat.ltb_lt; exact L).
  rewrite nth_map_any by lia.
  assert (Lk : img s k < length e) by (apply (img_lt (length e)); assumption).
  rewrite map_map.
  rewrite (nth_map_gen _ _ _ _ _ _ (dix, dix)) by exact Lk. reflexivity.
Qed.

(* ---- projection ---- *)

Lemma nns_perm_sum : forall b k arr xb xk, 3 <= k <= 5 -> 5 <= b + k ->
  exists out, nns_project b k arr = Some out /\
    out xb xk = perm_sum (perms k) (nns_coef k) 0 (arr xb) xk.
Proof.
  intros b k arr xb xk Hk Hb. unfold nns_project.
  replace (b + k <=? 4) with false by (symmetry; apply Nat.leb_gt; lia).
  replace (k <? 3) with false by (symmetry; apply Nat.ltb_ge; lia).
  destruct (row_checks k ltac:(lia)) as (_ & LN & _).
  unfold nns_of in LN. unfold nns_coef.
  destruct (nns_row k) as [w|]; [|cbn in LN; pose proof (lt_O_fact k); lia].
  eexists. split; [reflexivity|]. cbv beta. rewrite LN.
  unfold perm_sum, perms, sumq. rewrite map_map. f_equal. apply map_ext_in. intros pr Ip.
  apply in_seq in Ip. rewrite rank_unrank by lia. f_equal. f_equal.
  unfold permuted_indices. rewrite map_map.
  pose proof (unrank_is_perm k pr) as P. pose proof (is_perm_length _ _ P) as LP.
  apply (nth_ext _ _ 0 0); rewrite !map_length, seq_length; [symmetry; exact LP|].
  intros i Li. rewrite nth_map_seq by exact Li. rewrite nth_map_any by lia.
  rewrite seq_nth by (apply (img_lt k); assumption). f_equal. lia.
Qed.

(* ---- filter ---- *)

Fixpoint keys_sorted (m : fmap) : Prop :=
  match m with
  | [] => True
  | (h, ts) :: r => ts <> [] /\ (forall e, In e r -> h < fst e) /\ keys_sorted r
  end.

Definition upd (ts : list (Qc * nat)) (s : Qc) (id : nat) : list (Qc * nat) :=
  match ts with
  | [] => [(s, id)]
  | (s0, _) :: _ =>
    if Qclt_le_dec (qabs s0) (qabs s) then [(s, id)]
    else if Qc_eq_dec (qabs s) (qabs s0) then ts ++ [(s, id)] else ts
  end.

Fixpoint assoc (h : nat) (m : fmap) : list (Qc * nat) :=
  match m with
  | [] => []
  | (h', ts) :: r => if h =? h' then ts else assoc h r
  end.

Lemma assoc_low : forall h m, (forall e, In e m -> h < fst e) -> assoc h m = [].
Proof.
  induction m as [|(h', ts) r IH]; intros H; [reflexivity|]. cbn.
  pose proof (H (h', ts) (or_introl eq_refl)) as L. cbn in L.
  replace (h =? h') with false by (symmetry; apply Nat.eqb_neq; lia).
  apply IH. intros e I1. apply H. right; exact I1.
Qed.

Lemma upd_nonempty : forall ts s id, upd ts s id <> [].
Proof.
  intros ts s id. destruct ts as [|(s0, i0) ts]; cbn; [discriminate|].
  destruct (Qclt_le_dec _ _); [discriminate|]. destruct (Qc_eq_dec _ _); discriminate.
Qed.

Lemma fstep_keys : forall m s h id e, In e (fstep m s h id) -> fst e = h \/ exists e', In e' m /\ fst e' = fst e.
Proof.
  induction m as [|(h', ts) r IH]; intros s h id e I1.
  - cbn in I1. destruct I1 as [<-|[]]. left; reflexivity.
  - cbn [fstep] in I1. destruct (h =? h') eqn:E.
    + right. apply Nat.eqb_eq in E.
      assert (K : fst e = h' \/ In e r).
      { destruct ts as [|(s0, i0) ts'].
        - destruct I1 as [<-|I1]; [left; reflexivity|right; exact I1].
        - destruct (Qclt_le_dec _ _); [|destruct (Qc_eq_dec _ _)];
            (destruct I1 as [<-|I1]; [left; reflexivity|right; exact I1]). }
      destruct K as [K|K]; [exists (h', ts); split; [left; reflexivity|symmetry; exact K]|
                            exists e; split; [right; exact K|reflexivity]].
    + destruct (h <? h').
      * destruct I1 as [<-|I1]; [left; reflexivity|right; exists e; auto].
      * destruct I1 as [<-|I1]; [right; exists (h', ts); split; [left; reflexivity|reflexivity]|].
        apply IH in I1. destruct I1 as [I1|(e' & I1 & I2)]; [left; exact I1|].
        right. exists e'. split; [right; exact I1|exact I2].
Qed.

Lemma fstep_same : forall h ts r s id, ts <> [] ->
  fstep ((h, ts) :: r) s h id = (h, upd ts s id) :: r.
Proof.
  intros h ts r s id N. cbn [fstep]. rewrite Nat.eqb_refl.
  destruct ts as [|(s0, i0) ts']; [contradiction|]. cbn [upd].
  destruct (Qclt_le_dec _ _); [reflexivity|]. destruct (Qc_eq_dec _ _); reflexivity.
Qed.

Lemma fstep_spec : forall m s h id, keys_sorted m ->
  keys_sorted (fstep m s h id) /\
  (forall h0, assoc h0 (fstep m s h id) = if h0 =? h then upd (assoc h m) s id else assoc h0 m).
Proof.
  induction m as [|(h', ts) r IH]; intros s h id S0.
  - cbn. split; [split; [discriminate|split; [intros e []|exact Logic.I]]|]. reflexivity.
  - destruct S0 as (N & LB & S1). destruct (h =? h') eqn:E.
    + apply Nat.eqb_eq in E. subst h'. rewrite fstep_same by exact N. split.
      * cbn. split; [apply upd_nonempty|]. auto.
      * intros h0. cbn. rewrite Nat.eqb_refl. destruct (h0 =? h); reflexivity.
    + cbn [fstep]. rewrite E. apply Nat.eqb_neq in E. destruct (h <? h') eqn:Q.
      * apply Nat.ltb_lt in Q. split.
        -- cbn. split; [discriminate|]. split; [|auto].
           intros e [<-|I1]; [exact Q|]. specialize (LB e I1). lia.
        -- intros h0. cbn [assoc]. rewrite (proj2 (Nat.eqb_neq h h') E).
           rewrite assoc_low with (h := h); [|intros e I1; specialize (LB e I1); lia].
           cbn [upd]. destruct (h0 =? h); reflexivity.
      * apply Nat.ltb_ge in Q. destruct (IH s h id S1) as (IH1 & IH2). split.
        -- cbn. split; [exact N|]. split; [|exact IH1].
           intros e I1. apply fstep_keys in I1. destruct I1 as [->|(e' & I1 & <-)]; [lia|]. apply LB, I1.
        -- intros h0. cbn [assoc]. rewrite (proj2 (Nat.eqb_neq h h') E), IH2.
           destruct (h0 =? h') eqn:W; [|reflexivity].
           apply Nat.eqb_eq in W. subst h0.
           replace (h' =? h) with false by (symmetry; apply Nat.eqb_neq; lia). reflexivity.
Qed.

Lemma qleb_iff : forall a b, qleb a b = true <-> (a <= b)%Qc.
Proof.
  intros a b. unfold qleb. destruct (Qclt_le_dec b a) as [G|G]; split; intros H; try assumption; try reflexivity.
  - discriminate.
  - exfalso. exact (Qclt_not_le _ _ G H).
Qed.

Lemma in_largest : forall l x, In x (largest l) <->
  In x l /\ forall y, In y l -> (qabs (fst y) <= qabs (fst x))%Qc.
Proof.
  intros l x. unfold largest. rewrite filter_In, forallb_forall. split; intros (A & B); split; auto.
  - intros y I1. apply qleb_iff, B, I1.
  - intros y I1. apply qleb_iff, B, I1.
Qed.

Lemma largest_exists : forall l : list (Qc * nat), l <> [] -> exists x, In x l /\
  forall y, In y l -> (qabs (fst y) <= qabs (fst x))%Qc.
Proof.
  induction l as [|x l IH]; intros N; [contradiction|].
  destruct l as [|z l'].
  - exists x. split; [left; reflexivity|]. intros y [<-|[]]. apply Qcle_refl.
  - destruct (IH ltac:(discriminate)) as (m & I1 & M).
    destruct (Qclt_le_dec (qabs (fst x)) (qabs (fst m))) as [G|G].
    + exists m. split; [right; exact I1|]. intros y [<-|I2]; [apply Qclt_le_weak, G|apply M, I2].
    + exists x. split; [left; reflexivity|]. intros y [<-|I2]; [apply Qcle_refl|].
      apply Qcle_trans with (qabs (fst m)); [apply M, I2|exact G].
Qed.

Lemma largest_nil : forall l, largest l = [] -> l = [].
Proof.
  intros l E. destruct l as [|x l]; [reflexivity|]. exfalso.
  destruct (largest_exists (x :: l) ltac:(discriminate)) as (m & I1 & M).
  assert (K : In m (largest (x :: l))) by (apply in_largest; auto).
  rewrite E in K. destruct K.
Qed.

Lemma filter_none : forall (A : Type) (f : A -> bool) l, (forall x, In x l -> f x = false) -> filter f l = [].
Proof.
  induction l as [|x l IH]; intros H; [reflexivity|]. cbn. rewrite H by (left; reflexivity).
  apply IH. intros; apply H; right; assumption.
Qed.

Lemma largest_app : forall l s id, largest (l ++ [(s, id)]) = upd (largest l) s id.
Proof.
  intros l s id. destruct (largest l) as [|(s0, i0) rest] eqn:E.
  - apply largest_nil in E. subst l. cbn. unfold largest. cbn.
    replace (qleb (qabs s) (qabs s)) with true; [reflexivity|].
    symmetry. apply qleb_iff, Qcle_refl.
  - assert (X0 : In (s0, i0) (largest l)) by (rewrite E; left; reflexivity).
    apply in_largest in X0. destruct X0 as (I0 & M0). cbn [fst] in M0.
    unfold largest. rewrite filter_app. cbn [upd]. cbn [filter].
    assert (FB : forall t : Qc * nat, forallb (fun u => qleb (qabs (fst u)) (qabs (fst t))) (l ++ [(s, id)]) =
                   forallb (fun u => qleb (qabs (fst u)) (qabs (fst t))) l && qleb (qabs s) (qabs (fst t))).
    { intros t. rewrite forallb_app. cbn. rewrite andb_true_r. reflexivity. }
    rewrite FB. cbn [fst].
    replace (qleb (qabs s) (qabs s)) with true by (symmetry; apply qleb_iff, Qcle_refl).
    rewrite andb_true_r.
    destruct (Qclt_le_dec (qabs s0) (qabs s)) as [G|G].
    + rewrite filter_none.
      * replace (forallb _ l) with true; [reflexivity|]. symmetry. apply forallb_forall. intros u Iu.
        apply qleb_iff. apply Qcle_trans with (qabs s0); [apply M0, Iu|apply Qclt_le_weak, G].
      * intros x Ix. rewrite FB. apply andb_false_iff. right.
        destruct (qleb (qabs s) (qabs (fst x))) eqn:Q; [|reflexivity]. apply qleb_iff in Q.
        exfalso. apply (Qclt_not_le _ _ G). apply Qcle_trans with (qabs (fst x)); [exact Q|apply M0, Ix].
    + assert (F1 : filter (fun t : Qc * nat => forallb (fun u => qleb (qabs (fst u)) (qabs (fst t))) (l ++ [(s, id)])) l = (s0, i0) :: rest).
      { rewrite <- E. unfold largest. apply filter_ext_in'. intros x Ix. rewrite FB.
        destruct (forallb (fun u => qleb (qabs (fst u)) (qabs (fst x))) l) eqn:Q; [|reflexivity].
        cbn. apply qleb_iff. rewrite forallb_forall in Q. specialize (Q (s0, i0) I0). apply qleb_iff in Q.
        apply Qcle_trans with (qabs s0); [exact G|exact Q]. }
      rewrite F1. destruct (Qc_eq_dec (qabs s) (qabs s0)) as [Q|Q].
      * replace (forallb _ l) with true; [reflexivity|]. symmetry. apply forallb_forall. intros u Iu.
        apply qleb_iff. rewrite Q. apply M0, Iu.
      * replace (forallb _ l) with false; [apply app_nil_r|]. symmetry.
        destruct (forallb (fun u => qleb (qabs (fst u)) (qabs s)) l) eqn:W; [|reflexivity]. exfalso.
        rewrite forallb_forall in W. specialize (W (s0, i0) I0). apply qleb_iff in W. cbn [fst] in W.
        apply Q. apply Qcle_antisym; assumption.
Qed.

Lemma group_app : forall h a b, group h (a ++ b) = group h a ++ group h b.
Proof. intros. unfold group. apply flat_map_app. Qed.

Lemma fold_filter_inv : forall ts seen m,
  keys_sorted m -> (forall h, assoc h m = largest (group h seen)) ->
  let m' := fold_left (fun m t => match t with FProd s h id => fstep m s h id | FOther _ => m end) ts m in
  keys_sorted m' /\ forall h, assoc h m' = largest (group h (seen ++ ts)).
Proof.
  induction ts as [|t ts IH]; intros seen m S0 A; cbn [fold_left].
  - cbv zeta. rewrite app_nil_r. auto.
  - replace (seen ++ t :: ts) with ((seen ++ [t]) ++ ts) by (rewrite <- app_assoc; reflexivity).
    destruct t as [s h id|id].
    + destruct (fstep_spec m s h id S0) as (K1 & K2). apply IH; [exact K1|].
      intros h0. rewrite K2, group_app. cbn [group flat_map].
      rewrite (Nat.eqb_sym h h0). destruct (h0 =? h) eqn:E.
      * apply Nat.eqb_eq in E. subst h0. rewrite A. cbn. rewrite largest_app. reflexivity.
      * cbn. rewrite app_nil_r. apply A.
    + apply IH; [exact S0|]. intros h0. rewrite group_app. cbn. rewrite app_nil_r. apply A.
Qed.

Lemma group_emit : forall h h' (l : list (Qc * nat)),
  group h (map (fun t => FProd (fst t) h' (snd t)) l) = if h' =? h then l else [].
Proof.
  induction l as [|(s, i) l IH]; cbn.
  - destruct (h' =? h); reflexivity.
  - unfold group in IH. rewrite IH. destruct (h' =? h); reflexivity.
Qed.

Lemma group_flat : forall m h, keys_sorted m ->
  group h (flat_map (fun e => map (fun t => FProd (fst t) (fst e) (snd t)) (snd e)) m) = assoc h m.
Proof.
  induction m as [|(h', ts) r IH]; intros h S0; [reflexivity|].
  destruct S0 as (_ & LB & S1). cbn [flat_map fst snd]. rewrite group_app, group_emit, IH by exact S1.
  cbn. rewrite (Nat.eqb_sym h' h). destruct (h =? h') eqn:E; [|reflexivity].
  apply Nat.eqb_eq in E. subst h'. rewrite assoc_low; [apply app_nil_r|exact LB].
Qed.

Lemma wk_filter_groups : forall n ts h, 2 < n -> group h (wk_filter n ts) = largest (group h ts).
Proof.
  intros n ts h L. unfold wk_filter. replace (n <=? 2) with false by (symmetry; apply Nat.leb_gt; lia).
  destruct (fold_filter_inv ts [] [] Logic.I (fun _ => eq_refl)) as (K1 & K2).
  rewrite group_flat by exact K1. apply K2.
Qed.

Lemma wk_filter_products : forall n ts t, 2 < n -> In t (wk_filter n ts) -> is_product t.
Proof.
  intros n ts t L I1. unfold wk_filter in I1.
  replace (n <=? 2) with false in I1 by (symmetry; apply Nat.leb_gt; lia).
  apply in_flat_map in I1. destruct I1 as (e & _ & I2). apply in_map_iff in I2.
  destruct I2 as (x & <- & _). exact Logic.I.
Qed.
