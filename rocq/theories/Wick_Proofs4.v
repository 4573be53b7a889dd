(** Refinement of the recursion: connectivity bookkeeping, one contraction, the loops. *)
From Coq Require Import List NArith ZArith Bool Arith Lia Permutation.
From Verif Require Import Wick_Model Wick_Spec Wick_Proofs1 Wick_Proofs2 Wick_Proofs3.
Import ListNotations.

(** * Bit masks and the triangular matrix *)
Lemma firstn_skipn_nth {X} (l : list X) i d : i < length l -> l = firstn i l ++ nth i l d :: skipn (S i) l.
Proof. revert i. induction l as [|x l IH]; intros i H; [cbn in H; lia|]. destruct i as [|i]; [reflexivity|]. cbn in H. cbn [firstn nth skipn app]. f_equal. apply IH. lia. Qed.

Lemma update_split {X} (l : list X) i (f : X -> X) d : i < length l ->
  firstn i l ++ match skipn i l with [] => [] | x :: l' => f x :: l' end = firstn i l ++ f (nth i l d) :: skipn (S i) l.
Proof.
  intros H. f_equal. rewrite (firstn_skipn_nth l i d H) at 1.
  rewrite skipn_app, skipn_all2 by (rewrite firstn_length; lia). rewrite firstn_length, Nat.min_l, Nat.sub_diag by lia. reflexivity.
Qed.

Lemma nth_update {X} (l : list X) i (f : X -> X) d k : i < length l ->
  nth k (firstn i l ++ match skipn i l with [] => [] | x :: l' => f x :: l' end) d = if Nat.eqb k i then f (nth i l d) else nth k l d.
Proof.
  intros H. rewrite (update_split l i f d H).
  destruct (Nat.eqb_spec k i) as [->|E].
  - rewrite app_nth2; rewrite firstn_length, Nat.min_l, ?Nat.sub_diag by lia; [reflexivity|lia].
  - transitivity (nth k (firstn i l ++ nth i l d :: skipn (S i) l) d); [|rewrite <- (firstn_skipn_nth l i d H); reflexivity]. destruct (Nat.lt_ge_cases k i) as [Hk|Hk].
    + rewrite !app_nth1 by (rewrite firstn_length; lia). reflexivity.
    + rewrite !app_nth2; rewrite firstn_length, Nat.min_l by lia; [|lia|lia].
      destruct (k - i) as [|j] eqn:Ej; [lia|reflexivity].
Qed.

Lemma length_update {X} (l : list X) i (f : X -> X) :
  length (firstn i l ++ match skipn i l with [] => [] | x :: l' => f x :: l' end) = length l.
Proof.
  rewrite <- (firstn_skipn i l) at 3. rewrite !app_length. f_equal. destruct (skipn i l); reflexivity.
Qed.

Lemma bit_set l i j a b : i < length l -> bit (set_bit l i j) a b = (Nat.eqb a i && Nat.eqb b j) || bit l a b.
Proof.
  intros H. unfold bit, set_bit. rewrite (nth_update l i (fun x => N.setbit x (N.of_nat j))) by exact H.
  destruct (Nat.eqb_spec a i) as [->|E]; [|reflexivity]. cbn [andb].
  rewrite N.setbit_eqb. f_equal. destruct (Nat.eqb_spec b j) as [->|E]; [apply N.eqb_refl|]. apply N.eqb_neq. lia.
Qed.
Lemma bit_reset l i j a b : i < length l -> bit (reset_bit l i j) a b = negb (Nat.eqb a i && Nat.eqb b j) && bit l a b.
Proof.
  intros H. unfold bit, reset_bit. rewrite (nth_update l i (fun x => N.clearbit x (N.of_nat j))) by exact H.
  destruct (Nat.eqb_spec a i) as [->|E]; [|reflexivity]. cbn [andb].
  rewrite N.clearbit_eqb, andb_comm. f_equal. f_equal. destruct (Nat.eqb_spec b j) as [->|E]; [apply N.eqb_refl|]. apply N.eqb_neq. lia.
Qed.
Lemma length_set l i j : length (set_bit l i j) = length l. Proof. apply (length_update l i (fun x => N.setbit x (N.of_nat j))). Qed.
Lemma length_reset l i j : length (reset_bit l i j) = length l. Proof. apply (length_update l i (fun x => N.clearbit x (N.of_nat j))). Qed.

Lemma bits_ext l l' : length l = length l' -> (forall a b, a < length l -> bit l a b = bit l' a b) -> l = l'.
Proof.
  intros Hl H. apply nth_ext with (d := 0%N) (d' := 0%N); [exact Hl|]. intros a Ha. apply N.bits_inj. intros b.
  specialize (H a (N.to_nat b) Ha). unfold bit in H. rewrite N2Nat.id in H. exact H.
Qed.

Lemma nth_replace {X} (l : list X) i (f : X -> X) d k : i < length l ->
  nth k (replace_nth l i f) d = if Nat.eqb k i then f (nth i l d) else nth k l d.
Proof. apply nth_update. Qed.
Lemma length_replace {X} (l : list X) i (f : X -> X) : length (replace_nth l i f) = length l.
Proof. apply length_update. Qed.
Lemma replace_replace {X} (l : list X) i (f g : X -> X) : i < length l -> (forall x, g (f x) = x) -> replace_nth (replace_nth l i f) i g = l.
Proof.
  intros H Hgf. destruct l as [|d l0] eqn:E; [cbn in H; lia|]. rewrite <- E in *. clear E l0.
  apply nth_ext with (d := d) (d' := d); rewrite !length_replace; [reflexivity|].
  intros k Hk. rewrite nth_replace by (rewrite length_replace; exact H). rewrite !nth_replace by exact H.
  rewrite Nat.eqb_refl, Hgf. destruct (Nat.eqb_spec k i) as [->|E]; reflexivity.
Qed.

(** the rows of the triangle *)
Definition tri_row (i n : nat) : nat := i * (2 * n - i - 1) / 2.
Lemma tri_row_double i n : i < n -> 2 * tri_row i n = i * (2 * n - i - 1).
Proof.
  intros H. unfold tri_row. assert (Hd : Nat.Even (i * (2 * n - i - 1))).
  { destruct (Nat.Even_or_Odd i) as [[k E]|[k E]].
    - exists (k * (2 * n - i - 1)). rewrite E. ring.
    - exists (i * (n - k - 1)). replace (2 * n - i - 1) with (2 * (n - k - 1)) by lia. ring. }
  destruct Hd as [k E]. rewrite E. rewrite (Nat.mul_comm 2 k) at 1. rewrite Nat.div_mul by lia. reflexivity.
Qed.
Lemma tri_row_S i n : S i < n -> tri_row (S i) n = tri_row i n + (n - i - 1).
Proof.
  intros H. pose proof (tri_row_double i n ltac:(lia)) as H1. pose proof (tri_row_double (S i) n H) as H2.
  assert (E : S i * (2 * n - S i - 1) = i * (2 * n - i - 1) + 2 * (n - i - 1)).
  { destruct (Nat.le_exists_sub (S (S i)) n H) as (d & -> & _).
    replace (2 * (d + S (S i)) - S i - 1) with (2 * d + i + 2) by lia.
    replace (2 * (d + S (S i)) - i - 1) with (2 * d + i + 3) by lia.
    replace (d + S (S i) - i - 1) with (d + 1) by lia. ring. }
  lia.
Qed.
Lemma uptri_row i j n : i < j < n -> uptri_idx i j n = tri_row i n + (j - i - 1).
Proof. intros H. unfold uptri_idx. fold (tri_row i n). generalize (tri_row i n). intros q. lia. Qed.
Lemma tri_row_le i i' n : i <= i' -> i' < n -> tri_row i n <= tri_row i' n.
Proof.
  induction 1 as [|i' Hle IH]; intros Hn; [lia|]. rewrite tri_row_S by lia. specialize (IH ltac:(lia)). lia.
Qed.
Lemma uptri_inj i j i' j' n : i < j < n -> i' < j' < n -> uptri_idx i j n = uptri_idx i' j' n -> i = i' /\ j = j'.
Proof.
  intros H H' E. rewrite !uptri_row in E by assumption.
  destruct (Nat.lt_trichotomy i i') as [L|[->|L]].
  - pose proof (tri_row_le (S i) i' n ltac:(lia) ltac:(lia)). rewrite tri_row_S in H0 by lia. lia.
  - lia.
  - pose proof (tri_row_le (S i') i n ltac:(lia) ltac:(lia)). rewrite tri_row_S in H0 by lia. lia.
Qed.
Lemma uptri_bound i j n : i < j < n -> uptri_idx i j n < ntri n.
Proof.
  intros H. rewrite uptri_row by exact H.
  assert (E : ntri n = tri_row (n - 2) n + 1).
  { unfold ntri. pose proof (tri_row_double (n - 2) n ltac:(lia)) as H1.
    replace (2 * n - (n - 2) - 1) with (n + 1) in H1 by lia.
    assert (E : n * (n - 1) = (tri_row (n - 2) n + 1) * 2).
    { rewrite Nat.mul_add_distr_r, (Nat.mul_comm _ 2), H1. destruct (Nat.le_exists_sub 2 n ltac:(lia)) as (d & -> & _).
      replace (d + 2 - 1) with (d + 1) by lia. replace (d + 2 - 2) with d by lia. ring. }
    rewrite E, Nat.div_mul by lia. reflexivity. }
  rewrite E. destruct (Nat.eq_dec i (n - 2)) as [->|Hi]; [lia|].
  pose proof (tri_row_le (S i) (n - 2) n ltac:(lia) ltac:(lia)) as H0. rewrite tri_row_S in H0 by lia. lia.
Qed.

Section Refine.
  Context {I F : Type}.
  Variable ieqb : I -> I -> bool.
  Hypothesis ieqb_spec : forall i j, ieqb i j = true <-> i = j.
  Notation op := (op I).
  Notation nest := (list (list op)).
  Notation T := (nat * op)%type.
  Notation flat n := (tag_nest n 0).
  Variable fermi : bool.
  Variable is_qpann : op -> bool.
  Variable can_contract : op -> op -> bool.
  Variable contract : op -> op -> list F.
  Hypothesis contract_nonempty : forall l r, can_contract l r = true -> contract l r <> [].
  Variable full count_only spinfree : bool.
  Variable target avoided : list N.
  Variable partners : list (I * I).
  Notation sg := (sign fermi).

  Variable m : nat.   (* the number of normal operators *)

  Notation connect := (connect ieqb (F := F) target avoided).
  Notation disconnect := (disconnect ieqb (F := F) target).
  Notation emit := (emit ieqb (F := F) fermi full count_only spinfree partners).
  Notation contract_one := (contract_one ieqb fermi contract full count_only spinfree target avoided partners).
  Notation right_loop := (right_loop ieqb fermi can_contract contract full count_only spinfree target avoided partners).
  Notation left_loop := (left_loop ieqb fermi can_contract contract full count_only spinfree target avoided partners).
  Notation wick := (wick ieqb fermi is_qpann can_contract contract full count_only spinfree target avoided partners).
  Notation wst := (wstate (I := I) (F := F)).

  (** ** Which contractions are allowed, in terms of the pairs contracted so far *)
  Definition joinedb (prev : list (T * T)) (i j : nat) : bool :=
    existsb (fun xy => (Nat.eqb (fst (fst xy)) i && Nat.eqb (fst (snd xy)) j) || (Nat.eqb (fst (fst xy)) j && Nat.eqb (fst (snd xy)) i)) prev.
  Definition needs (prev : list (T * T)) (k : nat) : nat :=
    length (filter (fun i => negb (joinedb prev k i || bit target k i)) (seq 0 32)).
  Definition allow (prev : list (T * T)) (cur : list T) (x y : T) : bool :=
    match avoided with [] => true | _ => bit avoided (fst x) (fst y) end &&
    match target with
    | [] => true
    | _ => (needs (prev ++ [(x, y)]) (fst x) <=? length (members (fst x) cur) - 1) &&
           (needs (prev ++ [(x, y)]) (fst y) <=? length (members (fst y) cur) - 1)
    end.
  Notation eligible := (eligible can_contract allow).
  Notation go := (go fermi can_contract allow).
  Notation gof := (gof fermi is_qpann can_contract allow).

  Definition untag (xy : T * T) : op * op := (snd (fst xy), snd (snd xy)).
  Definition pair_count (prev : list (T * T)) (i j : nat) : nat :=
    length (filter (fun xy => Nat.eqb (fst (fst xy)) i && Nat.eqb (fst (snd xy)) j) prev).

  Definition conn_ok (s : wst) (prev : list (T * T)) : Prop :=
    length (w_conn s) = m /\ length (w_adj s) = ntri m /\
    (forall a b, a < m -> bit (w_conn s) a b = joinedb prev a b) /\
    (forall a b, a < b < m -> nth (uptri_idx a b m) (w_adj s) 0 = pair_count prev a b).

  Definition inv (s : wst) (prev : list (T * T)) : Prop :=
    length (w_nest s) = m /\
    w_size s = opsize (w_nest s) /\
    w_contr s = map untag prev /\
    w_fac0 s <= length (w_fac s) /\
    NoDup (map snd (flat (w_nest s))) /\
    (forall x y, In (x, y) prev -> fst x < fst y < m /\ ~ In (snd x) (map snd (flat (w_nest s)))) /\
    (target <> [] -> conn_ok s prev).

  Definition core (s s' : wst) : Prop :=
    w_nest s' = w_nest s /\ w_size s' = w_size s /\ w_scal s' = w_scal s /\ w_fac s' = w_fac s /\ w_fac0 s' = w_fac0 s /\
    w_contr s' = w_contr s /\ w_conn s' = w_conn s /\ w_adj s' = w_adj s.

  Lemma core_refl s : core s s. Proof. unfold core. auto 10. Qed.
  Lemma core_trans s1 s2 s3 : core s1 s2 -> core s2 s3 -> core s1 s3.
  Proof. unfold core. intuition congruence. Qed.
  Lemma inv_core s s' prev : core s s' -> inv s prev -> inv s' prev.
  Proof.
    unfold core, inv, conn_ok. intros (E1 & E2 & E3 & E4 & E5 & E6 & E7 & E8). rewrite E1, E2, E4, E5, E6, E7, E8. auto.
  Qed.

  (** The term made of a pattern found from the state [s]. *)
  Definition fin (z : Z) (fac : list F) (ct : list (op * op)) (n : nest) : res wterm :=
    finish_term ieqb fermi full spinfree partners (mkw n 0 z fac 0 ct 0 [] [] 0 []).
  Lemma finish_term_fin (s : wst) : finish_term ieqb fermi full spinfree partners s = fin (w_scal s) (w_fac s) (w_contr s) (w_nest s).
  Proof. reflexivity. Qed.
  Definition out_of (s : wst) (t : pterm op) : res wterm :=
    fin (w_scal s * p_sign t) (w_fac s ++ flat_map (fun xy => contract (snd (fst xy)) (snd (snd xy))) (p_pairs t))
        (w_contr s ++ map untag (p_pairs t)) (unflat m (p_rest t)).
  Lemma out_of_core s s' t : core s s' -> out_of s' t = out_of s t.
  Proof. intros (E1 & E2 & E3 & E4 & E5 & E6 & E7 & E8). unfold out_of. rewrite E3, E4, E6. reflexivity. Qed.

  Definition fin_ok (s : wst) (ts : list (pterm op)) : Prop := count_only = false -> forall t, In t ts -> exists o, out_of s t = Ok o.

  Definition result (s : wst) (ts : list (pterm op)) (s' : wst) : Prop :=
    core s s' /\
    if count_only then w_count s' = w_count s + length ts /\ w_out s' = w_out s
    else w_count s' = w_count s /\ exists os, Forall2 (fun t o => out_of s t = Ok o) ts os /\ w_out s' = rev os ++ w_out s.

  Lemma result_nil s s' : core s s' -> w_count s' = w_count s -> w_out s' = w_out s -> result s [] s'.
  Proof.
    intros H1 H2 H3. split; [exact H1|]. destruct count_only; [split; [cbn; lia|auto]|]. split; [auto|]. exists []. split; [constructor|exact H3].
  Qed.
  Lemma result_app s s1 s2 t1 t2 : result s t1 s1 -> result s1 t2 s2 -> result s (t1 ++ t2) s2.
  Proof.
    intros (C1 & H1) (C2 & H2). split; [exact (core_trans _ _ _ C1 C2)|].
    destruct count_only.
    - rewrite app_length. destruct H1, H2. split; [lia|congruence].
    - destruct H1 as (H1 & os1 & F1 & O1), H2 as (H2 & os2 & F2 & O2). split; [congruence|].
      exists (os1 ++ os2). split.
      + apply Forall2_app; [exact F1|]. clear -F2 C1. induction F2; constructor; auto. rewrite <- (out_of_core s s1 x C1). auto.
      + rewrite O2, O1, rev_app_distr, app_assoc. reflexivity.
  Qed.

  Lemma fin_ok_app s t1 t2 : fin_ok s (t1 ++ t2) -> fin_ok s t1 /\ fin_ok s t2.
  Proof. intros H. split; intros E t Ht; apply (H E); apply in_app_iff; auto. Qed.
  Lemma fin_ok_core s s' ts : core s s' -> fin_ok s ts -> fin_ok s' ts.
  Proof. intros C H E t Ht. rewrite (out_of_core s s' t C). apply H; auto. Qed.

  Lemma op_eqb_spec (a b : op) : op_eqb ieqb a b = true <-> a = b.
  Proof.
    unfold op_eqb. rewrite andb_true_iff, ieqb_spec, Bool.eqb_true_iff. destruct a, b; cbn. split; [intros (-> & ->); reflexivity|intros E; injection E; auto].
  Qed.
  Lemma pair_eqb_spec (a b : op * op) : pair_eqb ieqb a b = true <-> a = b.
  Proof. unfold pair_eqb. rewrite andb_true_iff, !op_eqb_spec. destruct a, b; cbn. split; [intros (-> & ->); reflexivity|intros E; injection E; auto]. Qed.

  Lemma remove_pair_last p l : (forall q, In q l -> q <> p) -> remove_pair ieqb p (l ++ [p]) = Some l.
  Proof.
    induction l as [|q l IH]; intros H; cbn.
    - assert (pair_eqb ieqb p p = true) as -> by (apply pair_eqb_spec; reflexivity). reflexivity.
    - destruct (pair_eqb ieqb q p) eqn:E; [apply pair_eqb_spec in E; elim (H q (or_introl eq_refl) E)|].
      rewrite IH; [reflexivity|]. intros; apply H; right; auto.
  Qed.

  Lemma joinedb_app prev x y i j : joinedb (prev ++ [(x, y)]) i j =
    joinedb prev i j || ((Nat.eqb (fst x) i && Nat.eqb (fst y) j) || (Nat.eqb (fst x) j && Nat.eqb (fst y) i)).
  Proof. unfold joinedb. rewrite existsb_app. cbn [existsb fst snd]. rewrite orb_false_r. reflexivity. Qed.
  Lemma joinedb_sym prev i j : joinedb prev i j = joinedb prev j i.
  Proof. unfold joinedb. induction prev as [|xy prev IH]; [reflexivity|]. cbn [existsb]. rewrite IH, (orb_comm (_ && _) (_ && _)). reflexivity. Qed.
  Lemma joinedb_count prev i j : i < j -> (forall x y, In (x, y) prev -> fst x < fst y < m) ->
    joinedb prev i j = negb (Nat.eqb (pair_count prev i j) 0).
  Proof.
    intros Hij. unfold pair_count. induction prev as [|[x y] prev IH]; intros H; [reflexivity|].
    unfold joinedb in *. cbn [existsb fst snd filter]. rewrite IH by (intros; apply H; right; auto).
    specialize (H x y (or_introl eq_refl)).
    destruct (Nat.eqb_spec (fst x) i), (Nat.eqb_spec (fst y) j); cbn [andb orb].
    - reflexivity.
    - destruct (Nat.eqb_spec (fst x) j), (Nat.eqb_spec (fst y) i); cbn [andb orb]; try reflexivity; lia.
    - destruct (Nat.eqb_spec (fst x) j), (Nat.eqb_spec (fst y) i); cbn [andb orb]; try reflexivity; lia.
    - destruct (Nat.eqb_spec (fst x) j), (Nat.eqb_spec (fst y) i); cbn [andb orb]; try reflexivity; lia.
  Qed.
  Lemma pair_count_app prev x y i j : pair_count (prev ++ [(x, y)]) i j = pair_count prev i j + (if Nat.eqb (fst x) i && Nat.eqb (fst y) j then 1 else 0).
  Proof.
    unfold pair_count. rewrite filter_app, app_length. f_equal. cbn [filter fst snd].
    destruct (Nat.eqb (fst x) i && Nat.eqb (fst y) j); reflexivity.
  Qed.

  Lemma nth_members (n : nest) k : length (nth k n []) = length (members k (flat n)).
  Proof. rewrite members_tag_nest, Nat.sub_0_r. reflexivity. Qed.

  (** ** connect and disconnect *)
  Definition registered (s : wst) (l r : op) (conn : list N) (adj : list nat) : wst :=
    mkw (w_nest s) (w_size s) (w_scal s) (w_fac s) (w_fac0 s) (w_contr s ++ [(l, r)]) (w_off s) conn adj (w_count s) (w_out s).

  Lemma connect_ok s prev cl cr P x u y v :
    inv s prev -> at_elem (w_nest s) cl P x (u ++ y :: v) -> at_elem (w_nest s) cr (P ++ x :: u) y v -> fst x <> fst y ->
    if allow prev (flat (w_nest s)) x y
    then exists conn adj, connect s cl cr (snd x) (snd y) = Ok (true, registered s (snd x) (snd y) conn adj) /\
         (target <> [] -> adj = replace_nth (w_adj s) (uptri_idx (fst x) (fst y) m) S /\ conn_ok (registered s (snd x) (snd y) conn adj) (prev ++ [(x, y)])) /\ (target = [] -> conn = w_conn s /\ adj = w_adj s)
    else connect s cl cr (snd x) (snd y) = Ok (false, s).
  Proof.
    intros (Hm & Hsz & Hct & Hf0 & Hnd & Hprev & Hconn) Hl Hr Hne.
    assert (Hlt : fst x < fst y).
    { pose proof (tag_nest_tags (w_nest s) 0) as Ht. rewrite (at_elem_flat _ _ _ _ _ Hl) in Ht. pose proof (sorted_before _ _ _ _ _ _ _ Ht). lia. }
    destruct (at_elem_r _ _ _ _ _ Hl) as (Rl & Ol & Bl). destruct (at_elem_r _ _ _ _ _ Hr) as (Rr & Or & Br).
    rewrite Hm in Bl, Br.
    assert (Hnot : existsb (fun p => pair_eqb ieqb p (snd x, snd y)) (w_contr s) = false).
    { apply not_true_is_false. intros E. apply existsb_exists in E. destruct E as (q & Hq & E). apply pair_eqb_spec in E. subst q.
      rewrite Hct in Hq. apply in_map_iff in Hq. destruct Hq as ([x' y'] & E & Hin). unfold untag in E. cbn in E. injection E as E1 E2.
      destruct (Hprev _ _ Hin) as (_ & Hni). apply Hni. rewrite E1, (at_elem_flat _ _ _ _ _ Hl), map_app. apply in_app_iff. right. left. reflexivity. }
    unfold allow, Wick_Model.connect. rewrite Rl, Rr, Ol, Or.
    replace (Z.of_nat (length P) <? Z.of_nat (length (P ++ x :: u)))%Z with true by (symmetry; apply Z.ltb_lt; rewrite app_length; cbn; lia).
    cbn [negb].
    replace (match avoided with [] => true | _ :: _ => bit avoided (fst x) (fst y) end) with
      (negb (match avoided with [] => false | _ :: _ => negb (bit avoided (fst x) (fst y)) end)) by (destruct avoided; [reflexivity|apply negb_involutive]).
    destruct (match avoided with [] => false | _ :: _ => negb (bit avoided (fst x) (fst y)) end); cbn [negb andb]; [reflexivity|].
    destruct target as [|t0 tgt] eqn:Etgt.
    - rewrite Hnot. exists (w_conn s), (w_adj s). split; [reflexivity|]. split; [congruence|auto].
    - rewrite <- Etgt in *. assert (Htn : target <> []) by (rewrite Etgt; discriminate).
      destruct (Hconn Htn) as (Hcl & Hal & Hbit & Hadj).
      set (conn1 := if bit (w_conn s) (fst x) (fst y) then w_conn s else set_bit (set_bit (w_conn s) (fst x) (fst y)) (fst y) (fst x)).
      assert (Hc1l : length conn1 = m) by (unfold conn1; destruct (bit (w_conn s) (fst x) (fst y)); [|rewrite !length_set]; exact Hcl).
      assert (Hc1 : forall a b, a < m -> bit conn1 a b = joinedb (prev ++ [(x, y)]) a b).
      { intros a b Ha. rewrite joinedb_app. unfold conn1. destruct (bit (w_conn s) (fst x) (fst y)) eqn:Eb.
        - rewrite (Hbit a b Ha).
          destruct (Nat.eqb_spec (fst x) a) as [Ea|Ea], (Nat.eqb_spec (fst y) b) as [Eb'|Eb'], (Nat.eqb_spec (fst x) b) as [Ec|Ec], (Nat.eqb_spec (fst y) a) as [Ed|Ed]; cbn [andb orb];
          try (rewrite orb_false_r; reflexivity); try lia.
          + subst a b. rewrite <- Hbit, Eb by lia. reflexivity.
          + subst a b. rewrite joinedb_sym, <- Hbit, Eb by lia. reflexivity.
        - rewrite bit_set by (rewrite length_set; lia). rewrite bit_set by lia. rewrite (Hbit a b Ha).
          rewrite (Nat.eqb_sym a (fst y)), (Nat.eqb_sym b (fst x)), (Nat.eqb_sym a (fst x)), (Nat.eqb_sym b (fst y)).
          destruct (fst x =? a), (fst y =? b), (fst x =? b), (fst y =? a), (joinedb prev a b); reflexivity. }
      assert (Hneeds : forall k, k < m -> zeros (N.lor (nth k conn1 0%N) (nth k target 0%N)) = needs (prev ++ [(x, y)]) k).
      { intros k Hk. unfold zeros, needs. f_equal. apply filter_ext. intros i. rewrite N.lor_spec. f_equal. f_equal. apply (Hc1 k i Hk). }
      assert (Hundo : mkw (w_nest s) (w_size s) (w_scal s) (w_fac s) (w_fac0 s) (w_contr s) (w_off s)
                (if bit (w_conn s) (fst x) (fst y) then conn1 else reset_bit (reset_bit conn1 (fst x) (fst y)) (fst y) (fst x)) (w_adj s) (w_count s) (w_out s) = s).
      { replace (if bit (w_conn s) (fst x) (fst y) then conn1 else reset_bit (reset_bit conn1 (fst x) (fst y)) (fst y) (fst x)) with (w_conn s); [destruct s; reflexivity|].
        unfold conn1. destruct (bit (w_conn s) (fst x) (fst y)) eqn:Eb; [reflexivity|].
        assert (Eb' : bit (w_conn s) (fst y) (fst x) = false) by (rewrite Hbit, joinedb_sym, <- Hbit by lia; exact Eb).
        apply bits_ext; rewrite ?length_reset, ?length_set; [reflexivity|]. intros a b Ha.
        rewrite bit_reset by (rewrite length_reset, !length_set; lia). rewrite bit_reset by (rewrite !length_set; lia).
        rewrite bit_set by (rewrite length_set; lia). rewrite bit_set by lia.
        destruct (Nat.eqb_spec a (fst y)) as [->|Ea], (Nat.eqb_spec b (fst x)) as [->|Eb2]; cbn [andb orb negb]; try exact Eb';
        repeat match goal with |- context [Nat.eqb ?p ?q] => destruct (Nat.eqb_spec p q); subst; cbn [andb orb negb] end; try reflexivity; try assumption; try lia. }
      fold conn1. rewrite !Hneeds by lia. rewrite !nth_members, Hm.
      rewrite (Nat.leb_antisym (length (members (fst x) (flat (w_nest s))) - 1)), (Nat.leb_antisym (length (members (fst y) (flat (w_nest s))) - 1)).
      destruct (length (members (fst x) (flat (w_nest s))) - 1 <? needs (prev ++ [(x, y)]) (fst x)); cbn [negb andb]; [rewrite Hundo; reflexivity|].
      destruct (length (members (fst y) (flat (w_nest s))) - 1 <? needs (prev ++ [(x, y)]) (fst y)); cbn [negb andb]; [rewrite Hundo; reflexivity|].
      replace (fst x <? fst y) with true by (symmetry; apply Nat.ltb_lt; lia).
      replace (fst y <? m) with true by (symmetry; apply Nat.ltb_lt; lia). cbn [andb negb].
      cbn [w_contr]. rewrite Hnot.
      exists conn1, (replace_nth (w_adj s) (uptri_idx (fst x) (fst y) m) S). split; [reflexivity|]. split; [|congruence].
      intros _. split; [reflexivity|]. unfold conn_ok, registered. cbn [w_conn w_adj]. split; [exact Hc1l|]. split; [rewrite length_replace; exact Hal|].
      split; [exact Hc1|]. intros a b Hab.
      rewrite nth_replace by (rewrite Hal; apply uptri_bound; lia). rewrite pair_count_app.
      destruct (Nat.eqb_spec (uptri_idx a b m) (uptri_idx (fst x) (fst y) m)) as [E|E].
      + apply uptri_inj in E; [|lia|lia]. destruct E as (-> & ->). rewrite !Nat.eqb_refl. cbn [andb]. rewrite Hadj by lia. lia.
      + destruct (Nat.eqb_spec (fst x) a) as [Ea|Ea], (Nat.eqb_spec (fst y) b) as [Eb|Eb]; cbn [andb]; rewrite ?Nat.add_0_r; auto.
        subst a b. congruence.
  Qed.

  Lemma disconnect_ok s s1 prev cl cr P x u y v conn adj :
    inv s prev -> at_elem (w_nest s) cl P x (u ++ y :: v) -> at_elem (w_nest s) cr (P ++ x :: u) y v -> fst x <> fst y ->
    (target <> [] -> adj = replace_nth (w_adj s) (uptri_idx (fst x) (fst y) m) S /\ conn_ok (registered s (snd x) (snd y) conn adj) (prev ++ [(x, y)])) ->
    (target = [] -> conn = w_conn s /\ adj = w_adj s) ->
    core (registered s (snd x) (snd y) conn adj) s1 ->
    exists s2, disconnect s1 cl cr (snd x) (snd y) = Ok s2 /\ core s s2 /\ w_count s2 = w_count s1 /\ w_out s2 = w_out s1.
  Proof.
    intros (Hm & Hsz & Hct & Hf0 & Hnd & Hprev & Hconn) Hl Hr Hne Hc Hc0 (C1 & C2 & C3 & C4 & C5 & C6 & C7 & C8).
    assert (Hlt : fst x < fst y).
    { pose proof (tag_nest_tags (w_nest s) 0) as Ht. rewrite (at_elem_flat _ _ _ _ _ Hl) in Ht. pose proof (sorted_before _ _ _ _ _ _ _ Ht). lia. }
    destruct (at_elem_r _ _ _ _ _ Hl) as (Rl & Ol & Bl). destruct (at_elem_r _ _ _ _ _ Hr) as (Rr & Or & Br).
    rewrite Hm in Bl, Br. cbn [registered w_nest w_size w_scal w_fac w_fac0 w_contr w_conn w_adj] in *.
    unfold Wick_Model.disconnect. rewrite Rl, Rr, C6, remove_pair_last.
    2:{ intros q Hq E. subst q. rewrite Hct in Hq. apply in_map_iff in Hq. destruct Hq as ([x' y'] & E & Hin). unfold untag in E. cbn in E. injection E as E1 E2.
        destruct (Hprev _ _ Hin) as (_ & Hni). apply Hni. rewrite E1, (at_elem_flat _ _ _ _ _ Hl), map_app. apply in_app_iff. right. left. reflexivity. }
    destruct target as [|t0 tgt] eqn:Etgt.
    - destruct (Hc0 eq_refl) as (-> & ->). eexists. split; [reflexivity|]. cbn [w_count w_out]. split; [|auto].
      unfold core. cbn [w_nest w_size w_scal w_fac w_fac0 w_contr w_conn w_adj]. rewrite C1, C2, C3, C4, C5, C7, C8. auto 10.
    - rewrite <- Etgt in *. assert (Htn : target <> []) by (rewrite Etgt; discriminate).
      destruct (Hconn Htn) as (Hcl & Hal & Hbit & Hadj). destruct (Hc Htn) as (Hadjeq & Hcl' & Hal' & Hbit' & Hadj'). unfold registered in Hcl', Hal', Hbit', Hadj'.
      cbn [w_conn w_adj] in *. rewrite C7, C8, C1, Hm.
      rewrite Hbit' by lia. rewrite joinedb_app, !Nat.eqb_refl, !orb_true_r. cbn [negb].
      rewrite Hadj' by lia. rewrite pair_count_app, !Nat.eqb_refl. cbn [andb].
      destruct (Nat.eqb_spec (pair_count prev (fst x) (fst y) + 1) 0) as [E|_]; [lia|].
      rewrite nth_replace by (rewrite Hal'; apply uptri_bound; lia). rewrite Nat.eqb_refl, Hadj' by lia.
      rewrite pair_count_app, !Nat.eqb_refl. cbn [andb]. rewrite Nat.add_1_r. cbn [pred].
      eexists. split; [reflexivity|]. cbn [w_count w_out]. split; [|auto].
      unfold core. cbn [w_nest w_size w_scal w_fac w_fac0 w_contr w_conn w_adj]. rewrite ?C1, C2, C3, C4, C5.
      assert (Ec : (if pair_count prev (fst x) (fst y) =? 0 then reset_bit (reset_bit conn (fst x) (fst y)) (fst y) (fst x) else conn) = w_conn s).
      { pose proof (joinedb_count prev (fst x) (fst y) Hlt (fun a b H => proj1 (Hprev a b H))) as Hj.
        destruct (Nat.eqb_spec (pair_count prev (fst x) (fst y)) 0) as [E0|E0]; cbn [negb] in Hj.
        - apply bits_ext; rewrite ?length_reset; [congruence|]. intros a b Ha. rewrite Hcl' in Ha.
          rewrite bit_reset by (rewrite length_reset; lia). rewrite bit_reset by lia. rewrite Hbit', Hbit, joinedb_app by lia.
          destruct (Nat.eqb_spec a (fst y)) as [->|E1], (Nat.eqb_spec b (fst x)) as [->|E2]; cbn [andb negb].
          + rewrite joinedb_sym, Hj. reflexivity.
          + replace (fst y =? fst x) with false by (symmetry; apply Nat.eqb_neq; lia). cbn [andb negb].
            replace (fst x =? fst y) with false by (symmetry; apply Nat.eqb_neq; lia).
            replace (fst x =? b) with false by (symmetry; apply Nat.eqb_neq; lia). cbn [andb orb]. apply orb_false_r.
          + replace (fst y =? a) with false by (symmetry; apply Nat.eqb_neq; lia).
            replace (fst x =? fst y) with false by (symmetry; apply Nat.eqb_neq; lia). rewrite !andb_false_r.
            replace (fst y =? fst x) with false by (symmetry; apply Nat.eqb_neq; lia). rewrite !andb_false_r. cbn [orb]. rewrite orb_false_r.
            rewrite (andb_false_r) || idtac. reflexivity.
          + destruct (Nat.eqb_spec a (fst x)) as [->|E3], (Nat.eqb_spec b (fst y)) as [->|E4]; cbn [andb negb].
            * rewrite Hj. reflexivity.
            * replace (fst y =? b) with false by (symmetry; apply Nat.eqb_neq; lia).
              replace (fst x =? b) with false by (symmetry; apply Nat.eqb_neq; lia). rewrite andb_false_r. cbn [andb orb]. apply orb_false_r.
            * replace (fst x =? a) with false by (symmetry; apply Nat.eqb_neq; lia).
              replace (fst y =? a) with false by (symmetry; apply Nat.eqb_neq; lia). rewrite !andb_false_r. cbn [andb orb]. apply orb_false_r.
            * replace (fst x =? a) with false by (symmetry; apply Nat.eqb_neq; lia).
              replace (fst x =? b) with false by (symmetry; apply Nat.eqb_neq; lia). cbn [andb orb]. apply orb_false_r.
        - apply bits_ext; [congruence|]. intros a b Ha. rewrite Hcl' in Ha. rewrite Hbit', Hbit, joinedb_app by lia.
          destruct (Nat.eqb_spec (fst x) a) as [E1|E1], (Nat.eqb_spec (fst y) b) as [E2|E2], (Nat.eqb_spec (fst x) b) as [E3|E3], (Nat.eqb_spec (fst y) a) as [E4|E4]; cbn [andb orb];
            try (apply orb_false_r); try lia; subst a b.
          + rewrite Hj. reflexivity.
          + rewrite joinedb_sym, Hj. reflexivity. }
      assert (Ea : replace_nth adj (uptri_idx (fst x) (fst y) m) Nat.pred = w_adj s).
      { rewrite Hadjeq. apply replace_replace; [rewrite Hal; apply uptri_bound; lia|reflexivity]. }
      rewrite Ec, Ea. auto 10.
  Qed.

  Lemma bind_assoc {X Y Z} (a : res X) (f : X -> res Y) (g : Y -> res Z) : bind (bind a f) g = bind a (fun x => bind (f x) g).
  Proof. destruct a; reflexivity. Qed.

  Lemma result_rebase s s4 s6 ts (f : pterm op -> pterm op) s' :
    result s4 ts s6 -> core s s' -> w_count s' = w_count s6 -> w_out s' = w_out s6 -> w_count s4 = w_count s -> w_out s4 = w_out s ->
    (forall t, out_of s4 t = out_of s (f t)) -> result s (map f ts) s'.
  Proof.
    intros (C & H) Cs E1 E2 E3 E4 Ho. split; [exact Cs|].
    destruct count_only.
    - rewrite map_length. destruct H as (H1 & H2). split; congruence.
    - destruct H as (H1 & os & HF & H2). split; [congruence|]. exists os. split; [|congruence].
      clear -HF Ho. induction HF; cbn; constructor; auto. rewrite <- Ho. auto.
  Qed.

  Lemma odd_of_nat n : Z.odd (Z.of_nat n) = Nat.odd n.
  Proof. induction n as [|n IH]; [reflexivity|]. rewrite Nat2Z.inj_succ, Z.odd_succ, Nat.odd_succ, <- Z.negb_odd, IH, Nat.negb_odd. reflexivity. Qed.

  Definition sub_call (rec : wst -> res wst) (off : nat) (s4 : wst) : res wst :=
    bind (emit s4) (fun s5 => if negb (Nat.eqb (w_size s5) 0) then rec (with_off s5 off) else Ok s5).

  Lemma contract_one_ok rec s prev cl cr off P x u y v ts :
    inv s prev -> at_elem (w_nest s) cl P x (u ++ y :: v) -> at_elem (w_nest s) cr (P ++ x :: u) y v -> fst x <> fst y ->
    can_contract (snd x) (snd y) = true -> allow prev (flat (w_nest s)) x y = true ->
    (forall s4, inv s4 (prev ++ [(x, y)]) -> flat (w_nest s4) = P ++ u ++ v -> w_fac0 s4 < length (w_fac s4) -> fin_ok s4 ts ->
       exists s6, sub_call rec off s4 = Ok s6 /\ result s4 ts s6) ->
    fin_ok s (map (prepend (sg (length u)) (x, y)) ts) ->
    exists s', contract_one rec cl cr off (snd x) (snd y) s = Ok s' /\ result s (map (prepend (sg (length u)) (x, y)) ts) s'.
  Proof.
    intros Hinv Hl Hr Hne Hcc Hal Hrec Hfin.
    pose proof (connect_ok s prev cl cr P x u y v Hinv Hl Hr Hne) as Hcon. rewrite Hal in Hcon.
    destruct Hcon as (conn & adj & Hcon & Hc1 & Hc0).
    pose proof Hinv as (Hm & Hsz & Hct & Hf0 & Hnd & Hprev & Hcn).
    destruct (at_elem_r _ _ _ _ _ Hl) as (Rl & Ol & Bl). destruct (at_elem_r _ _ _ _ _ Hr) as (Rr & Or & Br).
    rewrite Hm in Bl, Br.
    assert (Hlt : fst x < fst y).
    { pose proof (tag_nest_tags (w_nest s) 0) as Ht. rewrite (at_elem_flat _ _ _ _ _ Hl) in Ht. pose proof (sorted_before _ _ _ _ _ _ _ Ht). lia. }
    pose proof (at_elem_erase_later _ _ _ _ _ _ _ _ Hl Hr Hne) as Hl2.
    destruct (c_erase_flat _ _ _ _ _ Hr) as (_ & Hlen1). destruct (c_erase_flat _ _ _ _ _ Hl2) as (Hflat2 & Hlen2).
    pose proof (at_elem_flat _ _ _ _ _ Hl) as Hflat.
    assert (Hsize : opsize (w_nest s) = S (S (opsize (c_erase (c_erase (w_nest s) cr) cl)))).
    { rewrite <- (tag_nest_length (w_nest s) 0), <- (tag_nest_length (c_erase (c_erase (w_nest s) cr) cl) 0), Hflat, Hflat2.
      rewrite !app_length. cbn [length]. rewrite !app_length. cbn [length]. lia. }
    unfold Wick_Model.contract_one. rewrite Hcon. cbn [bind negb].
    set (phase := if fermi && Z.odd (c_ord cr - c_ord cl - 1) then (-1)%Z else 1%Z).
    assert (Hphase : phase = sg (length u)).
    { unfold phase, sign. rewrite Ol, Or, app_length. cbn [length].
      replace (Z.of_nat (length P + S (length u)) - Z.of_nat (length P) - 1)%Z with (Z.of_nat (length u)) by lia.
      rewrite odd_of_nat. reflexivity. }
    clearbody phase. subst phase.
    set (s4 := with_nest (with_nest _ _ _) _ _).
    assert (F4 : w_nest s4 = c_erase (c_erase (w_nest s) cr) cl /\ w_size s4 = w_size s - 1 - 1 /\ w_scal s4 = (w_scal s * sg (length u))%Z /\
                 w_fac s4 = w_fac s ++ contract (snd x) (snd y) /\ w_fac0 s4 = w_fac0 s /\ w_contr s4 = w_contr s ++ [(snd x, snd y)] /\
                 w_conn s4 = conn /\ w_adj s4 = adj /\ w_count s4 = w_count s /\ w_out s4 = w_out s) by (repeat split; reflexivity).
    clearbody s4. destruct F4 as (G1 & G2 & G3 & G4 & G5 & G6 & G7 & G8 & G9 & G10).
    assert (Hout : forall t, out_of s4 t = out_of s (prepend (sg (length u)) (x, y) t)).
    { intros t. unfold out_of. rewrite G3, G4, G6. unfold prepend. cbn [p_sign p_pairs p_rest flat_map map fst snd]. unfold untag at 2. cbn [fst snd].
      rewrite Z.mul_assoc, <- !app_assoc. reflexivity. }
    assert (Hnd' : NoDup (map snd P ++ snd x :: map snd (u ++ y :: v))) by (rewrite Hflat, map_app in Hnd; exact Hnd).
    assert (Hsub : forall o, In o (map snd (P ++ u ++ v)) -> In o (map snd (flat (w_nest s)))).
    { intros o. rewrite Hflat, !map_app. cbn [map]. rewrite map_app. cbn [map]. rewrite !in_app_iff. cbn. rewrite in_app_iff. cbn. tauto. }
    assert (Hinv4 : inv s4 (prev ++ [(x, y)])).
    { unfold inv. rewrite G1, G2, G4, G5, G6, Hlen2, Hlen1, Hm, Hsz, Hct. split; [reflexivity|]. split; [lia|].
      split; [rewrite map_app; reflexivity|]. split; [rewrite app_length; lia|].
      split.
      { rewrite Hflat2. apply NoDup_remove_1 in Hnd'. rewrite map_app in Hnd'. cbn [map] in Hnd'.
        rewrite app_assoc in Hnd'. apply NoDup_remove_1 in Hnd'. rewrite <- app_assoc, <- !map_app in Hnd'. exact Hnd'. }
      split.
      { intros a b Hab. apply in_app_iff in Hab. rewrite Hflat2. destruct Hab as [Hab|[Hab|[]]].
        - destruct (Hprev a b Hab) as (H1 & H2). split; [exact H1|]. intros Hin. apply H2. apply Hsub. exact Hin.
        - injection Hab as <- <-. split; [lia|]. apply NoDup_remove_2 in Hnd'. intros Hin. apply Hnd'.
          revert Hin. rewrite !map_app. cbn [map]. rewrite !in_app_iff. cbn. tauto. }
      intros Ht. destruct (Hc1 Ht) as (_ & K1 & K2 & K3 & K4). unfold registered in *. cbn [w_conn w_adj] in *.
      unfold conn_ok. rewrite G7, G8. auto. }
    assert (Hfl : w_fac0 s4 < length (w_fac s4)).
    { rewrite G4, G5, app_length. pose proof (contract_nonempty _ _ Hcc). destruct (contract (snd x) (snd y)); [congruence|]. cbn. lia. }
    assert (Hfin4 : fin_ok s4 ts).
    { intros E t Ht. rewrite Hout. apply (Hfin E). apply in_map. exact Ht. }
    assert (Hflat4 : flat (w_nest s4) = P ++ u ++ v) by (rewrite G1; exact Hflat2).
    destruct (Hrec s4 Hinv4 Hflat4 Hfl Hfin4) as (s6 & E6 & R6).
    unfold sub_call in E6.
    rewrite <- bind_assoc. rewrite E6. cbn [bind].
    pose proof R6 as ((D1 & D2 & D3 & D4 & D5 & D6 & D7 & D8) & _).
    set (s9 := with_nest (with_nest _ _ _) _ _).
    assert (C9 : core (registered s (snd x) (snd y) conn adj) s9 /\ w_count s9 = w_count s6 /\ w_out s9 = w_out s6).
    { split; [|split; reflexivity]. unfold core, s9, with_nest, with_sp, registered. cbn [w_nest w_size w_scal w_fac w_fac0 w_contr w_conn w_adj].
      rewrite D1, D2, D5, D6, D7, D8, G1, G2, G5, G6, G7, G8.
      rewrite (c_insert_erase _ _ _ _ _ Hl2), (c_insert_erase _ _ _ _ _ Hr).
      repeat split; try reflexivity. lia. }
    clearbody s9. destruct C9 as (C9 & N9 & O9).
    destruct (disconnect_ok s s9 prev cl cr P x u y v conn adj Hinv Hl Hr Hne Hc1 Hc0 C9) as (s2 & Es2 & C2 & N2 & O2).
    exists s2. split; [exact Es2|].
    apply (result_rebase s s4 s6 ts _ s2 R6 C2); congruence.
  Qed.

  (** ** The loop over the right operator *)
  Lemma right_loop_ok rec off cl P x (G : nat * T * list T -> list (pterm op)) prev S0 :
    forall fuel u v cr s,
    S0 = u ++ v -> length v <= fuel ->
    inv s prev -> at_elem (w_nest s) cl P x S0 -> at_pos (w_nest s) cr (P ++ x :: u) v ->
    (forall u' y v' s' cr', S0 = u' ++ y :: v' -> core s s' -> at_elem (w_nest s') cr' (P ++ x :: u') y v' ->
       fin_ok s' (G (length u', y, u' ++ v')) ->
       exists s'', (if negb (Nat.eqb (c_r cl) (c_r cr')) && can_contract (snd x) (snd y) then contract_one rec cl cr' off (snd x) (snd y) s' else Ok s') = Ok s'' /\
                   result s' (G (length u', y, u' ++ v')) s'') ->
    fin_ok s (flat_map G (picks_from u v)) ->
    exists s', right_loop rec fuel cl cr off s = Ok s' /\ result s (flat_map G (picks_from u v)) s'.
  Proof.
    induction fuel as [|fuel IH]; intros u v cr s HS Hf Hinv Hl Hr HG Hfin.
    - destruct v; [|cbn in Hf; lia]. exists s. cbn. unfold at_pos, at_end in Hr. unfold c_is_end. rewrite Hr, Nat.eqb_refl.
      split; [reflexivity|]. apply result_nil; auto. apply core_refl.
    - destruct v as [|y v].
      + exists s. cbn. unfold at_pos, at_end in Hr. unfold c_is_end. rewrite Hr, Nat.eqb_refl.
        split; [reflexivity|]. apply result_nil; auto. apply core_refl.
      + cbn [at_pos] in Hr. cbn [Wick_Model.right_loop]. rewrite (at_elem_not_end _ _ _ _ _ Hr), (at_elem_read _ _ _ _ _ Hl), (at_elem_read _ _ _ _ _ Hr).
        cbn [picks_from flat_map] in *. apply fin_ok_app in Hfin. destruct Hfin as (Hfin1 & Hfin2).
        destruct (HG u y v s cr HS (core_refl s) Hr Hfin1) as (s1 & E1 & R1). rewrite E1. cbn [bind].
        pose proof R1 as (C1 & _). pose proof C1 as (En & _).
        destruct (IH (u ++ [y]) v (c_next (w_nest s1) cr) s1) as (s2 & E2 & R2).
        * rewrite <- app_assoc. exact HS.
        * cbn in Hf. lia.
        * exact (inv_core _ _ _ C1 Hinv).
        * rewrite En. exact Hl.
        * rewrite En. apply at_pos_next in Hr. rewrite <- app_assoc in Hr. exact Hr.
        * intros u' y' v' s' cr' HS' Cs Hat Hfs. apply HG; auto. exact (core_trans _ _ _ C1 Cs).
        * exact (fin_ok_core _ _ _ C1 Hfin2).
        * exists s2. split; [exact E2|]. exact (result_app _ _ _ _ _ R1 R2).
  Qed.

  Definition G_partial (f : nat) (prev : list (T * T)) (p : list T) (x : T) (v' : list T) : nat * T * list T -> list (pterm op) :=
    fun '(j, y, w) =>
      if eligible prev (p ++ x :: v') x y
      then mkp (sg j) [(x, y)] (p ++ w) :: map (prepend (sg j) (x, y)) (go f (prev ++ [(x, y)]) p w)
      else [].
  Definition G_full (f : nat) (prev : list (T * T)) (x : T) (v' : list T) : nat * T * list T -> list (pterm op) :=
    fun '(j, y, w) =>
      if eligible prev (x :: v') x y then map (prepend (sg j) (x, y)) (gof f (prev ++ [(x, y)]) w) else [].

  (** what the recursive call has to satisfy *)
  Definition rec_ok (rec : wst -> res wst) (terms : list (T * T) -> list T -> list T -> list (pterm op)) (bound : nat) : Prop :=
    forall s prev p v, inv s prev -> flat (w_nest s) = p ++ v -> p ++ v <> [] -> w_off s = length p -> (full = true -> p = []) -> length v < bound ->
      fin_ok s (terms prev p v) -> exists s', rec s = Ok s' /\ result s (terms prev p v) s'.

  Lemma with_off_core s o : core s (with_off s o). Proof. unfold core, with_off. cbn. auto 10. Qed.
  Lemma result_with_off s o ts s' : result (with_off s o) ts s' -> result s ts s'.
  Proof.
    intros (C & H). split; [exact (core_trans _ _ _ (with_off_core s o) C)|]. exact H.
  Qed.

  Lemma unflat_nest (s : wst) prev : inv s prev -> unflat m (flat (w_nest s)) = w_nest s.
  Proof. intros (Hm & _). rewrite <- Hm. apply unflat_flat. Qed.

  Lemma emit_yes s prev : inv s prev -> w_fac0 s < length (w_fac s) -> (full = false \/ flat (w_nest s) = []) ->
    fin_ok s [mkp 1 [] (flat (w_nest s))] -> exists s', emit s = Ok s' /\ result s [mkp 1 [] (flat (w_nest s))] s' /\ w_size s' = w_size s.
  Proof.
    intros Hinv Hf Hfull Hfin. pose proof Hinv as (Hm & Hsz & _). unfold Wick_Model.emit.
    destruct (Nat.eqb_spec (length (w_fac s)) (w_fac0 s)) as [E|_]; [lia|].
    replace (negb full || (w_size s =? 0)) with true.
    2:{ symmetry. destruct Hfull as [-> | H]; [reflexivity|]. rewrite Hsz, <- (tag_nest_length (w_nest s) 0), H. apply orb_true_r. }
    destruct count_only eqn:Ec.
    - eexists. split; [reflexivity|]. split; [|reflexivity]. split; [unfold core; cbn; auto 10|]. rewrite Ec. cbn. split; [lia|reflexivity].
    - destruct (Hfin Ec _ (or_introl eq_refl)) as (t & Ht). pose proof Ht as Ht0. unfold out_of in Ht. cbn [p_sign p_pairs p_rest flat_map map] in Ht.
      rewrite Z.mul_1_r, !app_nil_r, (unflat_nest s prev Hinv), <- finish_term_fin in Ht.
      rewrite Ht. cbn [bind]. eexists. split; [reflexivity|]. split; [|reflexivity]. split; [unfold core; cbn; auto 10|]. rewrite Ec. cbn. split; [reflexivity|].
      exists [t]. split; [|reflexivity]. constructor; [exact Ht0|constructor].
  Qed.

  Lemma emit_no s prev : inv s prev -> full = true -> flat (w_nest s) <> [] -> emit s = Ok s.
  Proof.
    intros Hinv Hfull Hne. pose proof Hinv as (Hm & Hsz & _). unfold Wick_Model.emit. destruct (length (w_fac s) =? w_fac0 s); [reflexivity|].
    rewrite Hfull. cbn [negb orb]. rewrite Hsz, <- (tag_nest_length (w_nest s) 0).
    destruct (flat (w_nest s)); [congruence|]. reflexivity.
  Qed.

  Lemma not_eligible rec s prev cl cr off P x u y v :
    inv s prev -> at_elem (w_nest s) cl P x (u ++ y :: v) -> at_elem (w_nest s) cr (P ++ x :: u) y v -> eligible prev (flat (w_nest s)) x y = false ->
    (if negb (Nat.eqb (c_r cl) (c_r cr)) && can_contract (snd x) (snd y) then contract_one rec cl cr off (snd x) (snd y) s else Ok s) = Ok s.
  Proof.
    intros Hinv Hl Hr He. destruct (at_elem_r _ _ _ _ _ Hl) as (Rl & _ & _). destruct (at_elem_r _ _ _ _ _ Hr) as (Rr & _ & _).
    rewrite Rl, Rr. unfold Wick_Proofs2.eligible in He.
    destruct (Nat.eqb_spec (fst x) (fst y)) as [E|E]; cbn [negb andb] in *; [reflexivity|].
    destruct (can_contract (snd x) (snd y)) eqn:Ecc; cbn [andb] in *; [|reflexivity].
    pose proof (connect_ok s prev cl cr P x u y v Hinv Hl Hr E) as Hc. rewrite He in Hc.
    unfold Wick_Model.contract_one. rewrite Hc. reflexivity.
  Qed.

  Lemma eligible_true (s : wst) cl cr P x u y v prev :
    at_elem (w_nest s) cl P x (u ++ y :: v) -> at_elem (w_nest s) cr (P ++ x :: u) y v -> eligible prev (flat (w_nest s)) x y = true ->
    negb (Nat.eqb (c_r cl) (c_r cr)) && can_contract (snd x) (snd y) = true /\ fst x <> fst y /\ can_contract (snd x) (snd y) = true /\ allow prev (flat (w_nest s)) x y = true.
  Proof.
    intros Hl Hr He. destruct (at_elem_r _ _ _ _ _ Hl) as (Rl & _ & _). destruct (at_elem_r _ _ _ _ _ Hr) as (Rr & _ & _).
    unfold Wick_Proofs2.eligible in He. apply andb_prop in He. destruct He as (He & H3). rewrite Rl, Rr. split; [exact He|].
    apply andb_prop in He. destruct He as (H1 & H2). split; [|auto]. destruct (Nat.eqb_spec (fst x) (fst y)); [discriminate H1|assumption].
  Qed.

  (** *** all contractions *)
  Section Partial.
    Hypothesis Hfull : full = false.
    Lemma if_partial X (a b : X) : (if full then a else b) = b. Proof. rewrite Hfull. reflexivity. Qed.

    Lemma partial_right rec s prev cl P x v bound :
      rec_ok rec (fun prev p v => go (length v) prev p v) bound -> length v <= bound ->
      inv s prev -> at_elem (w_nest s) cl P x v ->
      fin_ok s (flat_map (G_partial (length v) prev P x v) (picks v)) ->
      exists s', right_loop rec (opsize (w_nest s)) cl (c_next (w_nest s) cl) (length P) s = Ok s' /\
                 result s (flat_map (G_partial (length v) prev P x v) (picks v)) s'.
    Proof.
      intros Hrec Hb Hinv Hl Hfin. pose proof (at_elem_flat _ _ _ _ _ Hl) as Hflat.
      apply (right_loop_ok rec (length P) cl P x _ prev v); auto.
      - rewrite <- (tag_nest_length (w_nest s) 0), Hflat, app_length. cbn. lia.
      - apply at_pos_next. exact Hl.
      - intros u y v' s' cr' HS Cs Hr Hfs. subst v.
        assert (Hl' : at_elem (w_nest s') cl P x (u ++ y :: v')) by (destruct Cs as (-> & _); exact Hl).
        pose proof (inv_core _ _ _ Cs Hinv) as Hinv'.
        assert (Hflat' : flat (w_nest s') = P ++ x :: u ++ y :: v') by (destruct Cs as (-> & _); exact Hflat).
        unfold G_partial in *. rewrite <- Hflat' in *.
        destruct (eligible prev (flat (w_nest s')) x y) eqn:He.
        + destruct (eligible_true s' cl cr' P x u y v' prev Hl' Hr He) as (-> & Hne & Hcc & Hal).
          assert (Ets : mkp (sg (length u)) [(x, y)] (P ++ u ++ v') :: map (prepend (sg (length u)) (x, y)) (go (length (u ++ y :: v')) (prev ++ [(x, y)]) P (u ++ v')) =
                        map (prepend (sg (length u)) (x, y)) (mkp 1 [] (P ++ u ++ v') :: go (length (u ++ v')) (prev ++ [(x, y)]) P (u ++ v'))).
          { cbn [map]. f_equal.
            - unfold prepend. cbn [p_sign p_pairs p_rest]. rewrite Z.mul_1_r. reflexivity.
            - f_equal. apply go_fuel; rewrite !app_length; cbn; lia. }
          rewrite Ets in *.
          apply (contract_one_ok rec s' prev cl cr' (length P) P x u y v'); auto.
          intros s4 Hinv4 Hflat4 Hf4 Hfin4.
          change (mkp 1 [] (P ++ u ++ v') :: go (length (u ++ v')) (prev ++ [(x, y)]) P (u ++ v')) with
            ([mkp 1 [] (P ++ u ++ v')] ++ go (length (u ++ v')) (prev ++ [(x, y)]) P (u ++ v')) in *.
          apply fin_ok_app in Hfin4. destruct Hfin4 as (Hfin4a & Hfin4b). rewrite <- Hflat4 in Hfin4a.
          destruct (emit_yes s4 _ Hinv4 Hf4 (or_introl Hfull) Hfin4a) as (s5 & E5 & R5 & Z5). rewrite Hflat4 in R5.
          pose proof R5 as (C5 & _). pose proof (inv_core _ _ _ C5 Hinv4) as Hinv5. pose proof Hinv5 as (_ & Hsz5 & _).
          assert (Hflat5 : flat (w_nest s5) = P ++ u ++ v') by (destruct C5 as (-> & _); exact Hflat4).
          unfold sub_call. rewrite E5. cbn [bind]. rewrite Hsz5, <- (tag_nest_length (w_nest s5) 0), Hflat5.
          destruct (Nat.eqb_spec (length (P ++ u ++ v')) 0) as [E0|E0]; cbn [negb].
          * exists s5. split; [reflexivity|]. apply length_zero_iff_nil in E0. apply app_eq_nil in E0. destruct E0 as (E0a & E0b). rewrite E0b in *.
            cbn [length Wick_Proofs2.go]. rewrite app_nil_r. exact R5.
          * destruct (Hrec (with_off s5 (length P)) (prev ++ [(x, y)]) P (u ++ v')) as (s6 & E6 & R6).
            -- exact (inv_core _ _ _ (with_off_core _ _) Hinv5).
            -- exact Hflat5.
            -- intros E. rewrite E in E0. cbn in E0. lia.
            -- reflexivity.
            -- rewrite Hfull. discriminate.
            -- rewrite !app_length in *. cbn [length] in Hb. lia.
            -- apply (fin_ok_core s4); [|exact Hfin4b]. exact (core_trans _ _ _ C5 (with_off_core _ _)).
            -- exists s6. split; [exact E6|]. apply result_with_off in R6. exact (result_app _ _ _ _ _ R5 R6).
        + exists s'. split; [apply (not_eligible rec s' prev cl cr' (length P) P x u y v'); auto|]. apply result_nil; auto. apply core_refl.
    Qed.

    Lemma partial_left rec prev bound (Hrec : rec_ok rec (fun prev p v => go (length v) prev p v) bound) :
      forall fuel p v cl s, length v <= fuel -> length v <= S bound -> inv s prev -> at_pos (w_nest s) cl p v -> flat (w_nest s) = p ++ v ->
      fin_ok s (go (length v) prev p v) ->
      exists s', left_loop rec fuel cl (length p) s = Ok s' /\ result s (go (length v) prev p v) s'.
    Proof.
      induction fuel as [|fuel IH]; intros p v cl s Hf Hb Hinv Hl Hflat Hfin.
      - destruct v; [|cbn in Hf; lia]. exists s. cbn. unfold at_pos, at_end in Hl. unfold c_is_end. rewrite Hl, Nat.eqb_refl.
        split; [reflexivity|]. apply result_nil; auto. apply core_refl.
      - destruct v as [|x v].
        + exists s. cbn. unfold at_pos, at_end in Hl. unfold c_is_end. rewrite Hl, Nat.eqb_refl.
          split; [reflexivity|]. apply result_nil; auto. apply core_refl.
        + cbn [at_pos] in Hl. cbn [Wick_Model.left_loop]. rewrite (at_elem_not_end _ _ _ _ _ Hl).
          cbn [length] in Hf, Hb.
          cbn [length Wick_Proofs2.go] in Hfin |- *. fold (G_partial (length v) prev p x v) in Hfin |- *. apply fin_ok_app in Hfin. destruct Hfin as (Hfin1 & Hfin2).
          destruct (partial_right rec s prev cl p x v bound Hrec ltac:(lia) Hinv Hl Hfin1) as (s1 & E1 & R1).
          rewrite E1. cbn [bind]. rewrite if_partial. pose proof R1 as (C1 & _). pose proof C1 as (En & _).
          replace (S (length p)) with (length (p ++ [x])) by (rewrite app_length; cbn; lia).
          destruct (IH (p ++ [x]) v (c_next (w_nest s1) cl) s1) as (s2 & E2 & R2).
          * lia.
          * lia.
          * exact (inv_core _ _ _ C1 Hinv).
          * rewrite En. apply at_pos_next. exact Hl.
          * rewrite En, Hflat, <- app_assoc. reflexivity.
          * exact (fin_ok_core _ _ _ C1 Hfin2).
          * exists s2. split; [exact E2|]. exact (result_app _ _ _ _ _ R1 R2).
    Qed.

    Lemma wick_partial : forall depth, rec_ok (wick depth) (fun prev p v => go (length v) prev p v) depth.
    Proof.
      induction depth as [|depth IH]; intros s prev p v Hinv Hflat Hne Hoff _ Hd Hfin; [lia|].
      cbn [Wick_Model.wick]. rewrite Hoff. destruct (start_at (w_nest s) p v Hflat Hne) as (cl & Ecl & Hl). rewrite Ecl, if_partial.
      apply (partial_left (wick depth) prev depth IH); auto; [|lia].
      rewrite <- (tag_nest_length (w_nest s) 0), Hflat, app_length. lia.
    Qed.
  End Partial.

  (** *** complete contractions *)
  Section Full.
    Hypothesis Hfull : full = true.
    Lemma if_full X (a b : X) : (if full then a else b) = a. Proof. rewrite Hfull. reflexivity. Qed.

    Lemma full_right rec s prev cl x v bound :
      rec_ok rec (fun prev p v => gof (length v) prev v) bound -> length v <= bound ->
      inv s prev -> at_elem (w_nest s) cl [] x v ->
      fin_ok s (flat_map (G_full (length v) prev x v) (picks v)) ->
      exists s', right_loop rec (opsize (w_nest s)) cl (c_next (w_nest s) cl) 0 s = Ok s' /\
                 result s (flat_map (G_full (length v) prev x v) (picks v)) s'.
    Proof.
      intros Hrec Hb Hinv Hl Hfin. pose proof (at_elem_flat _ _ _ _ _ Hl) as Hflat. cbn [app] in Hflat.
      apply (right_loop_ok rec 0 cl [] x _ prev v); auto.
      - rewrite <- (tag_nest_length (w_nest s) 0), Hflat. cbn. lia.
      - apply at_pos_next in Hl. exact Hl.
      - intros u y v' s' cr' HS Cs Hr Hfs. subst v.
        assert (Hl' : at_elem (w_nest s') cl [] x (u ++ y :: v')) by (destruct Cs as (-> & _); exact Hl).
        pose proof (inv_core _ _ _ Cs Hinv) as Hinv'.
        assert (Hflat' : flat (w_nest s') = x :: u ++ y :: v') by (destruct Cs as (-> & _); exact Hflat).
        unfold G_full in *. rewrite <- Hflat' in *.
        destruct (eligible prev (flat (w_nest s')) x y) eqn:He.
        + destruct (eligible_true s' cl cr' [] x u y v' prev Hl' Hr He) as (-> & Hne & Hcc & Hal).
          rewrite (gof_fuel fermi is_qpann can_contract allow (length (u ++ y :: v')) (length (u ++ v'))) in Hfs |- * by (rewrite !app_length; cbn; lia).
          apply (contract_one_ok rec s' prev cl cr' 0 [] x u y v'); auto.
          intros s4 Hinv4 Hflat4 Hf4 Hfin4. cbn [app] in Hflat4. pose proof Hinv4 as (_ & Hsz4 & _).
          unfold sub_call. destruct (u ++ v') as [|z w] eqn:Ew.
          * cbn [length Wick_Proofs2.gof] in *. rewrite <- Hflat4 in Hfin4.
            destruct (emit_yes s4 _ Hinv4 Hf4 (or_intror Hflat4) Hfin4) as (s5 & E5 & R5 & Z5). rewrite Hflat4 in R5.
            rewrite E5. cbn [bind]. rewrite Z5, Hsz4, <- (tag_nest_length (w_nest s4) 0), Hflat4. cbn. exists s5. auto.
          * rewrite (emit_no s4 _ Hinv4 Hfull) by (rewrite Hflat4; discriminate). cbn [bind].
            rewrite Hsz4, <- (tag_nest_length (w_nest s4) 0), Hflat4. cbn [length Nat.eqb negb].
            destruct (Hrec (with_off s4 0) (prev ++ [(x, y)]) [] (z :: w)) as (s6 & E6 & R6).
            -- exact (inv_core _ _ _ (with_off_core _ _) Hinv4).
            -- exact Hflat4.
            -- discriminate.
            -- reflexivity.
            -- auto.
            -- rewrite <- Ew. rewrite !app_length in *. cbn [length] in Hb. lia.
            -- exact (fin_ok_core _ _ _ (with_off_core _ _) Hfin4).
            -- exists s6. split; [exact E6|]. apply result_with_off in R6. exact R6.
        + exists s'. split; [apply (not_eligible rec s' prev cl cr' 0 [] x u y v'); auto|]. apply result_nil; auto. apply core_refl.
    Qed.

    Lemma wick_full : forall depth, rec_ok (wick depth) (fun prev p v => gof (length v) prev v) depth.
    Proof.
      induction depth as [|depth IH]; intros s prev p v Hinv Hflat Hne Hoff Hp Hd Hfin; [lia|].
      rewrite (Hp Hfull) in *. cbn [app length] in *.
      cbn [Wick_Model.wick]. rewrite Hoff. destruct (start_at (w_nest s) [] v Hflat Hne) as (cl & Ecl & Hl). cbn [length] in Ecl. rewrite Ecl, if_full.
      destruct v as [|x v]; [congruence|]. cbn [at_pos] in Hl.
      rewrite (at_elem_read _ _ _ _ _ Hl). cbn [length Wick_Proofs2.gof] in Hfin |- *.
      destruct (is_qpann (snd x)).
      - replace (opsize (w_nest s)) with (S (length v)) by (rewrite <- (tag_nest_length (w_nest s) 0), Hflat; reflexivity).
        cbn [Wick_Model.left_loop]. rewrite (at_elem_not_end _ _ _ _ _ Hl).
        fold (G_full (length v) prev x v) in Hfin |- *. cbn [length] in Hd.
        destruct (full_right (wick depth) s prev cl x v depth IH ltac:(lia) Hinv Hl Hfin) as (s1 & E1 & R1).
        rewrite E1. cbn [bind]. rewrite if_full. exists s1. auto.
      - exists s. split; [reflexivity|]. apply result_nil; auto. apply core_refl.
    Qed.
  End Full.
End Refine.
