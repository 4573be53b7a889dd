(** Proofs for C15. *)
From Coq Require Import List Arith Bool Lia Relations Permutation Sorting.Sorted.
From Verif Require Import Idx_Model Bin_Model Clu_Model Clu_Spec.
Import ListNotations.
Local Arguments Nat.ltb : simpl never.
Local Arguments Nat.eqb : simpl never.

Lemma member_in x l : member x l = true <-> In x l.
Proof. unfold member. rewrite existsb_exists. split; [intros (y & H & E); apply Nat.eqb_eq in E; subst; exact H|intros H; exists x; split; [exact H|apply Nat.eqb_refl]]. Qed.
Lemma member_not x l : member x l = false <-> ~ In x l.
Proof. rewrite <- member_in. destruct (member x l); split; congruence. Qed.

(** ** the maps *)
Lemma set_emplace_in x l y : In y (set_emplace x l) <-> y = x \/ In y l.
Proof.
  induction l as [|z l IH]; cbn; [(intuition (subst; auto))|]. destruct (Nat.eqb_spec x z) as [->|N]; [cbn; intuition (subst; auto)|]. destruct (x <? z); cbn; [(intuition (subst; auto))|]. rewrite IH. (intuition (subst; auto)).
Qed.
Definition sorted (l : list nat) : Prop := StronglySorted lt l.
Lemma set_emplace_sorted x l : sorted l -> sorted (set_emplace x l).
Proof.
  intros H. induction H as [|z l H IH F]; cbn; [repeat constructor|]. destruct (Nat.eqb_spec x z) as [->|N]; [constructor; assumption|]. destruct (Nat.ltb_spec x z) as [L|L].
  - constructor; [constructor; assumption|]. constructor; [exact L|]. eapply Forall_impl; [|exact F]. cbn. lia.
  - constructor; [exact IH|]. apply Forall_forall. intros y Hy. apply set_emplace_in in Hy as [->|Hy]; [lia|]. rewrite Forall_forall in F. apply F. exact Hy.
Qed.
Definition keys (m : list (nat * list nat)) : list nat := map fst m.
(** a map holds [s] at [h] *)
Definition at_key (m : list (nat * list nat)) (h : nat) (s : list nat) : Prop := In (h, s) m.
Lemma sorted_fun m h s s' : sorted (keys m) -> at_key m h s -> at_key m h s' -> s = s'.
Proof.
  unfold keys, at_key. induction m as [|[g t] m IH]; intros S [] []; try congruence; cbn in S; inversion S as [|? ? S1 S2]; subst.
  - injection H as <- <-. rewrite Forall_forall in S2. apply (in_map fst) in H0. apply S2 in H0. cbn in H0. lia.
  - injection H0 as <- <-. rewrite Forall_forall in S2. apply (in_map fst) in H. apply S2 in H. cbn in H. lia.
  - apply IH; assumption.
Qed.
Lemma record_keys h p m k : In k (keys (record h p m)) <-> k = h \/ In k (keys m).
Proof.
  unfold keys. induction m as [|[g s] m IH]; cbn; [(intuition (subst; auto))|]. destruct (Nat.eqb_spec h g) as [->|N]; [cbn; intuition (subst; auto)|]. destruct (h <? g); cbn; [(intuition (subst; auto))|]. rewrite IH. (intuition (subst; auto)).
Qed.
Lemma record_sorted h p m : sorted (keys m) -> sorted (keys (record h p m)).
Proof.
  intros S. induction m as [|[g s] m IH]; cbn; [repeat constructor|]. cbn in S. inversion S as [|? ? S1 S2]; subst. destruct (Nat.eqb_spec h g) as [->|N]; [cbn; constructor; assumption|].
  destruct (Nat.ltb_spec h g) as [L|L]; cbn.
  - constructor; [constructor; assumption|]. constructor; [exact L|]. eapply Forall_impl; [|exact S2]. cbn. lia.
  - constructor; [apply IH; exact S1|]. apply Forall_forall. intros k Hk. apply record_keys in Hk as [->|Hk]; [lia|]. rewrite Forall_forall in S2. apply S2. exact Hk.
Qed.
(** what a recorded map knows: [known m p h] *)
Definition known (m : list (nat * list nat)) (p h : nat) : Prop := exists s, at_key m h s /\ In p s.
Lemma record_known h p m q g : sorted (keys m) -> (known (record h p m) q g <-> (q = p /\ g = h) \/ known m q g).
Proof.
  unfold known, at_key. intros S. induction m as [|[k s] m IH]; cbn.
  - split; [intros (t & [E|[]] & H); injection E as <- <-; destruct H as [<-|[]]; auto|]. intros [[-> ->]|(t & [] & _)]. exists [p]. split; [left; reflexivity|left; reflexivity].
  - cbn in S. inversion S as [|? ? S1 S2]; subst. destruct (Nat.eqb_spec h k) as [->|N].
    + split.
      * intros (t & [E|Hin] & H); [injection E as <- <-; apply set_emplace_in in H as [->|H]; [auto|right; exists s; cbn [In]; auto]|right; exists t; cbn [In]; auto].
      * intros [[-> ->]|(t & [E|Hin] & H)]; [exists (set_emplace p s); split; [left; reflexivity|apply set_emplace_in; auto]|injection E as <- <-; exists (set_emplace p s); split; [left; reflexivity|apply set_emplace_in; auto]|exists t; cbn [In]; auto].
    + destruct (h <? k) eqn:L.
      * split.
        -- intros (t & [E|Hin] & H); [injection E as <- <-; destruct H as [<-|[]]; auto|right; exists t; cbn [In]; auto].
        -- intros [[-> ->]|(t & Hin & H)]; [exists [p]; split; [left; reflexivity|left; reflexivity]|exists t; split; [right; exact Hin|exact H]].
      * specialize (IH S1). split.
        -- intros (t & [E|Hin] & H); [injection E as <- <-; right; exists s; cbn [In]; auto|]. destruct (proj1 IH (ex_intro _ t (conj Hin H))) as [Q|(t' & Q1 & Q2)]; [auto|right; exists t'; cbn [In]; auto].
        -- intros [Q|(t & [E|Hin] & H)].
           ++ destruct (proj2 IH (or_introl Q)) as (t & Q1 & Q2). exists t. cbn [In]. auto.
           ++ injection E as <- <-. exists s. cbn [In]. auto.
           ++ destruct (proj2 IH (or_intror (ex_intro _ t (conj Hin H)))) as (t' & Q1 & Q2). exists t'. cbn [In]. auto.
Qed.
Definition good_sets (m : list (nat * list nat)) : Prop := forall h s, at_key m h s -> s <> [] /\ sorted s.
Lemma record_sets h p m : good_sets m -> good_sets (record h p m).
Proof.
  unfold good_sets, at_key. intros G. induction m as [|[k s] m IH]; cbn; intros g t H.
  - destruct H as [E|[]]. injection E as <- <-. split; [discriminate|repeat constructor].
  - destruct (Nat.eqb h k).
    + destruct H as [E|H]; [|apply (G g); right; exact H]. injection E as <- <-. destruct (G k s (or_introl eq_refl)) as [G1 G2]. split; [|apply set_emplace_sorted; exact G2].
      intros E. assert (Q : In p (set_emplace p s)) by (apply set_emplace_in; auto). rewrite E in Q. destruct Q.
    + destruct (h <? k); [destruct H as [E|H]; [injection E as <- <-; split; [discriminate|repeat constructor]|apply (G g); exact H]|].
      destruct H as [E|H]; [apply (G g); left; exact E|]. apply (IH (fun g t Q => G g t (or_intror Q)) g t H).
Qed.
Lemma record_all l p : forall m, sorted (keys m) -> good_sets m ->
  let m' := fold_left (fun m h => record h p m) l m in
  sorted (keys m') /\ good_sets m' /\ forall q g, known m' q g <-> (q = p /\ In g l) \/ known m q g.
Proof.
  induction l as [|h l IH]; intros m S G; cbn [fold_left]; [split; [exact S|split; [exact G|cbn; (intuition (subst; auto))]]|].
  destruct (IH (record h p m) (record_sorted h p m S) (record_sets h p m G)) as (A & B & C). split; [exact A|]. split; [exact B|].
  intros q g. rewrite C, (record_known h p m q g S). cbn [In]. split; [intros [[A1 A2]|[[A1 A2]|A1]]|intros [[A1 [A2|A2]]|A1]]; subst; auto.
Qed.
Lemma positions_from_ok : forall hs p m, sorted (keys m) -> good_sets m ->
  let m' := positions_from p hs m in
  sorted (keys m') /\ good_sets m' /\ forall q g, known m' q g <-> (p <= q /\ has_at hs (q - p) g) \/ known m q g.
Proof.
  induction hs as [|l hs IH]; intros p m So G; cbn [positions_from].
  - split; [exact So|]. split; [exact G|]. intros q g. split; [auto|]. intros [[_ (l & H & _)]|H]; [destruct (q - p); discriminate|exact H].
  - destruct (record_all l p m So G) as (S1 & G1 & K1). destruct (IH (S p) _ S1 G1) as (S2 & G2 & K2). split; [exact S2|]. split; [exact G2|].
    intros q g. rewrite K2, K1. split.
    + intros [[L (l' & H1 & H2)]|[[-> H]|H]].
      * left. split; [lia|]. exists l'. split; [|exact H2]. replace (q - p) with (S (q - S p)) by lia. exact H1.
      * left. split; [lia|]. exists l. rewrite Nat.sub_diag. split; [reflexivity|exact H].
      * right. exact H.
    + intros [[L (l' & H1 & H2)]|H]; [|auto]. destruct (Nat.eq_dec q p) as [->|N].
      * rewrite Nat.sub_diag in H1. injection H1 as <-. auto.
      * left. split; [lia|]. exists l'. split; [|exact H2]. replace (q - p) with (S (q - S p)) in H1 by lia. exact H1.
Qed.
Lemma positions_ok hs : sorted (keys (positions hs)) /\ good_sets (positions hs) /\ forall q g, known (positions hs) q g <-> has_at hs q g.
Proof.
  destruct (positions_from_ok hs 0 []) as (A & B & C); [constructor|intros h s []|]. split; [exact A|]. split; [exact B|]. intros q g. unfold positions. rewrite C, Nat.sub_0_r.
  split; [intros [[_ H]|(s & [] & _)]; exact H|intros H; left; split; [lia|exact H]].
Qed.

(** ** connections *)
Lemma connect_keys p qs c k : In k (keys (connect p qs c)) <-> k = p \/ In k (keys c).
Proof.
  unfold keys. induction c as [|[g s] c IH]; cbn; [(intuition (subst; auto))|]. destruct (Nat.eqb_spec p g) as [->|N]; [cbn; intuition (subst; auto)|]. destruct (p <? g); cbn; [(intuition (subst; auto))|]. rewrite IH. (intuition (subst; auto)).
Qed.
Lemma connect_sorted p qs c : sorted (keys c) -> sorted (keys (connect p qs c)).
Proof.
  intros S. induction c as [|[g s] c IH]; cbn; [repeat constructor|]. cbn in S. inversion S as [|? ? S1 S2]; subst. destruct (Nat.eqb_spec p g) as [->|N]; [cbn; constructor; assumption|].
  destruct (Nat.ltb_spec p g) as [L|L]; cbn.
  - constructor; [constructor; assumption|]. constructor; [exact L|]. eapply Forall_impl; [|exact S2]. cbn. lia.
  - constructor; [apply IH; exact S1|]. apply Forall_forall. intros k Hk. apply connect_keys in Hk as [->|Hk]; [lia|]. rewrite Forall_forall in S2. apply S2. exact Hk.
Qed.
Lemma connect_children p qs c k : sorted (keys c) -> children (connect p qs c) k = if Nat.eqb k p then children c k ++ qs else children c k.
Proof.
  unfold children. intros S. induction c as [|[g s] c IH]; cbn.
  - destruct (Nat.eqb_spec k p); cbn; reflexivity.
  - cbn in S. inversion S as [|? ? S1 S2]; subst. destruct (Nat.eqb_spec p g) as [->|N]; cbn.
    + destruct (Nat.eqb_spec k g); reflexivity.
    + destruct (Nat.ltb_spec p g) as [L|L]; cbn.
      * destruct (Nat.eqb_spec k p) as [->|N2]; [|reflexivity]. destruct (Nat.eqb_spec p g); [congruence|].
        destruct (find (fun kv => Nat.eqb p (fst kv)) c) as [kv|] eqn:E; [|reflexivity]. apply find_some in E as [E1 E2]. apply Nat.eqb_eq in E2. rewrite Forall_forall in S2.
        apply (in_map fst) in E1. apply S2 in E1. lia.
      * destruct (Nat.eqb_spec k g) as [->|N2]; [destruct (Nat.eqb_spec g p); [congruence|reflexivity]|]. apply IH. exact S1.
Qed.
Definition leader (m : list (nat * list nat)) (p : nat) (q : nat) : Prop := exists h qs, at_key m h (p :: qs) /\ In q qs.
Lemma connections_ok m : good_sets m ->
  sorted (keys (connections m)) /\
  (forall k, In k (keys (connections m)) <-> exists h qs, at_key m h (k :: qs)) /\
  (forall p q, In q (children (connections m) p) <-> leader m p q).
Proof.
  intros G. unfold connections.
  assert (A : forall m c, good_sets m -> sorted (keys c) -> let c' := fold_left (fun c kv => match snd kv with [] => c | p :: qs => connect p qs c end) m c in
    sorted (keys c') /\ (forall k, In k (keys c') <-> In k (keys c) \/ exists h qs, at_key m h (k :: qs)) /\
    (forall p q, In q (children c' p) <-> In q (children c p) \/ leader m p q)).
  { clear. induction m as [|[h s] m IH]; intros c G S; cbn [fold_left snd].
    - split; [exact S|]. split; [intros k; split; [auto|intros [H|(h & qs & [])]; exact H]|]. intros p q. split; [auto|]. intros [H|(h & qs & [] & _)]. exact H.
    - assert (G' : good_sets m) by (intros g t Q; apply (G g t); right; exact Q). destruct s as [|p qs]; [destruct (G h [] (or_introl eq_refl)); congruence|].
      destruct (IH (connect p qs c) G' (connect_sorted p qs c S)) as (A & B & C). split; [exact A|]. split.
      + intros k. rewrite B, connect_keys. unfold at_key. cbn [In]. split.
        * intros [[->|H]|(g & rs & H)]; [right; exists h, qs; cbn [In]; auto|auto|right; exists g, rs; cbn [In]; auto].
        * intros [H|(g & rs & [H|H])]; [auto|injection H as -> -> ->; auto|right; exists g, rs; cbn [In]; auto].
      + intros k q. rewrite C, (connect_children p qs c k S). unfold leader, at_key. cbn [In]. destruct (Nat.eqb_spec k p) as [->|N].
        * rewrite in_app_iff. split.
          -- intros [[H|H]|(g & rs & H1 & H2)]; [auto|right; exists h, qs; cbn [In]; auto|right; exists g, rs; cbn [In]; auto].
          -- intros [H|(g & rs & [H1|H1] & H2)]; [auto|injection H1 as -> ->; auto|right; exists g, rs; cbn [In]; auto].
        * split.
          -- intros [H|(g & rs & H1 & H2)]; [auto|right; exists g, rs; cbn [In]; auto].
          -- intros [H|(g & rs & [H1|H1] & H2)]; [auto|injection H1; intros; congruence|right; exists g, rs; cbn [In]; auto]. }
  destruct (A m [] G) as (A1 & A2 & A3); [constructor|]. split; [exact A1|]. split.
  - intros k. rewrite A2. split; [intros [[]|H]; exact H|auto].
  - intros p q. rewrite A3. split; [intros [[]|H]; exact H|auto].
Qed.

(** the connections of a sum in terms of its intermediates *)
Lemma first_is hs h p qs : at_key (positions hs) h (p :: qs) -> first_at hs p h.
Proof.
  destruct (positions_ok hs) as (S & G & KN). intros H. split.
  - apply KN. exists (p :: qs). split; [exact H|left; reflexivity].
  - intros q Hq. apply KN in Hq as (s & H1 & H2). assert (E := sorted_fun _ _ _ _ S H H1). subst s. destruct H2 as [<-|H2]; [lia|].
    destruct (G h (p :: qs) H) as [_ SS]. inversion SS as [|? ? _ F]; subst. rewrite Forall_forall in F. apply F in H2. lia.
Qed.
Lemma first_at_key hs h p : first_at hs p h -> exists qs, at_key (positions hs) h (p :: qs) /\ forall q, In q (p :: qs) <-> has_at hs q h.
Proof.
  destruct (positions_ok hs) as (S & G & KN). intros [H L]. assert (H' := H). apply KN in H' as (s & H1 & H2).
  destruct s as [|x qs]; [destruct H2|]. assert (FX := first_is hs h x qs H1).
  assert (E : x = p) by (destruct FX as [FX1 FX2]; specialize (L x FX1); specialize (FX2 p H); lia). subst x. exists qs. split; [exact H1|].
  intros q. split; [intros Hq; apply KN; exists (p :: qs); auto|]. intros Hq. apply KN in Hq as (t & T1 & T2). rewrite (sorted_fun _ _ _ _ S H1 T1). exact T2.
Qed.
Lemma exists_first hs h q : has_at hs q h -> exists p, first_at hs p h.
Proof.
  destruct (positions_ok hs) as (S & G & KN). intros H. apply KN in H as (s & H1 & H2). destruct s as [|p qs]; [destruct H2|]. exists p. eapply first_is. exact H1.
Qed.
Lemma has_lt hs p h : has_at hs p h -> p < length hs.
Proof. intros (l & H & _). apply nth_error_Some. congruence. Qed.
Section Graph.
  Variable hs : list (list nat).
  Let c := connections (positions hs).
  Lemma c_sorted : sorted (keys c). Proof. apply connections_ok. apply positions_ok. Qed.
  Lemma c_keys k : In k (keys c) <-> exists h, first_at hs k h.
  Proof.
    destruct (connections_ok (positions hs) (proj1 (proj2 (positions_ok hs)))) as (_ & B & _). unfold c. rewrite B. split.
    - intros (h & qs & H). exists h. eapply first_is. exact H.
    - intros (h & H). destruct (first_at_key hs h k H) as (qs & H1 & _). eauto.
  Qed.
  Lemma c_children p q : In q (children c p) <-> link hs p q /\ p < q.
  Proof.
    destruct (positions_ok hs) as (S & G & KN). destruct (connections_ok (positions hs) G) as (_ & _ & C). unfold c. rewrite C. split.
    - intros (h & qs & H1 & H2). split; [exists h; split; [eapply first_is; exact H1|apply KN; exists (p :: qs); split; [exact H1|right; exact H2]]|].
      destruct (G h (p :: qs) H1) as [_ SS]. inversion SS as [|? ? _ F]; subst. rewrite Forall_forall in F. apply F. exact H2.
    - intros [(h & H1 & H2) L]. destruct (first_at_key hs h p H1) as (qs & Q1 & Q2). exists h, qs. split; [exact Q1|]. apply Q2 in H2 as [<-|H2]; [lia|exact H2].
  Qed.
  Lemma leads_children p q : leads hs p q <-> clos_refl_trans nat (fun p q => In q (children c p)) p q.
  Proof.
    split; intros H; induction H as [x y H|x|x y z H1 IH1 H2 IH2]; try apply rt_refl; try (eapply rt_trans; eassumption).
    - destruct (Nat.eq_dec x y) as [->|N]; [apply rt_refl|]. apply rt_step. apply c_children. split; [exact H|]. destruct H as (h & H1 & H2). assert (Q := proj2 H1 y H2). lia.
    - apply rt_step. apply c_children in H. apply H.
  Qed.
End Graph.

(** ** the search *)
Section Search.
  Variable c : list (nat * list nat).
  Definition step p q := In q (children c p).
  Notation reach := (clos_refl_trans nat step).
  Lemma push_all l st : fold_left (fun (st : list nat) q => q :: st) (rev l) st = l ++ st.
  Proof. revert st. induction l as [|x l IH]; intros st; cbn [rev]; [reflexivity|]. rewrite fold_left_app, IH. reflexivity. Qed.
  Lemma dfs_more : forall f f' st vis cl r, dfs f c st vis cl = Some r -> f <= f' -> dfs f' c st vis cl = Some r.
  Proof.
    induction f as [|f IH]; intros f' st vis cl r H L; [discriminate|]. destruct f' as [|f']; [lia|]. cbn [dfs] in *. destruct st as [|p st]; [exact H|].
    destruct (member p vis); eapply IH; eauto; lia.
  Qed.
  Definition reached (st : list nat) (x : nat) : Prop := exists p, In p st /\ reach p x.
  Lemma reached_pop p st x : reached (p :: st) x <-> x = p \/ reached (children c p ++ st) x.
  Proof.
    split.
    - intros (y & [<-|H] & R).
      + apply clos_rt_rt1n in R. destruct R as [|y z E R]; [auto|]. right. exists y. split; [apply in_or_app; left; exact E|]. apply clos_rt1n_rt. exact R.
      + right. exists y. split; [apply in_or_app; right; exact H|exact R].
    - intros [->|(y & H & R)]; [exists p; split; [left; reflexivity|apply rt_refl]|]. apply in_app_or in H as [H|H].
      + exists p. split; [left; reflexivity|]. eapply rt_trans; [apply rt_step; exact H|exact R].
      + exists y. split; [right; exact H|exact R].
  Qed.
  Lemma dfs_ok : forall f st vis cl vis' cl', dfs f c st vis cl = Some (vis', cl') ->
    exists new, cl' = cl ++ new /\ NoDup new /\ (forall x, In x new <-> reached st x /\ ~ In x vis) /\ (forall x, In x vis' <-> In x vis \/ reached st x) /\
      match st with p :: _ => ~ In p vis -> exists l, new = p :: l | [] => True end.
  Proof.
    induction f as [|f IH]; intros st vis cl vis' cl' H; [discriminate|]. cbn [dfs] in H. destruct st as [|p st].
    - injection H as <- <-. exists []. split; [symmetry; apply app_nil_r|]. split; [constructor|].
      assert (E : forall x, ~ reached [] x) by (intros x (p & [] & _)). split; [intros x; cbn; specialize (E x); tauto|]. split; [intros x; specialize (E x); tauto|exact I].
    - rewrite push_all in H. destruct (member p vis) eqn:M.
      + apply member_in in M. destruct (IH _ _ _ _ _ H) as (new & -> & N & A & B & _). exists new. split; [reflexivity|]. split; [exact N|]. split.
        * intros x. rewrite A, reached_pop. split; [tauto|]. intros [[->|R] V]; [contradiction|auto].
        * split; [|contradiction]. intros x. rewrite B, reached_pop. split; [tauto|]. intros [V|[->|R]]; auto.
      + apply member_not in M. destruct (IH _ _ _ _ _ H) as (new & -> & N & A & B & _). exists (p :: new). split; [rewrite <- app_assoc; reflexivity|]. split; [|split; [|split]].
        * constructor; [|exact N]. intros HP. apply A in HP as [_ HP]. apply HP. left. reflexivity.
        * intros x. cbn [In]. rewrite A, reached_pop. cbn [In]. split.
          -- intros [<-|[R V]]; [auto|]. split; [auto|]. intros Q. apply V. right. exact Q.
          -- intros [[->|R] V]; [auto|]. destruct (Nat.eq_dec p x) as [->|NE]; [auto|]. right. split; [exact R|]. intros [Q|Q]; [congruence|contradiction].
        * intros x. rewrite B, reached_pop. cbn [In]. split; [intros [[<-|V]|R]; auto|intros [V|[->|R]]; auto].
        * intros _. exists new. reflexivity.
  Qed.
  Hypothesis down : forall p q, In q (children c p) -> p < q.
  Variable n : nat.
  Hypothesis bound : forall p q, In q (children c p) -> q < n.
  Lemma dfs_stops : forall st vis cl, exists f r, dfs f c st vis cl = Some r.
  Proof.
    assert (A : forall k p, n - p < k -> forall st, (forall vis cl, exists f r, dfs f c st vis cl = Some r) -> forall vis cl, exists f r, dfs f c (p :: st) vis cl = Some r).
    { induction k as [|k IH]; intros p L st T vis cl; [lia|].
      assert (B : forall l, (forall q, In q l -> In q (children c p)) -> forall vis cl, exists f r, dfs f c (l ++ st) vis cl = Some r).
      { induction l as [|q l IHl]; intros Su vis1 cl1; [apply T|]. cbn [app]. apply IH.
        - assert (Q1 := down p q (Su q (or_introl eq_refl))). assert (Q2 := bound p q (Su q (or_introl eq_refl))). lia.
        - intros vis2 cl2. apply IHl. intros y Hy. apply Su. right. exact Hy. }
      destruct (member p vis) eqn:M.
      - destruct (B (children c p) (fun q H => H) vis cl) as (f & r & E). exists (S f), r. cbn [dfs]. rewrite push_all, M. exact E.
      - destruct (B (children c p) (fun q H => H) (p :: vis) (cl ++ [p])) as (f & r & E). exists (S f), r. cbn [dfs]. rewrite push_all, M. exact E. }
    induction st as [|p st IH]; intros vis cl; [exists 1, (vis, cl); reflexivity|]. apply (A (S (n - p)) p); [lia|exact IH].
  Qed.

  (** *** the loop over the keys *)
  Lemma clusters_stop : forall ks vis, exists f0, forall f, f0 <= f -> exists r, collect_clusters f c ks vis = Some r.
  Proof.
    induction ks as [|k ks IH]; intros vis; [exists 0; intros f _; exists []; reflexivity|]. cbn [collect_clusters]. destruct (member k vis) eqn:M.
    - destruct (IH vis) as [f0 H]. exists f0. intros f L. apply H. exact L.
    - destruct (dfs_stops [k] vis []) as (f1 & [vis' cl] & E). destruct (IH vis') as [f0 H]. exists (Nat.max f0 f1). intros f L.
      rewrite (dfs_more f1 f _ _ _ _ E) by lia. destruct (H f ltac:(lia)) as [r Er]. rewrite Er. eauto.
  Qed.
  (** the clusters: the terms that the key leads to and that are not in earlier clusters *)
  Inductive clustering : list nat -> list (list nat) -> Prop :=
  | cl_nil vis : clustering vis []
  | cl_cons vis k l r : ~ In k vis -> NoDup (k :: l) ->
      (forall x, In x (k :: l) <-> reach k x /\ ~ In x vis) -> clustering (vis ++ k :: l) r -> clustering vis ((k :: l) :: r).
  Lemma clustering_ext vis vis' r : (forall x, In x vis <-> In x vis') -> clustering vis r -> clustering vis' r.
  Proof.
    intros E H. revert vis' E. induction H as [vis|vis k l r N D A H IH]; intros vis' E; constructor.
    - rewrite <- E. exact N.
    - exact D.
    - intros x. rewrite A, (E x). reflexivity.
    - apply IH. intros x. rewrite !in_app_iff, (E x). reflexivity.
  Qed.
  Lemma collect_clustering f : forall ks vis r, collect_clusters f c ks vis = Some r -> clustering vis r.
  Proof.
    induction ks as [|k ks IH]; intros vis r H; cbn [collect_clusters] in H; [injection H as <-; constructor|]. destruct (member k vis) eqn:M; [apply IH; exact H|].
    destruct (dfs f c [k] vis []) as [[vis' cl]|] eqn:E; [|discriminate]. destruct (collect_clusters f c ks vis') as [r'|] eqn:E2; [|discriminate]. injection H as <-.
    apply member_not in M. destruct (dfs_ok _ _ _ _ _ _ E) as (new & -> & N & A & B & C). destruct (C M) as [l ->]. cbn [app].
    assert (RK : forall x, reached [k] x <-> reach k x) by (intros x; split; [intros (p & [<-|[]] & R); exact R|intros R; exists k; split; [left; reflexivity|exact R]]).
    constructor; auto.
    - intros x. rewrite A, RK. reflexivity.
    - eapply clustering_ext; [|apply (IH vis'); exact E2]. intros x. rewrite B, in_app_iff, A, !RK.
      destruct (in_dec Nat.eq_dec x vis); tauto.
  Qed.
  Lemma collect_keys f : forall ks vis r, collect_clusters f c ks vis = Some r -> forall k, In k ks -> In k vis \/ In k (concat r).
  Proof.
    induction ks as [|k ks IH]; intros vis r H y Hy; [destruct Hy|]. cbn [collect_clusters] in H. destruct (member k vis) eqn:M.
    - apply member_in in M. destruct Hy as [<-|Hy]; [auto|]. eapply IH; eauto.
    - destruct (dfs f c [k] vis []) as [[vis' cl]|] eqn:E; [|discriminate]. destruct (collect_clusters f c ks vis') as [r'|] eqn:E2; [|discriminate]. injection H as <-.
      apply member_not in M. destruct (dfs_ok _ _ _ _ _ _ E) as (new & -> & N & A & B & C). cbn [app concat]. rewrite in_app_iff.
      destruct (C M) as [l EQ]. destruct Hy as [<-|Hy]; [right; left; rewrite EQ; left; reflexivity|].
      destruct (IH vis' r' E2 y Hy) as [Q|Q]; [|auto]. apply B in Q as [Q|Q]; [auto|]. destruct (in_dec Nat.eq_dec y vis); [auto|]. right. left. apply A. auto.
  Qed.
  Lemma collect_heads f : forall ks vis r, collect_clusters f c ks vis = Some r -> forall k l, In (k :: l) r -> In k ks.
  Proof.
    induction ks as [|k ks IH]; intros vis r H y l Hy; cbn [collect_clusters] in H; [injection H as <-; destruct Hy|]. destruct (member k vis) eqn:M.
    - right. eapply IH; eauto.
    - destruct (dfs f c [k] vis []) as [[vis' cl]|] eqn:E; [|discriminate]. destruct (collect_clusters f c ks vis') as [r'|] eqn:E2; [|discriminate]. injection H as <-.
      apply member_not in M. destruct (dfs_ok _ _ _ _ _ _ E) as (new & -> & N & A & B & C). destruct (C M) as [l' ->]. cbn [app] in Hy. destruct Hy as [Hy|Hy]; [injection Hy as <- _; left; reflexivity|].
      right. eapply IH; eauto.
  Qed.
  Lemma clustering_closed vis r : clustering vis r -> (forall p x, In p vis -> reach p x -> In x vis) ->
    forall p x, In p (concat r) -> reach p x -> In x vis \/ In x (concat r).
  Proof.
    intros H. induction H as [vis|vis k l r N D A H IH]; intros CL p x Hp R; [destruct Hp|]. cbn [concat] in *. rewrite in_app_iff in *.
    assert (CL' : forall p x, In p (vis ++ k :: l) -> reach p x -> In x (vis ++ k :: l)).
    { intros q y Hq Ry. rewrite in_app_iff in *. destruct Hq as [Hq|Hq]; [left; eapply CL; eauto|]. apply A in Hq as [Hq _]. destruct (in_dec Nat.eq_dec y vis); [auto|]. right. apply A. split; [|assumption]. eapply rt_trans; eauto. }
    destruct Hp as [Hp|Hp].
    - assert (Q : In x (vis ++ k :: l)) by (eapply CL'; [apply in_or_app; right; exact Hp|exact R]). apply in_app_or in Q. tauto.
    - destruct (IH CL' p x Hp R) as [Q|Q]; [apply in_app_or in Q; tauto|auto].
  Qed.
  Lemma clustering_nodup vis r : clustering vis r -> NoDup (concat r) /\ forall x, In x (concat r) -> ~ In x vis.
  Proof.
    intros H. induction H as [vis|vis k l r N D A H [IH1 IH2]]; [split; [constructor|intros x []]|]. cbn [concat]. split.
    - revert D A IH1 IH2. generalize (k :: l) as m. clear. intros m D A IH1 IH2. assert (Q : forall x, In x (concat r) -> ~ In x m) by (intros x Hx Hm; apply (IH2 x Hx); apply in_or_app; auto).
      clear A IH2. induction D as [|x m N D IH]; [exact IH1|]. cbn [app]. constructor.
      + intros H. apply in_app_or in H as [H|H]; [contradiction|]. apply (Q x H). left. reflexivity.
      + apply IH. intros y Hy Hm. apply (Q y Hy). right. exact Hm.
    - intros x Hx. apply in_app_or in Hx as [Hx|Hx]; [apply A in Hx; apply Hx|]. intros Hv. apply (IH2 x Hx). apply in_or_app. auto.
  Qed.
End Search.
