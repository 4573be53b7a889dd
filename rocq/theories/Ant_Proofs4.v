(** * Proofs about [num_closed_loops] *)
From Coq Require Import List Arith Lia Bool Permutation.
From Verif Require Import Ant_Model Ant_Spec.
Import ListNotations.

Lemma last_pos_some x v k : last_pos x v = Some k -> nth_error v k = Some x.
Proof.
  revert k. induction v as [|y v IH]; intros k H; cbn in H; [discriminate|].
  destruct (last_pos x v) as [j|].
  - injection H as <-. cbn. apply IH. reflexivity.
  - destruct (Nat.eqb_spec x y); [|discriminate]. injection H as <-. cbn. congruence.
Qed.
Lemma last_pos_none x v : last_pos x v = None -> ~ In x v.
Proof.
  induction v as [|y v IH]; cbn; intros H; [tauto|].
  destruct (last_pos x v) as [j|]; [discriminate|].
  destruct (Nat.eqb_spec x y); [discriminate|]. intros [E|E]; [congruence|apply IH; auto].
Qed.
Lemma last_pos_in x v : In x v -> exists k, last_pos x v = Some k.
Proof. intros H. destruct (last_pos x v) as [k|] eqn:E; [eauto|]. apply last_pos_none in E. tauto. Qed.

Lemma nth_error_inj {A} (v : list A) i j x : NoDup v -> nth_error v i = Some x -> nth_error v j = Some x -> i = j.
Proof.
  intros N H1 H2. apply (proj1 (NoDup_nth_error v) N); [apply nth_error_Some; congruence|congruence].
Qed.

Lemma last_pos_nodup x v k : NoDup v -> nth_error v k = Some x -> last_pos x v = Some k.
Proof.
  intros N H. destruct (last_pos_in x v) as [j E]; [eapply nth_error_In; eauto|].
  rewrite E. f_equal. apply last_pos_some in E. eapply nth_error_inj; eauto.
Qed.

Lemma where_nodup chk x v : NoDup v -> where_same_ele chk x v = Ok (last_pos x v).
Proof.
  intros N. unfold where_same_ele.
  assert (length (filter (Nat.eqb x) v) <= 1) as L.
  { clear chk. induction N as [|y v Hy N IH]; cbn [filter]; [cbn; lia|].
    destruct (Nat.eqb_spec x y); [|exact IH]. subst y. cbn [length].
    assert (filter (Nat.eqb x) v = []) as ->; [|cbn; lia].
    clear - Hy. induction v as [|z v IH]; [reflexivity|]. cbn [filter]. cbn in Hy.
    destruct (Nat.eqb_spec x z); [subst; tauto|]. apply IH. tauto. }
  destruct (Nat.leb_spec 2 (length (filter (Nat.eqb x) v))); [lia|]. rewrite andb_false_r. reflexivity.
Qed.

Section Path.
  Variable R : nat -> nat -> Prop.
  Hypothesis det : forall i j j', R i j -> R i j' -> j = j'.
  Hypothesis inj : forall i i' j, R i j -> R i' j -> i = i'.

  Lemma path_app x l l' : path R x (l ++ l') <-> path R x l /\ path R (last l x) l'.
  Proof.
    revert x. induction l as [|y l IH]; intros x; [cbn; tauto|]. cbn [app path]. rewrite IH.
    assert (last (y :: l) x = last l y) as ->.
    { clear. revert y. induction l as [|z l IH]; intros y; [reflexivity|]. change (last (y :: z :: l) x) with (last (z :: l) x).
      rewrite IH. destruct l; [reflexivity|]. cbn. clear. revert n. induction l as [|w l IH]; intros n; [reflexivity|]. apply IH. }
    tauto.
  Qed.
  Lemma last_cons (y x : nat) l : last (y :: l) x = last l y.
  Proof.
    revert y x. induction l as [|z l IH]; intros y x; [reflexivity|]. change (last (y :: z :: l) x) with (last (z :: l) x).
    rewrite !IH. reflexivity.
  Qed.
  Lemma last_in (l : list nat) x : In (last l x) (x :: l).
  Proof.
    revert x. induction l as [|y l IH]; intros x; [left; reflexivity|]. rewrite last_cons. right. apply IH.
  Qed.
  Lemma last_snoc (l : list nat) x k : last (l ++ [k]) x = k.
  Proof. revert x. induction l as [|y l IH]; intros x; [reflexivity|]. cbn [app]. rewrite last_cons. apply IH. Qed.

  Lemma path_no_return x l k : path R x l -> NoDup (x :: l) -> R (last l x) k -> ~ In k l.
  Proof.
    revert x. induction l as [|y l IH]; intros x P N H; [tauto|]. cbn [path] in P. destruct P as [P1 P2].
    rewrite last_cons in H. inversion N as [|? ? N1 N2]; subst. intros [->|K].
    - assert (last l k = x) by (eapply inj; eauto). apply N1. subst x. apply last_in.
    - exact (IH y P2 N2 H K).
  Qed.

  Definition on_cycle (d : nat) : Prop := exists c, closed_loop R c /\ In d c.

  Lemma path_next x l d : path R x l -> In d (x :: l) -> d = last l x \/ exists j, R d j /\ In j l.
  Proof.
    revert x. induction l as [|y l IH]; intros x P [<-|H].
    - left. reflexivity. - destruct H.
    - right. exists y. destruct P. split; [assumption|left; reflexivity].
    - destruct P as [_ P]. rewrite last_cons. destruct (IH y P H) as [->|(j & H1 & H2)]; [left; reflexivity|].
      right. exists j. split; [assumption|right; assumption].
  Qed.
  Lemma cycle_next c d : closed_loop R c -> In d c -> exists j, R d j /\ In j c.
  Proof.
    destruct c as [|x l]; [intros []|]. intros (_ & P & Z) H.
    destruct (path_next x l d P H) as [->|(j & H1 & H2)]; [exists x|exists j]; split; auto; [left; reflexivity|right; assumption].
  Qed.
  Lemma cycle_closed c d j : closed_loop R c -> In d c -> R d j -> In j c.
  Proof. intros Hc Hd H. destruct (cycle_next c d Hc Hd) as (j' & H1 & H2). rewrite (det _ _ _ H H1). exact H2. Qed.
  Lemma path_into c : closed_loop R c -> forall l x d, path R x l -> In d (x :: l) -> In d c -> In (last l x) c.
  Proof.
    intros Hc. induction l as [|y l IH]; intros x d P Hd K.
    - destruct Hd as [->|[]]. exact K.
    - destruct P as [P1 P2]. rewrite last_cons. destruct Hd as [->|Hd].
      + apply (IH y y P2); [left; reflexivity|]. eapply cycle_closed; eauto.
      + apply (IH y d P2 Hd K).
  Qed.
End Path.

Section Loops.
  Variables (chk : bool) (iu il nu nl : list nat).
  Hypothesis HP : pairing iu il nu nl.
  Notation R := (follows iu il nu nl).
  Notation m := (length nu).

  Lemma f_det i j j' : R i j -> R i j' -> j = j'.
  Proof.
    destruct HP as (_ & Nu & Nl & _ & Nnu & Nnl & _).
    intros (p & u & l & H1 & H2 & H3 & H4) (p' & u' & l' & K1 & K2 & K3 & K4).
    assert (l' = l) by congruence. subst l'. assert (p' = p) by (eapply (nth_error_inj il); eauto). subst p'.
    assert (u' = u) by congruence. subst u'. eapply (nth_error_inj nu); eauto.
  Qed.
  Lemma f_inj i i' j : R i j -> R i' j -> i = i'.
  Proof.
    destruct HP as (_ & Nu & Nl & _ & Nnu & Nnl & _).
    intros (p & u & l & H1 & H2 & H3 & H4) (p' & u' & l' & K1 & K2 & K3 & K4).
    assert (u' = u) by congruence. subst u'. assert (p' = p) by (eapply (nth_error_inj iu); eauto). subst p'.
    assert (l' = l) by congruence. subst l'. eapply (nth_error_inj nl); eauto.
  Qed.
  Lemma f_lt i j : R i j -> i < m /\ j < m.
  Proof.
    destruct HP as (_ & _ & _ & Lm & _). intros (p & u & l & H1 & H2 & H3 & H4).
    split; [rewrite Lm|]; apply nth_error_Some; congruence.
  Qed.

  Definition lowf (k : nat) : nat := nth k nl 0.
  Lemma lowf_nth k : k < m -> nth_error nl k = Some (lowf k).
  Proof. destruct HP as (_ & _ & _ & Lm & _). intros H. apply nth_error_nth'. lia. Qed.
  Lemma lowf_inj j k : j < m -> k < m -> lowf j = lowf k -> j = k.
  Proof.
    intros H1 H2 E. apply lowf_nth in H1, H2. destruct HP as (_ & _ & _ & _ & _ & Nnl & _).
    eapply (nth_error_inj nl); eauto. congruence.
  Qed.

  Lemma at_some v k x : nth_error v k = Some x -> at_ v (Some k) = Ok x.
  Proof. intros H. cbn. rewrite H. reflexivity. Qed.

  Lemma path_lt i l : i < m -> path R i l -> forall d, In d (i :: l) -> d < m.
  Proof.
    revert i. induction l as [|y l IH]; intros i Hi P d Hd.
    - destruct Hd as [->|[]]. exact Hi.
    - destruct P as [P1 P2]. destruct Hd as [->|Hd]; [exact Hi|]. apply (IH y); auto. apply f_lt in P1. tauto.
  Qed.

  Lemma chain_spec i ce : i < m ->
    (forall cur, cur < m -> ce = lowf cur <-> R cur i) ->
    forall fuel l inl, path R i l -> NoDup (i :: l) -> m < fuel + S (length l) ->
    exists l', path R i (l ++ l') /\ NoDup (i :: l ++ l') /\
      ((R (last (l ++ l') i) i /\ chain chk iu il nu nl fuel ce (lowf (last l i)) inl = Ok (true, inl ++ map lowf l')) \/
       ((forall j, ~ R (last (l ++ l') i) j) /\ chain chk iu il nu nl fuel ce (lowf (last l i)) inl = Ok (false, inl ++ map lowf l'))).
  Proof.
    intros Hi Hce. induction fuel as [|f IH]; intros l inl P ND Hf.
    - exfalso. assert (length (i :: l) <= length (seq 0 m)); [|rewrite seq_length in H; cbn in H; lia].
      apply NoDup_incl_length; [exact ND|]. intros d Hd. apply in_seq. split; [lia|]. cbn. eapply path_lt; eauto.
    - assert (Hcur : last l i < m) by (eapply path_lt; eauto; apply last_in).
      cbn [chain]. destruct (Nat.eqb_spec ce (lowf (last l i))) as [E|N].
      + exists []. rewrite !app_nil_r. split; [exact P|]. split; [exact ND|]. left. split; [|reflexivity].
        apply Hce; assumption.
      + destruct HP as (Lo & Nu & Nl & Lm & Nnu & Nnl & Iu & Il).
        assert (Hl := lowf_nth _ Hcur).
        rewrite where_nodup by exact Nl. cbn [obind].
        assert (Hin : In (lowf (last l i)) il) by (apply Il; eapply nth_error_In; eauto).
        destruct (last_pos_in _ _ Hin) as [p Ep]. rewrite Ep. apply last_pos_some in Ep.
        assert (Hp : p < length iu) by (rewrite Lo; apply nth_error_Some; congruence).
        destruct (nth_error iu p) as [u|] eqn:Eu; [|apply nth_error_None in Eu; lia].
        rewrite (at_some _ _ _ Eu). cbn [obind]. rewrite where_nodup by exact Nnu. cbn [obind].
        destruct (last_pos u nu) as [k|] eqn:Ek.
        * apply last_pos_some in Ek.
          assert (Rk : R (last l i) k) by (exists p, u, (lowf (last l i)); auto).
          assert (Hk : k < m) by (apply f_lt in Rk; tauto).
          rewrite (at_some nl k (lowf k)) by (apply lowf_nth; exact Hk). cbn [obind].
          assert (Nk : ~ In k (i :: l)).
          { intros [<-|K]; [apply N; apply Hce; assumption|].
            exact (path_no_return R f_inj i l k P ND Rk K). }
          destruct (IH (l ++ [k]) (inl ++ [lowf k])) as (l' & P' & ND' & D).
          { apply path_app. split; [exact P|]. cbn. auto. }
          { assert (Permutation (i :: l ++ [k]) (k :: i :: l)) as Pm.
            { change (i :: l ++ [k]) with ((i :: l) ++ [k]). apply Permutation_sym, Permutation_cons_append. }
            eapply Permutation_NoDup; [apply Permutation_sym; exact Pm|]. constructor; assumption. }
          { rewrite app_length. cbn. lia. }
          exists (k :: l'). rewrite <- !app_assoc in *. cbn [app] in *. split; [exact P'|]. split; [exact ND'|].
          rewrite last_snoc in D. cbn [map]. exact D.
        * exists []. rewrite !app_nil_r. split; [exact P|]. split; [exact ND|]. right. split; [|reflexivity].
          intros j (p' & u' & l' & K1 & K2 & K3 & K4).
          assert (l' = lowf (last l i)) by congruence. subst l'.
          assert (p' = p) by (eapply (nth_error_inj il); eauto). subst p'.
          assert (u' = u) by congruence. subst u'. apply last_pos_none in Ek. apply Ek. eapply nth_error_In; eauto.
  Qed.

  Definition total : Prop := forall i, i < m -> exists j, R i j.

  Definition linv (i result : nat) (inl : list nat) : Prop :=
    exists cs D, inl = map lowf D /\ Forall (fun d => d < m) D /\ result = length cs /\
      Forall (closed_loop R) cs /\ NoDup (concat cs) /\ incl (concat cs) D /\
      (forall d, In d D -> In d (concat cs) \/ ~ on_cycle R d) /\
      (forall j, j < i -> on_cycle R j -> In j (concat cs)) /\
      (total -> Permutation D (concat cs)).

  Lemma linv_nodup i result inl : linv i result inl -> total -> NoDup inl.
  Proof.
    intros (cs & D & -> & FD & _ & _ & ND & _ & _ & _ & T) HT.
    assert (N : NoDup D) by (eapply Permutation_NoDup; [apply Permutation_sym, T, HT|exact ND]).
    clear - FD N HP. induction N as [|d D Hd N IH]; cbn; constructor.
    - intros H. apply in_map_iff in H as (e & E & He). inversion FD as [|? ? F1 F2]; subst. rewrite Forall_forall in F2.
      apply lowf_inj in E; auto. subst. auto.
    - inversion FD; subst; auto.
  Qed.

  Lemma loops_spec fuel : m <= fuel -> forall k i result inl, i + k = m -> linv i result inl ->
    (exists r inl', loops chk iu il nu nl fuel (seq i k) result inl = Ok (r, inl') /\ linv m r inl') \/
    (chk = true /\ ~ total /\ loops chk iu il nu nl fuel (seq i k) result inl = AssertFailed).
  Proof.
    intros Hf. induction k as [|k IH]; intros i result inl Hik Inv.
    - left. exists result, inl. split; [reflexivity|]. replace m with i by lia. exact Inv.
    - cbn [seq loops]. pose proof HP as (Lo & Nu & Nl & Lm & Nnu & Nnl & Iu & Il).
      rewrite <- Lm, Nat.eqb_refl, andb_false_r.
      assert (Hi : i < m) by lia.
      rewrite (at_some nl i (lowf i) (lowf_nth i Hi)). cbn [obind].
      assert (W0 : where_same_ele chk (lowf i) inl =
        if chk && (2 <=? length (filter (Nat.eqb (lowf i)) inl)) then AssertFailed else Ok (last_pos (lowf i) inl)) by reflexivity.
      rewrite W0. clear W0.
      destruct (chk && (2 <=? length (filter (Nat.eqb (lowf i)) inl))) eqn:EA; cbn [obind].
      { right. apply andb_true_iff in EA as [Ec EA]. split; [exact Ec|]. split; [|reflexivity].
        intros HT. pose proof (where_nodup true (lowf i) inl (linv_nodup _ _ _ Inv HT)) as W.
        unfold where_same_ele in W. rewrite EA in W. discriminate. }
      destruct Inv as (cs & D & Einl & FD & Er & Fc & NDc & Ic & Hor & Hlt & HT).
      destruct (last_pos (lowf i) inl) as [q|] eqn:Eq.
      + apply IH; [lia|].
        assert (Hin : In i D).
        { apply last_pos_some, nth_error_In in Eq. rewrite Einl in Eq. apply in_map_iff in Eq as (d & E & Hd).
          rewrite Forall_forall in FD. apply lowf_inj in E; auto. subst. exact Hd. }
        exists cs, D. split; [exact Einl|]. split; [exact FD|]. split; [exact Er|]. split; [exact Fc|]. split; [exact NDc|]. split; [exact Ic|].
        split; [exact Hor|]. split; [|exact HT]. intros j Hj Hc.
        destruct (Nat.eq_dec j i) as [->|N]; [|apply Hlt; [lia|exact Hc]].
        destruct (Hor i Hin); tauto.
      + assert (NiD : ~ In i D).
        { intros H. apply last_pos_none in Eq. apply Eq. rewrite Einl. apply in_map. exact H. }
        destruct (nth_error nu i) as [u|] eqn:Eu; [|apply nth_error_None in Eu; lia].
        rewrite (at_some _ _ _ Eu). cbn [obind]. rewrite where_nodup by exact Nu. cbn [obind].
        destruct (last_pos_in u iu) as [p Ep]; [apply Iu; eapply nth_error_In; eauto|]. rewrite Ep. apply last_pos_some in Ep.
        destruct (nth_error il p) as [ce|] eqn:Ece; [|apply nth_error_None in Ece; assert (p < length iu) by (apply nth_error_Some; congruence); lia].
        rewrite (at_some _ _ _ Ece). cbn [obind].
        assert (Hce : forall cur, cur < m -> ce = lowf cur <-> R cur i).
        { intros cur Hc. pose proof (lowf_nth cur Hc) as Hl. split.
          - intros ->. exists p, u, (lowf cur). auto.
          - intros (p' & u' & l' & K1 & K2 & K3 & K4). assert (u' = u) by congruence. subst u'.
            assert (p' = p) by (eapply (nth_error_inj iu); eauto). subst p'. congruence. }
        destruct (chain_spec i ce Hi Hce fuel [] inl) as (l' & P & ND & HD).
        { exact Logic.I. } { constructor; [intros []|constructor]. } { cbn. lia. }
        cbn [app last] in P, ND, HD.
        assert (Fl : Forall (fun d => d < m) (l' ++ [i])).
        { apply Forall_forall. intros d Hd. apply (path_lt i l' Hi P). apply in_app_iff in Hd as [Hd|[->|[]]]; [right|left]; auto. }
        destruct HD as [[Z Ech]|[Z Ech]]; rewrite Ech; cbn [obind fst snd].
        * assert (Hcyc : closed_loop R (i :: l')) by (split; [exact ND|split; [exact P|exact Z]]).
          apply IH; [lia|]. exists ((i :: l') :: cs), (D ++ l' ++ [i]).
          assert (Disj : forall d, In d (i :: l') -> ~ In d (concat cs)).
          { intros d Hd K. apply in_concat in K as (c & Hc & Kd). rewrite Forall_forall in Fc.
            assert (In (last l' i) c) by (eapply (path_into R f_det); eauto).
            assert (In i c) by (eapply (cycle_closed R f_det); eauto).
            apply NiD, Ic, in_concat. eauto. }
          assert (Pm : Permutation (l' ++ [i]) (i :: l')) by (apply Permutation_sym, Permutation_cons_append).
          split; [rewrite Einl, !map_app; cbn [map]; rewrite <- app_assoc; reflexivity|].
          split; [apply Forall_app; split; assumption|]. split; [cbn; congruence|]. split; [constructor; assumption|].
          cbn [concat]. split.
          { clear - ND NDc Disj. revert ND Disj. generalize (i :: l'). intros c ND Disj. induction ND as [|x c Hx ND IH]; [exact NDc|].
            cbn [app]. constructor; [rewrite in_app_iff; intros [K|K]; [auto|apply (Disj x); [left; reflexivity|exact K]]|].
            apply IH. intros d Hd. apply Disj. right. exact Hd. }
          split.
          { intros d Hd. apply in_app_iff in Hd as [Hd|Hd]; apply in_app_iff; [right|left; apply Ic; exact Hd].
            eapply Permutation_in; [apply Permutation_sym; exact Pm|exact Hd]. }
          split.
          { intros d Hd. rewrite !in_app_iff in Hd. destruct Hd as [Hd|Hd].
            - destruct (Hor d Hd) as [K|K]; [left; apply in_app_iff; right; exact K|right; exact K].
            - left. apply in_app_iff. left. eapply Permutation_in; [exact Pm|]. apply in_app_iff. exact Hd. }
          split.
          { intros j Hj Hc. apply in_app_iff. destruct (Nat.eq_dec j i) as [->|N]; [left; left; reflexivity|].
            right. apply Hlt; [lia|exact Hc]. }
          { intros T. rewrite (HT T), Pm. apply Permutation_app_comm. }
        * apply IH; [lia|]. exists cs, (D ++ l' ++ [i]).
          assert (Open : forall d, In d (i :: l') -> ~ on_cycle R d).
          { intros d Hd (c & Hc & Kd). assert (K : In (last l' i) c) by (eapply (path_into R f_det); eauto).
            destruct (cycle_next R c _ Hc K) as (j & Hj & _). exact (Z j Hj). }
          split; [rewrite Einl, !map_app; cbn [map]; rewrite <- app_assoc; reflexivity|].
          split; [apply Forall_app; split; assumption|]. split; [exact Er|]. split; [exact Fc|]. split; [exact NDc|].
          split; [intros d Hd; apply in_app_iff; left; apply Ic; exact Hd|].
          split.
          { intros d Hd. rewrite !in_app_iff in Hd. destruct Hd as [Hd|Hd]; [auto|]. right. apply Open.
            destruct Hd as [Hd|[<-|[]]]; [right; exact Hd|left; reflexivity]. }
          split.
          { intros j Hj Hc. destruct (Nat.eq_dec j i) as [->|N]; [|apply Hlt; [lia|exact Hc]].
            exfalso. apply (Open i); [left; reflexivity|exact Hc]. }
          { intros T. exfalso. destruct (T (last l' i)) as (j & Hj); [|exact (Z j Hj)].
            apply (path_lt i l' Hi P). apply last_in. }
  Qed.

  Lemma num_loops_spec fuel : m <= fuel ->
    (exists k, number_of_loops R k /\ num_closed_loops chk iu il nu nl fuel = Ok k) \/
    (chk = true /\ ~ total /\ num_closed_loops chk iu il nu nl fuel = AssertFailed).
  Proof.
    intros Hf. unfold num_closed_loops.
    destruct (loops_spec fuel Hf m 0 0 []) as [(r & inl & E & Inv)|(H1 & H2 & E)].
    - lia.
    - exists [], []. split; [reflexivity|]. split; [constructor|]. split; [reflexivity|]. split; [constructor|]. split; [constructor|].
      split; [apply incl_refl|]. split; [intros d []|]. split; [intros j Hj; lia|]. intros _. apply Permutation_refl.
    - rewrite E. cbn [obind fst snd].
      pose proof Inv as (cs & D & Einl & FD & Er & Fc & NDc & Ic & Hor & Hlt & HT).
      assert (NL : number_of_loops R r).
      { exists cs. split; [auto|]. split; [exact Fc|]. split; [exact NDc|]. intros c i Hc Hi.
        apply Hlt; [|exists c; auto]. destruct (cycle_next R c i Hc Hi) as (j & Hj & _). apply f_lt in Hj. tauto. }
      destruct (chk && negb ((length inl <=? length il) && (r <=? length il))) eqn:EA; [|left; eauto].
      right. apply andb_true_iff in EA as [Ec EA]. split; [exact Ec|]. split; [|reflexivity]. intros T.
      apply negb_true_iff, andb_false_iff in EA. rewrite !Nat.leb_gt in EA.
      assert (ND := linv_nodup _ _ _ Inv T). pose proof HP as (Lo & Nu & Nl & Lm & Nnu & Nnl & Iu & Il).
      assert (Hlen : length inl <= length il).
      { apply NoDup_incl_length; [exact ND|]. rewrite Einl. intros x Hx. apply in_map_iff in Hx as (d & <- & Hd).
        apply Il. rewrite Forall_forall in FD. eapply nth_error_In, lowf_nth, FD, Hd. }
      assert (r <= length inl).
      { rewrite Einl, map_length, (Permutation_length (HT T)), Er. clear - Fc. induction Fc as [|c cs Hc Fc IH]; cbn; [lia|].
        rewrite app_length. destruct c; [destruct Hc|]. cbn. lia. }
      lia.
    - right. rewrite E. auto.
  Qed.

  (** When all original indices are paired again every pair has a successor. *)
  Lemma full_total : length nu = length iu -> total.
  Proof.
    intros L i Hi. pose proof HP as (Lo & Nu & Nl & Lm & Nnu & Nnl & Iu & Il).
    assert (Pu : Permutation nu iu) by (apply NoDup_Permutation_bis; auto; lia).
    pose proof (lowf_nth i Hi) as Hl.
    assert (In (lowf i) il) as Hin by (apply Il; eapply nth_error_In; eauto).
    apply In_nth_error in Hin as (p & Ep).
    assert (Hp : p < length iu) by (rewrite Lo; apply nth_error_Some; congruence).
    destruct (nth_error iu p) as [u|] eqn:Eu; [|apply nth_error_None in Eu; lia].
    assert (In u nu) as Hu by (eapply Permutation_in; [apply Permutation_sym; exact Pu|eapply nth_error_In; eauto]).
    apply In_nth_error in Hu as (j & Ej). exists j, p, u, (lowf i). auto.
  Qed.
End Loops.
