From Coq Require Import List Arith Bool Sorted Lia.
From Verif Require Import Hug_Model Hug_Spec.
Import ListNotations.

Section Proofs.
  Context {Edge : Type} (equals : Edge -> Edge -> bool).
  Hypothesis EQ : equivalence equals.

  Lemma eq_refl_ a : equals a a = true. Proof. destruct EQ as (R & _). apply R. Qed.
  Lemma eq_sym_ a b : equals a b = equals b a.
  Proof. apply eq_true_iff_eq. destruct EQ as (_ & S & _). split; apply S. Qed.
  Lemma eq_left a b c : equals a b = true -> equals a c = equals b c.
  Proof.
    intros H. apply eq_true_iff_eq. destruct EQ as (_ & S & T). split; intros X.
    - apply (T b a c); auto.
    - apply (T a b c); auto.
  Qed.

  (** ** Positions *)
  Fixpoint pos (b : nat) (r : Edge) (es : list Edge) : list nat :=
    match es with
    | [] => []
    | x :: es' => if equals r x then b :: pos (S b) r es' else pos (S b) r es'
    end.

  Lemma pos_app b r u v : pos b r (u ++ v) = pos b r u ++ pos (b + length u) r v.
  Proof.
    revert b. induction u as [|x u IH]; intros b; cbn [app pos length].
    - rewrite Nat.add_0_r. reflexivity.
    - rewrite IH. replace (S b + length u) with (b + S (length u)) by lia. destruct (equals r x); reflexivity.
  Qed.
  Lemma pos_S b r v : pos (S b) r v = map S (pos b r v).
  Proof. revert b. induction v as [|x v IH]; intros b; cbn; [reflexivity|]. rewrite IH. destruct (equals r x); reflexivity. Qed.
  Lemma pos_range b r es i : In i (pos b r es) -> b <= i < b + length es.
  Proof.
    revert b. induction es as [|x es IH]; intros b; cbn; [tauto|].
    destruct (equals r x); cbn; intros H; [destruct H as [H|H]; [lia|]|]; apply IH in H; lia.
  Qed.
  Lemma pos_In b r es i : In i (pos b r es) <-> exists x, b <= i /\ nth_error es (i - b) = Some x /\ equals r x = true.
  Proof.
    revert b. induction es as [|x es IH]; intros b; cbn [pos].
    - cbn. split; [tauto|]. intros [x [_ [H _]]]. destruct (i - b); discriminate.
    - assert (G : In i (pos (S b) r es) <-> exists y, S b <= i /\ nth_error (x :: es) (i - b) = Some y /\ equals r y = true).
      { rewrite IH. split; intros [y [A [B C]]]; exists y; (split; [exact A|]); split; auto.
        - replace (i - b) with (S (i - S b)) by lia. exact B.
        - replace (i - b) with (S (i - S b)) in B by lia. exact B. }
      destruct (equals r x) eqn:E; cbn [In]; rewrite ?G.
      + split.
        * intros [H|[y [A B]]]; [subst; exists x; rewrite Nat.sub_diag; cbn; auto|exists y; split; [lia|exact B]].
        * intros [y [A B]]. destruct (Nat.eq_dec b i) as [->|N]; [left; reflexivity|right; exists y; split; [lia|exact B]].
      + split; intros [y [A [B C]]]; exists y; split; auto; [lia|].
        destruct (Nat.eq_dec b i) as [->|N]; [|lia]. rewrite Nat.sub_diag in B. cbn in B. congruence.
  Qed.
  Lemma pos_sorted b r es : StronglySorted lt (pos b r es).
  Proof.
    revert b. induction es as [|x es IH]; intros b; cbn; [constructor|].
    destruct (equals r x); [|apply IH]. constructor; [apply IH|].
    apply Forall_forall. intros i H. apply pos_range in H. lia.
  Qed.
  Lemma pos_ext b r r' es : equals r r' = true -> pos b r es = pos b r' es.
  Proof. intros H. revert b. induction es as [|x es IH]; intros b; cbn; [reflexivity|]. rewrite (eq_left r r' x H), IH. reflexivity. Qed.
  Lemma pos_positions r es : positions_of equals r es (pos 0 r es).
  Proof.
    split; [apply pos_sorted|]. intros i. rewrite pos_In. rewrite Nat.sub_0_r. split; intros [x H]; exists x; intuition lia.
  Qed.

  (** ** Sets *)
  Lemma set_insert_mid k a b : Forall (fun x => x < k) a -> Forall (fun x => k < x) b -> set_insert k (a ++ b) = (a ++ k :: b, true).
  Proof.
    induction 1 as [|x a Hx Ha IH]; intros Hb; cbn [app set_insert].
    - destruct Hb as [|y b Hy Hb]; [reflexivity|]. cbn [set_insert]. destruct (Nat.ltb_spec y k); [lia|]. destruct (Nat.eqb_spec y k); [lia|reflexivity].
    - destruct (Nat.ltb_spec x k); [|lia]. rewrite IH by exact Hb. reflexivity.
  Qed.
  Lemma set_erase_mid k a b : Forall (fun x => x < k) a -> Forall (fun x => k < x) b -> set_erase k (a ++ k :: b) = a ++ b.
  Proof.
    intros Ha Hb. unfold set_erase. rewrite filter_app. cbn [filter]. rewrite Nat.eqb_refl. cbn [negb]. f_equal.
    - induction Ha as [|x a Hx Ha IH]; cbn; [reflexivity|]. destruct (Nat.eqb_spec x k); [lia|]. cbn. rewrite IH. reflexivity.
    - induction Hb as [|x b Hx Hb IH]; cbn; [reflexivity|]. destruct (Nat.eqb_spec x k); [lia|]. cbn. rewrite IH. reflexivity.
  Qed.
  Lemma map_inc_low k a : Forall (fun x => x < k) a -> map (inc_from k) a = a.
  Proof. induction 1 as [|x a Hx Ha IH]; cbn; [reflexivity|]. unfold inc_from at 1. destruct (Nat.leb_spec k x); [lia|]. rewrite IH. reflexivity. Qed.
  Lemma map_inc_high k a : Forall (fun x => k <= x) a -> map (inc_from k) a = map S a.
  Proof. induction 1 as [|x a Hx Ha IH]; cbn; [reflexivity|]. unfold inc_from at 1. destruct (Nat.leb_spec k x); [|lia]. rewrite IH. reflexivity. Qed.
  Lemma map_dec_low k a : Forall (fun x => x < k) a -> map (dec_from k) a = a.
  Proof. induction 1 as [|x a Hx Ha IH]; cbn; [reflexivity|]. unfold dec_from at 1. destruct (Nat.leb_spec k x); [lia|]. rewrite IH. reflexivity. Qed.
  Lemma map_dec_high k a : Forall (fun x => k <= x) a -> map (dec_from k) (map S a) = a.
  Proof. induction 1 as [|x a Hx Ha IH]; cbn [map]; [reflexivity|]. unfold dec_from at 1. destruct (Nat.leb_spec k (S x)); [|lia]. rewrite IH. f_equal. lia. Qed.

  Lemma pos_low r u : Forall (fun x => x < length u) (pos 0 r u).
  Proof. apply Forall_forall. intros i H. apply pos_range in H. lia. Qed.
  Lemma pos_high k r v : Forall (fun x => k <= x) (pos k r v).
  Proof. apply Forall_forall. intros i H. apply pos_range in H. lia. Qed.

  Lemma inc_pos r u v : map (inc_from (length u)) (pos 0 r (u ++ v)) = pos 0 r u ++ pos (S (length u)) r v.
  Proof.
    rewrite pos_app, map_app. cbn [Nat.add]. rewrite (map_inc_low _ _ (pos_low r u)), (map_inc_high _ _ (pos_high _ r v)), pos_S. reflexivity.
  Qed.
  Lemma pos_ins r u x v : pos 0 r (u ++ x :: v) =
    if equals r x then pos 0 r u ++ length u :: pos (S (length u)) r v else pos 0 r u ++ pos (S (length u)) r v.
  Proof. rewrite pos_app. cbn [Nat.add pos]. destruct (equals r x); reflexivity. Qed.
  Lemma dec_pos r u v : map (dec_from (length u)) (pos 0 r u ++ pos (S (length u)) r v) = pos 0 r (u ++ v).
  Proof.
    rewrite map_app, (map_dec_low _ _ (pos_low r u)), pos_S, (map_dec_high _ _ (pos_high _ r v)), pos_app. reflexivity.
  Qed.

  (** ** Groups *)
  Fixpoint gidx (rs : list Edge) (e : Edge) : nat :=
    match rs with [] => 0 | r :: rs' => if equals r e then 0 else S (gidx rs' e) end.
  Lemma find_gidx e gs : find_group equals e gs = gidx (map fst gs) e.
  Proof. induction gs as [|[r s] gs IH]; cbn; [reflexivity|]. rewrite IH. reflexivity. Qed.
  Lemma gidx_le rs e : gidx rs e <= length rs.
  Proof. induction rs as [|r rs IH]; cbn; [lia|]. destruct (equals r e); lia. Qed.
  Lemma gidx_nth rs e : gidx rs e < length rs -> exists r, nth_error rs (gidx rs e) = Some r /\ equals r e = true.
  Proof.
    induction rs as [|r rs IH]; cbn; [lia|]. destruct (equals r e) eqn:E; cbn.
    - intros _. exists r. auto.
    - intros H. apply IH. lia.
  Qed.
  Lemma gidx_app rs e s : gidx rs e < length rs -> gidx (rs ++ s) e = gidx rs e.
  Proof. induction rs as [|r rs IH]; cbn; [lia|]. destruct (equals r e); [reflexivity|]. intros H. rewrite IH by lia. reflexivity. Qed.
  Lemma gidx_new rs e : gidx rs e = length rs -> gidx (rs ++ [e]) e = length rs.
  Proof. induction rs as [|r rs IH]; cbn; [rewrite eq_refl_; reflexivity|]. destruct (equals r e); [lia|]. intros H. rewrite IH by lia. reflexivity. Qed.
  Lemma gidx_none rs e : gidx rs e = length rs -> forall r, In r rs -> equals r e = false.
  Proof.
    induction rs as [|a rs IH]; cbn; [tauto|]. destruct (equals a e) eqn:E; [lia|]. intros H r [->|Hr]; [exact E|]. apply IH; [lia|exact Hr].
  Qed.

  Definition inv (es : list Edge) (v : vertex) : Prop :=
    edge_to_group v = map (gidx (map fst (groups v))) es /\
    Forall (fun e => gidx (map fst (groups v)) e < length (groups v)) es /\
    ForallOrdPairs (fun a b => equals a b = false) (map fst (groups v)) /\
    Forall (fun g => snd g = pos 0 (fst g) es) (groups v).

  (** Only the group of an edge has a representative equivalent to it. *)
  Lemma update_group (gs : list (Edge * list nat)) e f (h : Edge * list nat -> list nat) :
    ForallOrdPairs (fun a b => equals a b = false) (map fst gs) ->
    Forall (fun g => equals (fst g) e = true -> f g = (fst g, h g)) gs ->
    Forall (fun g => equals (fst g) e = false -> snd g = h g) gs ->
    update_at (gidx (map fst gs) e) f gs = map (fun g => (fst g, h g)) gs.
  Proof.
    intros FP. induction gs as [|[r s] gs IH]; cbn [map update_at gidx fst]; [reflexivity|].
    intros F1 F2. inversion F1 as [|? ? A1 A2]; inversion F2 as [|? ? B1 B2]; subst. cbn [map fst] in FP. inversion FP as [|? ? P1 P2]; subst. cbn [fst snd] in *.
    destruct (equals r e) eqn:E.
    - cbn [update_at]. rewrite (A1 eq_refl). cbn [fst]. f_equal.
      clear - P1 B2 E EQ. induction gs as [|[a b] gs IH2]; [reflexivity|]. cbn [map fst].
      inversion P1 as [|? ? Q1 Q2]; subst. inversion B2 as [|? ? C1 C2]; subst. cbn [fst snd] in *.
      assert (N : equals a e = false).
      { destruct (equals a e) eqn:X; [|reflexivity]. rewrite <- Q1. destruct EQ as (_ & S & T). symmetry. apply (T r e a); auto. }
      rewrite <- (C1 N). f_equal. apply IH2; assumption.
    - cbn [update_at]. rewrite <- (B1 eq_refl). f_equal. apply IH; assumption.
  Qed.

  Lemma fop_app (rs : list Edge) e : ForallOrdPairs (fun a b => equals a b = false) rs ->
    (forall r, In r rs -> equals r e = false) -> ForallOrdPairs (fun a b => equals a b = false) (rs ++ [e]).
  Proof.
    induction 1 as [|a rs Ha F IH]; intros H; cbn; [repeat constructor|].
    constructor; [|apply IH; intros; apply H; right; assumption].
    apply Forall_app. split; [exact Ha|]. constructor; [apply H; left; reflexivity|constructor].
  Qed.

  Lemma pos_nil r es b : (forall e, In e es -> equals r e = false) -> pos b r es = [].
  Proof.
    revert b. induction es as [|x es IH]; intros b H; cbn; [reflexivity|]. rewrite (H x) by (left; reflexivity).
    apply IH. intros e He. apply H. right. exact He.
  Qed.

  (** ** Insertion, also used by the constructor *)
  Definition grow (chk : bool) (i : nat) (e : Edge) (v : vertex) (gs : list (Edge * list nat)) : hout vertex :=
    match nth_error gs (gidx (map fst (groups v)) e) with
    | None => HOk (mkV (vec_insert i (length (gs ++ [(e, [i])]) - 1) (edge_to_group v)) (gs ++ [(e, [i])]))
    | Some g =>
        if chk && negb (snd (set_insert i (snd g))) then HAssert
        else HOk (mkV (vec_insert i (gidx (map fst (groups v)) e) (edge_to_group v))
                      (update_at (gidx (map fst (groups v)) e) (fun g => (fst g, fst (set_insert i (snd g)))) gs))
    end.

  Lemma vec_insert_mid {A B} (f : A -> B) u v x : vec_insert (length u) x (map f (u ++ v)) = map f u ++ x :: map f v.
  Proof.
    unfold vec_insert. rewrite map_app. replace (length u) with (length (map f u)) by apply map_length.
    rewrite firstn_app, skipn_app, Nat.sub_diag, firstn_all, skipn_all. cbn. rewrite app_nil_r. reflexivity.
  Qed.
  Lemma vec_erase_mid {A B} (f : A -> B) u v x : vec_erase (length u) (map f (u ++ x :: v)) = map f (u ++ v).
  Proof.
    unfold vec_erase. rewrite !map_app. cbn [map]. replace (length u) with (length (map f u)) by apply map_length.
    rewrite firstn_app, Nat.sub_diag, firstn_all. cbn [firstn]. rewrite app_nil_r. f_equal.
    rewrite skipn_app. rewrite skipn_all2 by lia. replace (S (length (map f u)) - length (map f u)) with 1 by lia. reflexivity.
  Qed.

  Lemma grow_ok chk u w e v gs : inv (u ++ w) v -> map fst gs = map fst (groups v) ->
    Forall (fun g => snd g = pos 0 (fst g) u ++ pos (S (length u)) (fst g) w) gs ->
    exists v', grow chk (length u) e v gs = HOk v' /\ inv (u ++ e :: w) v'.
  Proof.
    intros (A & B & C & D) G F. unfold grow. rewrite <- G in *.
    assert (L : length (groups v) = length gs) by (rewrite <- (map_length fst gs), G, map_length; reflexivity).
    rewrite L in B. pose proof (gidx_le (map fst gs) e) as K. rewrite map_length in K.
    destruct (nth_error gs (gidx (map fst gs) e)) as [g|] eqn:N.
    - assert (KL : gidx (map fst gs) e < length gs) by (apply nth_error_Some; congruence).
      assert (Hset : forall g', In g' gs -> set_insert (length u) (snd g') = (pos 0 (fst g') u ++ length u :: pos (S (length u)) (fst g') w, true)).
      { intros g' Hg. rewrite Forall_forall in F. rewrite (F g' Hg). apply set_insert_mid.
        - apply pos_low.
        - apply Forall_forall. intros i Hi. apply pos_range in Hi. lia. }
      rewrite (Hset g) by (eapply nth_error_In; eauto). cbn [snd negb]. rewrite andb_false_r. eexists. split; [reflexivity|].
      assert (U : update_at (gidx (map fst gs) e) (fun g0 => (fst g0, fst (set_insert (length u) (snd g0)))) gs
                  = map (fun g0 => (fst g0, pos 0 (fst g0) (u ++ e :: w))) gs).
      { apply (update_group gs e _ (fun g0 => pos 0 (fst g0) (u ++ e :: w))).
        - exact C.
        - apply Forall_forall. intros g' Hg E. rewrite (Hset g' Hg). cbn [fst]. rewrite pos_ins, E. reflexivity.
        - apply Forall_forall. intros g' Hg E. rewrite Forall_forall in F. rewrite (F g' Hg), pos_ins, E. reflexivity. }
      unfold inv. cbn [edge_to_group groups]. rewrite U, map_map. cbn [fst].
      split; [|split; [|split]].
      + rewrite A, vec_insert_mid, map_app. reflexivity.
      + rewrite map_length. apply Forall_app in B. apply Forall_app. split; [apply B|constructor; [exact KL|apply B]].
      + exact C.
      + apply Forall_forall. intros g' Hg. apply in_map_iff in Hg. destruct Hg as [g0 [<- _]]. reflexivity.
    - apply nth_error_None in N. assert (KL : gidx (map fst gs) e = length (map fst gs)) by (rewrite map_length; lia).
      eexists. split; [reflexivity|]. unfold inv. cbn [edge_to_group groups]. rewrite (map_app fst gs). cbn [map fst].
      assert (X : forall x, In x (u ++ w) -> gidx (map fst gs ++ [e]) x = gidx (map fst gs) x).
      { intros x Hx. apply gidx_app. rewrite map_length. rewrite Forall_forall in B. apply B. exact Hx. }
      assert (XN : gidx (map fst gs ++ [e]) e = length gs) by (rewrite gidx_new by exact KL; apply map_length).
      assert (EF : forall x, In x (u ++ w) -> equals e x = false).
      { intros x Hx. rewrite Forall_forall in B. specialize (B x Hx). rewrite <- (map_length fst) in B.
        destruct (gidx_nth _ _ B) as [r [R1 R2]]. destruct (equals e x) eqn:E; [|reflexivity].
        pose proof (gidx_none _ _ KL r (nth_error_In _ _ R1)) as Q. rewrite <- Q. destruct EQ as (_ & S & T).
        symmetry. apply (T r x e); auto. }
      split; [|split; [|split]].
      + rewrite app_length. cbn [length]. replace (length gs + 1 - 1) with (length gs) by lia.
        rewrite A, vec_insert_mid, map_app. cbn [map]. rewrite XN. f_equal; [|f_equal]; apply map_ext_in; intros x Hx; symmetry; apply X; apply in_or_app; auto.
      + rewrite app_length. cbn [length]. apply Forall_forall. intros x Hx. apply in_app_or in Hx. cbn in Hx.
        assert (Hx' : x = e \/ In x (u ++ w)) by (destruct Hx as [Hx|[Hx|Hx]]; [right; apply in_or_app; auto|left; auto|right; apply in_or_app; auto]).
        destruct Hx' as [->|Hx']; [rewrite XN; lia|]. rewrite (X x Hx'). rewrite Forall_forall in B. specialize (B x Hx'). lia.
      + apply fop_app; [exact C|]. apply gidx_none. exact KL.
      + apply Forall_app. split.
        * apply Forall_forall. intros g Hg. rewrite Forall_forall in F. rewrite (F g Hg), pos_ins.
          rewrite (gidx_none _ _ KL (fst g)) by (apply in_map; exact Hg). reflexivity.
        * constructor; [|constructor]. cbn [fst snd]. rewrite pos_ins, eq_refl_. rewrite !pos_nil; [reflexivity| |];
            intros x Hx; apply EF; apply in_or_app; auto.
  Qed.

  Lemma insert_ok chk u w e v : inv (u ++ w) v -> exists v', insert equals chk (length u) e v = HOk v' /\ inv (u ++ e :: w) v'.
  Proof.
    intros H. unfold insert.
    assert (L : length (edge_to_group v) = length (u ++ w)) by (destruct H as (A & _); rewrite A; apply map_length).
    rewrite L, app_length. destruct (Nat.ltb_spec (length u + length w) (length u)); [lia|].
    rewrite find_gidx. set (gs := if length u <? length u + length w then _ else _).
    apply (grow_ok chk u w e v gs H).
    - unfold gs. destruct (length u <? length u + length w); [|reflexivity]. rewrite map_map. reflexivity.
    - destruct H as (_ & _ & _ & D). unfold gs. destruct (Nat.ltb_spec (length u) (length u + length w)) as [LT|GE].
      + apply Forall_forall. intros g Hg. apply in_map_iff in Hg. destruct Hg as [g0 [<- Hg]]. cbn [fst snd].
        rewrite Forall_forall in D. rewrite (D g0 Hg). apply inc_pos.
      + assert (w = []) by (destruct w; [reflexivity|cbn in GE; lia]). subst w. cbn [pos].
        revert D. apply Forall_impl. intros g Hg. rewrite Hg, !app_nil_r. reflexivity.
  Qed.

  Lemma add_edge_ok chk es e v : inv es v -> exists v', add_edge equals chk (length es) e v = HOk v' /\ inv (es ++ [e]) v'.
  Proof.
    intros H. assert (H' : inv (es ++ []) v) by (rewrite app_nil_r; exact H).
    destruct (grow_ok chk es [] e v (groups v) H' eq_refl) as [v' [E I']].
    { destruct H as (_ & _ & _ & D). revert D. apply Forall_impl. intros g Hg. rewrite Hg. cbn [pos]. rewrite app_nil_r. reflexivity. }
    exists v'. split; [|exact I']. rewrite <- E. unfold add_edge, grow. rewrite find_gidx.
    assert (L : edge_to_group v = map (gidx (map fst (groups v))) (es ++ [])) by apply H'.
    assert (V : forall x, vec_insert (length es) x (edge_to_group v) = edge_to_group v ++ [x]).
    { intros x. rewrite L, vec_insert_mid, app_nil_r. reflexivity. }
    rewrite !V. reflexivity.
  Qed.

  Lemma add_edges_ok chk l : forall es v, inv es v -> exists v', add_edges equals chk (length es) l v = HOk v' /\ inv (es ++ l) v'.
  Proof.
    induction l as [|e l IH]; intros es v H; cbn [add_edges].
    - exists v. rewrite app_nil_r. auto.
    - destruct (add_edge_ok chk es e v H) as [v' [E H']]. rewrite E.
      destruct (IH (es ++ [e]) v' H') as [v'' [E2 H2]]. rewrite app_length in E2. cbn in E2. rewrite Nat.add_1_r in E2.
      exists v''. split; [exact E2|]. rewrite <- app_assoc in H2. exact H2.
  Qed.

  Lemma empty_inv : inv [] (empty_vertex).
  Proof. unfold inv. cbn. split; [reflexivity|]. repeat constructor. Qed.

  (** ** Erasure *)
  Lemma erase_ok chk u x w e v : inv (u ++ x :: w) v -> (chk = true -> equals x e = true) ->
    exists v', erase equals chk (length u) e v = HOk v' /\ inv (u ++ w) v'.
  Proof.
    intros H Hxe. destruct H as (A & B & C & D). unfold erase.
    set (gs := groups v) in *. set (rs := map fst gs) in *.
    assert (N : nth_error (edge_to_group v) (length u) = Some (gidx rs x)).
    { rewrite A, map_app, nth_error_app2; rewrite map_length; [|lia]. rewrite Nat.sub_diag. reflexivity. }
    rewrite N.
    assert (KX : gidx rs x < length gs) by (rewrite Forall_forall in B; apply B; apply in_or_app; right; left; reflexivity).
    assert (KX' : gidx rs x < length rs) by (unfold rs; rewrite map_length; exact KX).
    destruct (gidx_nth rs x KX') as [r [R1 R2]].
    destruct (nth_error gs (gidx rs x)) as [g|] eqn:G; [|apply nth_error_None in G; lia].
    assert (GR : fst g = r).
    { pose proof (map_nth_error fst _ _ G) as Q. fold rs in Q. congruence. }
    assert (GI : In g gs) by (eapply nth_error_In; eauto).
    pose proof D as D'. rewrite Forall_forall in D.
    assert (T1 : chk && negb (find_group equals e gs <? length gs) = false).
    { destruct chk; [|reflexivity]. cbn [andb]. specialize (Hxe eq_refl). rewrite find_gidx. fold rs.
      assert (Q : gidx rs e < length gs).
      { pose proof (gidx_le rs e) as Q. unfold rs at 2 in Q. rewrite map_length in Q.
        destruct (Nat.eq_dec (gidx rs e) (length gs)) as [E|E]; [|lia].
        assert (E' : gidx rs e = length rs) by (unfold rs at 2; rewrite map_length; exact E).
        pose proof (gidx_none rs e E' r (nth_error_In _ _ R1)) as Z. destruct EQ as (_ & S & T). rewrite (T r x e R2 Hxe) in Z. discriminate. }
      apply Nat.ltb_lt in Q. rewrite Q. reflexivity. }
    assert (T2 : chk && negb (existsb (Nat.eqb (length u)) (snd g)) = false).
    { destruct chk; [|reflexivity]. cbn [andb]. apply negb_false_iff. apply existsb_exists. exists (length u). split; [|apply Nat.eqb_refl].
      rewrite (D g GI), GR. rewrite pos_ins, R2. apply in_or_app. right. left. reflexivity. }
    assert (T3 : chk && negb (equals (fst g) e) = false).
    { destruct chk; [|reflexivity]. cbn [andb]. rewrite GR. destruct EQ as (_ & S & T). rewrite (T r x e R2 (Hxe eq_refl)). reflexivity. }
    rewrite T1, T2, T3.
    assert (U : update_at (gidx rs x) (fun g0 => (fst g0, set_erase (length u) (snd g0))) gs
                = map (fun g0 => (fst g0, pos 0 (fst g0) u ++ pos (S (length u)) (fst g0) w)) gs).
    { apply (update_group gs x _ (fun g0 => pos 0 (fst g0) u ++ pos (S (length u)) (fst g0) w)).
      - exact C.
      - apply Forall_forall. intros g' Hg E. rewrite (D g' Hg), pos_ins, E. rewrite set_erase_mid; [reflexivity| |].
        + apply pos_low.
        + apply Forall_forall. intros i Hi. apply pos_range in Hi. lia.
      - apply Forall_forall. intros g' Hg E. rewrite (D g' Hg), pos_ins, E. reflexivity. }
    cbv zeta. rewrite U.
    assert (T4 : chk && existsb (fun g0 : Edge * list nat => existsb (fun y => (length u <=? y) && (y =? 0)) (snd g0))
                 (map (fun g0 => (fst g0, pos 0 (fst g0) u ++ pos (S (length u)) (fst g0) w)) gs) = false).
    { destruct chk; [|reflexivity]. cbn [andb].
      match goal with |- ?b = false => destruct b eqn:X; [exfalso|reflexivity] end.
      apply existsb_exists in X. destruct X as [g0 [Hg X]]. apply in_map_iff in Hg. destruct Hg as [g1 [<- _]]. cbn [snd] in X.
      apply existsb_exists in X. destruct X as [y [Hy X]]. apply andb_prop in X. destruct X as [X1 X2].
      apply Nat.leb_le in X1. apply Nat.eqb_eq in X2. subst y.
      apply in_app_or in Hy. destruct Hy as [Hy|Hy]; apply pos_range in Hy; lia. }
    rewrite T4. eexists. split; [reflexivity|]. unfold inv. cbn [edge_to_group groups]. rewrite !map_map. cbn [fst snd].
    change (map (fun x0 : Edge * list nat => fst x0) gs) with rs. rewrite map_length.
    split; [|split; [|split]].
    - rewrite A. apply vec_erase_mid.
    - apply Forall_app in B. apply Forall_app. destruct B as [B1 B2]. inversion B2; subst. auto.
    - exact C.
    - apply Forall_forall. intros g' Hg. apply in_map_iff in Hg. destruct Hg as [g0 [<- _]]. cbn [fst snd]. apply dec_pos.
  Qed.

  (** ** What the vertex shows *)
  Lemma nonempty_fold gs a : fold_left (fun left (g : Edge * list nat) => left + match snd g with [] => 0 | _ => 1 end) gs a
    = a + length (filter (fun g => match snd g with [] => false | _ => true end) gs).
  Proof.
    revert a. induction gs as [|[r s] gs IH]; intros a; cbn [fold_left filter snd]; [cbn; lia|].
    rewrite IH. destruct s; cbn [length]; lia.
  Qed.

  Lemma fop_filter (gs : list (Edge * list nat)) p : ForallOrdPairs (fun a b => equals a b = false) (map fst gs) ->
    ForallOrdPairs (fun a b => equals a b = false) (map fst (filter p gs)).
  Proof.
    induction gs as [|g gs IH]; cbn; [auto|]. intros H. inversion H as [|? ? H1 H2]; subst.
    destruct (p g); cbn; [|apply IH; exact H2]. constructor; [|apply IH; exact H2].
    apply Forall_forall. intros y Hy. apply in_map_iff in Hy. destruct Hy as [z [<- Hz]]. apply filter_In in Hz.
    rewrite Forall_forall in H1. apply H1. apply in_map. apply Hz.
  Qed.

  Lemma inv_shows chk es v : inv es v -> shows equals chk v es.
  Proof.
    intros (A & B & C & D).
    assert (G : forall i e, nth_error es i = Some e -> exists rep, group v i = HOk (rep, pos 0 rep es) /\ equals rep e = true).
    { intros i e H. unfold group. rewrite A. rewrite (map_nth_error _ _ _ H).
      rewrite Forall_forall in B. specialize (B e (nth_error_In _ _ H)).
      rewrite <- (map_length fst) in B. destruct (gidx_nth _ _ B) as [r [R1 R2]].
      destruct (nth_error (groups v) (gidx (map fst (groups v)) e)) as [g|] eqn:N.
      - pose proof (map_nth_error fst _ _ N) as Q. rewrite R1 in Q. inversion Q; subst r. exists (fst g). split; [|exact R2].
        rewrite Forall_forall in D. rewrite <- (D g) by (eapply nth_error_In; eauto). destruct g; reflexivity.
      - apply nth_error_None in N. rewrite map_length in B. lia. }
    split; [|split; [|split]].
    - unfold num_edges. rewrite A. apply map_length.
    - exists (map fst (filter (fun g => match snd g with [] => false | _ => true end) (groups v))).
      split; [unfold num_nonempty_groups; rewrite nonempty_fold, map_length; reflexivity|].
      split; [apply fop_filter; exact C|]. rewrite Forall_forall in D. split.
      + intros c Hc. apply in_map_iff in Hc. destruct Hc as [g [<- Hg]]. apply filter_In in Hg. destruct Hg as [Hg Hn].
        rewrite (D g Hg) in Hn. destruct (pos 0 (fst g) es) as [|i l] eqn:P; [discriminate|].
        assert (Hi : In i (pos 0 (fst g) es)) by (rewrite P; left; reflexivity).
        apply pos_In in Hi. destruct Hi as [y [_ [Y1 Y2]]]. exists y. split; [eapply nth_error_In; eauto|exact Y2].
      + intros e He. destruct (In_nth_error _ _ He) as [i Hi]. rewrite Forall_forall in B. specialize (B e He).
        rewrite <- (map_length fst) in B. destruct (gidx_nth _ _ B) as [r [R1 R2]].
        apply nth_error_In in R1. apply in_map_iff in R1. destruct R1 as [g [<- Hg]].
        exists (fst g). split; [|exact R2]. apply in_map. apply filter_In. split; [exact Hg|].
        rewrite (D g Hg). assert (P : In i (pos 0 (fst g) es)) by (apply pos_In; exists e; rewrite Nat.sub_0_r; split; [lia|auto]).
        destruct (pos 0 (fst g) es); [destruct P|reflexivity].
    - intros i e H. destruct (G i e H) as [rep [G1 G2]]. exists rep, (pos 0 rep es).
      split; [exact G1|]. split; [exact G2|]. split; [rewrite (pos_ext 0 rep e es G2); apply pos_positions|].
      unfold group_size. rewrite G1. cbn [snd].
      assert (P : In i (pos 0 rep es)) by (apply pos_In; exists e; rewrite Nat.sub_0_r; split; [lia|auto]).
      destruct (pos 0 rep es); [destruct P|]. cbn. rewrite andb_false_r. reflexivity.
    - intros i H. assert (E : group v i = HThrow).
      { unfold group. rewrite A. assert (N : nth_error (map (gidx (map fst (groups v))) es) i = None) by (apply nth_error_None; rewrite map_length; exact H).
        rewrite N. reflexivity. }
      unfold group_size. rewrite E. auto.
  Qed.
End Proofs.
