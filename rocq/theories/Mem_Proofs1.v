(** Proofs about memoize: invariants of all interleavings. *)
From Coq Require Import List Bool Arith Lia Sorted Permutation.
From Verif Require Import Mem_Model.
Import ListNotations.

Section Update.
  Context {X : Type}.
  Lemma nth_update i (x : X) l j : i < length l -> nth_error (firstn i l ++ x :: skipn (S i) l) j = if j =? i then Some x else nth_error l j.
  Proof.
    revert l j. induction i as [|i IH]; intros [|y l] [|j] H; cbn in *; try lia; auto. now apply IH; lia.
  Qed.
  Lemma length_update i (x : X) l : i < length l -> length (firstn i l ++ x :: skipn (S i) l) = length l.
  Proof. intros H. rewrite app_length, firstn_length. cbn [length]. rewrite skipn_length. lia. Qed.
  Lemma nth_bound (l : list X) i x : nth_error l i = Some x -> i < length l.
  Proof. intros H. apply nth_error_Some. congruence. Qed.
End Update.

Section Memoize.
  Context {V : Type}.
  Variable f : nat -> V.
  Variable grow : nat -> nat.
  Notation state := (@state V).
  Notation step := (step f grow).
  Notation run := (run f grow).
  Notation activity := (@activity V).

  Definition keys (c : @cache V) : list nat := map fst c.
  Definition key_of (a : activity) : nat :=
    match a with Calling k | Waiting k _ | Awake k _ | Computing k | Storing k _ | Holding k _ | Saw k _ | Failed k | Broken k => k end.

  (** ** Sorted vectors *)
  Lemma lower_bound_le k c : lower_bound (V := V) k c <= length c.
  Proof. induction c as [|[k' o] c IH]; cbn [lower_bound length]; [lia|]. destruct (k' <? k); lia. Qed.
  Lemma found_in k c : found (V := V) k c = true -> In k (keys c).
  Proof.
    unfold found. destruct (nth_error c (lower_bound k c)) as [[k' o]|] eqn:E; [|discriminate]. intros H. apply Nat.eqb_eq in H. subst k'.
    apply nth_error_In in E. apply (in_map fst) in E. exact E.
  Qed.
  Lemma in_found k c : StronglySorted lt (keys c) -> In k (keys c) -> found (V := V) k c = true.
  Proof.
    induction c as [|[k' o] c IH]; intros HS H; [destruct H|]. cbn in HS. inversion HS as [|? ? HS' HF]; subst. unfold found. cbn [lower_bound].
    destruct (k' <? k) eqn:E.
    - apply Nat.ltb_lt in E. destruct H as [H|H]; [cbn in H; lia|]. exact (IH HS' H).
    - apply Nat.ltb_ge in E. cbn. destruct H as [H|H]; [cbn in H; subst; apply Nat.eqb_refl|]. rewrite Forall_forall in HF. specialize (HF k H). lia.
  Qed.
  Lemma found_nth k c : found (V := V) k c = true -> exists o, nth_error c (lower_bound k c) = Some (k, o).
  Proof.
    unfold found. destruct (nth_error c (lower_bound k c)) as [[k' o]|] eqn:E; [|discriminate]. intros H. apply Nat.eqb_eq in H. subst k'. eauto.
  Qed.
  Lemma lower_bound_keys k c c' : keys c = keys c' -> lower_bound (V := V) k c = lower_bound k c'.
  Proof.
    revert c'. induction c as [|[a o] c IH]; intros [|[b p] c'] H; try discriminate; auto. cbn in H. injection H as -> H. cbn [lower_bound]. destruct (b <? k); auto.
  Qed.
  Lemma found_keys k c c' : keys c = keys c' -> found (V := V) k c = found k c'.
  Proof.
    intros H. unfold found. rewrite (lower_bound_keys k c c' H). set (p := lower_bound k c'). clearbody p. revert c c' H.
    induction p as [|p IH]; intros [|[a o] c] [|[b q] c'] H; try discriminate; auto; cbn in H; injection H as -> H; cbn; auto.
  Qed.
  Lemma keys_replace k v c : found (V := V) k c = true -> keys (replace_at (lower_bound k c) (k, Some v) c) = keys c.
  Proof.
    induction c as [|[k' o] c IH]; unfold found; cbn [lower_bound]; [discriminate|]. destruct (k' <? k) eqn:E.
    - intros H. unfold replace_at, keys. cbn [firstn skipn app map fst]. f_equal. apply IH. exact H.
    - cbn. intros H. apply Nat.eqb_eq in H. now subst.
  Qed.
  Lemma replace_other k v c j : found (V := V) k c = true -> nth_error (replace_at (lower_bound k c) (k, Some v) c) j = if j =? lower_bound k c then Some (k, Some v) else nth_error c j.
  Proof. intros H. apply nth_update. destruct (found_nth k c H) as [o Ho]. now apply nth_bound in Ho. Qed.
  Lemma insert_in k o c x : In x (insert_at (V := V) (lower_bound k c) (k, o) c) <-> x = (k, o) \/ In x c.
  Proof.
    clear f grow. assert (G : In x c <-> In x (firstn (lower_bound k c) c) \/ In x (skipn (lower_bound k c) c)) by (rewrite <- in_app_iff, firstn_skipn; tauto).
    unfold insert_at. rewrite in_app_iff. cbn [In]. rewrite G. intuition.
  Qed.
  Lemma insert_keys k o c : keys (insert_at (V := V) (lower_bound k c) (k, o) c) = firstn (lower_bound k c) (keys c) ++ k :: skipn (lower_bound k c) (keys c).
  Proof. unfold insert_at, keys. rewrite map_app. cbn [map fst]. now rewrite firstn_map, skipn_map. Qed.
  Lemma insert_length k o c : length (insert_at (V := V) (lower_bound k c) (k, o) c) = S (length c).
  Proof.
    assert (G : length c = length (firstn (lower_bound k c) c) + length (skipn (lower_bound k c) c)) by (rewrite <- app_length, firstn_skipn; auto).
    unfold insert_at. rewrite app_length. cbn [length]. lia.
  Qed.
  Lemma insert_sorted k o c : StronglySorted lt (keys c) -> found (V := V) k c = false -> StronglySorted lt (keys (insert_at (lower_bound k c) (k, o) c)).
  Proof.
    induction c as [|[k' o'] c IH]; intros HS H; [cbn; repeat constructor|]. cbn in HS. inversion HS as [|? ? HS' HF]; subst.
    cbn [lower_bound]. unfold found in H. cbn [lower_bound] in H. destruct (k' <? k) eqn:E.
    - cbn in H. unfold insert_at. cbn [firstn skipn app keys map fst]. constructor; [now apply IH|].
      apply Nat.ltb_lt in E. apply Forall_forall. intros x Hx. apply in_map_iff in Hx as ([x1 x2] & <- & Hx). apply insert_in in Hx. destruct Hx as [Hx|Hx]; [injection Hx as -> _; exact E|].
      rewrite Forall_forall in HF. apply HF. apply (in_map fst) in Hx. exact Hx.
    - cbn in H. apply Nat.eqb_neq in H. apply Nat.ltb_ge in E. unfold insert_at. cbn [firstn skipn app keys map fst]. constructor; [constructor; auto|]. constructor; [lia|].
      eapply Forall_impl; [|exact HF]. intros y Hy. cbn in Hy. lia.
  Qed.

  (** ** The invariant *)
  Definition busy (k : nat) (a : activity) : Prop := match a with Computing k' | Storing k' _ | Failed k' => k' = k | _ => False end.
  Record inv (s : state) : Prop := {
    inv_sorted : StronglySorted lt (keys (elems s));
    inv_value : forall k v, In (k, Some v) (elems s) -> v = f k;
    inv_calls : NoDup (calls s) /\ forall k, In k (calls s) <-> In k (keys (elems s));
    inv_busy : forall i k, (exists a, nth_error (acts s) i = Some a /\ busy k a) -> found k (elems s) = true;
    inv_store : forall i k v, nth_error (acts s) i = Some (Storing k v) -> v = f k;
    inv_open : forall k, In (k, None) (elems s) -> exists i a, nth_error (acts s) i = Some a /\ busy k a;
  }.

  Lemma nth_acts_woken l i : nth_error (map (@woken V) l) i = option_map (@woken V) (nth_error l i).
  Proof. revert i. induction l as [|x l IH]; intros [|i]; cbn; auto. Qed.
  Lemma busy_woken k a : busy k (woken a) <-> busy k a.
  Proof. destruct a; reflexivity. Qed.

  (** Steps change the cache in two ways only. *)
  Inductive change (i : nat) (s s' : state) : Prop :=
    | same_cache : elems s' = elems s -> buffer s' = buffer s -> calls s' = calls s -> change i s s'
    | new_key k : nth_error (acts s) i = Some (Calling k) -> found k (elems s) = false -> elems s' = insert_at (lower_bound k (elems s)) (k, None) (elems s) -> calls s' = k :: calls s -> change i s s'
    | new_value k : found k (elems s) = true -> elems s' = replace_at (lower_bound k (elems s)) (k, Some (f k)) (elems s) -> buffer s' = buffer s -> calls s' = calls s -> change i s s'.
  Lemma step_change s i b s' : inv s -> step s i b = Some s' -> change i s s'.
  Proof.
    intros HI H. unfold Mem_Model.step in H. destruct (nth_error (acts s) i) as [a|] eqn:Ea; [|discriminate]. destruct a as [k|k it|k it|k|k v|k r|k v|k|k]; try discriminate.
    - destruct (found k (elems s)) eqn:Ef.
      + destruct (nth_error (elems s) (lower_bound k (elems s))) as [[k' [v|]]|]; injection H as <-; now constructor 1.
      + unfold insertion in H. injection H as <-. now constructor 2 with k.
    - destruct b; [|discriminate]. injection H as <-. now constructor 1.
    - injection H as <-. now constructor 1.
    - injection H as <-. now constructor 1.
    - assert (Ef : found k (elems s) = true) by (apply (inv_busy _ HI i); exists (Storing k v); cbn; auto).
      rewrite Ef in H. injection H as <-. constructor 3 with k; auto. cbn. now rewrite (inv_store _ HI i k v Ea).
    - injection H as <-. now constructor 1.
  Qed.
  Lemma change_length i s s' : change i s s' -> length (elems s') = length (elems s) \/ exists k, found k (elems s) = false /\ length (elems s') = S (length (elems s)) /\ elems s' = insert_at (lower_bound k (elems s)) (k, None) (elems s).
  Proof.
    intros [-> _ _|k _ H -> _|k H -> _ _]; auto; [right; exists k; split; auto; split; [apply insert_length|reflexivity]|left].
    apply length_update. destruct (found_nth k _ H) as [o Ho]. now apply nth_bound in Ho.
  Qed.
  Lemma change_keys i s s' : change i s s' -> length (elems s') = length (elems s) -> keys (elems s') = keys (elems s) /\ buffer s' = buffer s.
  Proof.
    intros [-> -> _|k _ H -> _|k H -> -> _] E; auto; [|split; auto; now apply keys_replace].
    exfalso. rewrite insert_length in E. lia.
  Qed.

  Lemma step_acts s i b s' : step s i b = Some s' -> exists a a', nth_error (acts s) i = Some a /\ key_of a' = key_of a /\
    forall j, nth_error (acts s') j = if j =? i then Some a' else option_map (match a with Storing _ _ => @woken V | _ => fun x => x end) (nth_error (acts s) j).
  Proof.
    intros H. unfold Mem_Model.step in H. destruct (nth_error (acts s) i) as [a|] eqn:Ea; [|discriminate].
    assert (Hi : i < length (acts s)) by now apply nth_bound in Ea. exists a.
    assert (G : forall a' j, nth_error (set_act i a' (acts s)) j = if j =? i then Some a' else option_map (fun x => x) (nth_error (acts s) j)).
    { intros a' j. unfold set_act. rewrite nth_update by auto. destruct (j =? i); auto. now destruct (nth_error (acts s) j). }
    destruct a as [k|k it|k it|k|k v|k r|k v|k|k]; try discriminate.
    - destruct (found k (elems s)).
      + destruct (nth_error (elems s) (lower_bound k (elems s))) as [[k' [v|]]|]; injection H as <-; eexists; (split; [reflexivity|]); split; try (apply G); reflexivity.
      + unfold insertion in H. injection H as <-. eexists; (split; [reflexivity|]); split; try (apply G); reflexivity.
    - destruct b; [|discriminate]. injection H as <-. eexists; (split; [reflexivity|]); split; try (apply G); reflexivity.
    - injection H as <-. eexists; (split; [reflexivity|]); split; try (apply G). destruct (deref s it) as [[? [?|]]|]; reflexivity.
    - injection H as <-. eexists; (split; [reflexivity|]); split; try (apply G). destruct b; reflexivity.
    - destruct (if found k (elems s) then _ else _) as [[buf cap] c]. injection H as <-. eexists; (split; [reflexivity|]); split.
      2: { intros j. cbn [acts]. unfold set_act. rewrite nth_update by (now rewrite map_length). destruct (j =? i); auto. apply nth_acts_woken. }
      reflexivity.
    - injection H as <-. eexists; (split; [reflexivity|]); split; try (apply G). destruct (deref s r) as [[? [?|]]|]; reflexivity.
  Qed.

  Lemma start_inv ks : inv (start ks).
  Proof.
    clear grow. constructor; cbn.
    - constructor.
    - intros k v [].
    - split; [constructor|tauto].
    - intros i k (a & H & Hb). rewrite nth_error_map in H. destruct (nth_error ks i); [|discriminate]. injection H as <-. destruct Hb.
    - intros i k v H. rewrite nth_error_map in H. destruct (nth_error ks i); discriminate.
    - intros k [].
  Qed.
End Memoize.
