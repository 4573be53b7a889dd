(** Plain indices, the edges of a network, and the replacements of indices. *)
From Coq Require Import ZArith List Arith Bool Permutation Sorted Lia.
From Verif Require Import Alg_Model Alg_Spec Tsr_Model Tsr_Spec Tsr_Proofs1 Tsr_Proofs5 Tsr_Proofs6 Net_Model Net_Spec.
Import ListNotations.

Section Plain.
  Variable S : space -> Prop.
  Hypothesis R : one_registry S.
  Notation plain := (plain S).

  Lemma plain_shape i : plain i -> exists s o, i = Idx s o None [] /\ S s.
  Proof. destruct i as [s o t ps]. unfold Net_Spec.plain; cbn. intros (A & -> & -> & _). eauto. Qed.
  Lemma plain_over i : plain i -> over S i.
  Proof. intros (s & o & -> & H)%plain_shape. apply over_intro; auto. Qed.
  Lemma plain_untagged i : plain i -> untagged i.
  Proof. intros (s & o & -> & H)%plain_shape. apply untagged_intro; auto. Qed.
  Lemma plain_clean l : Forall plain l -> clean S l.
  Proof. intros F i I. rewrite Forall_forall in F. split; [apply plain_over|apply plain_untagged]; auto. Qed.
  Lemma plain_fl i j : plain i -> plain j -> full_label_less i j = match tcmp i j with Lt => true | _ => false end.
  Proof.
    intros P Q. rewrite (full_label_key S); auto using plain_over. unfold key_less.
    rewrite !identity_untagged; auto using plain_untagged.
  Qed.
  Lemma plain_lt i j : plain i -> plain j -> ix_ltb i j = match tcmp i j with Lt => true | _ => false end.
  Proof. intros P Q. unfold ix_ltb. rewrite (ix_cmp_untagged S); auto using plain_over, plain_untagged. Qed.
  Lemma plain_eqb i j : plain i -> plain j -> ix_eqb i j = true <-> i = j.
  Proof. intros P Q. rewrite ix_eqb_spec, !identity_untagged; auto using plain_untagged. tauto. Qed.
  Lemma tcmp_both i j : match tcmp i j with Lt => true | _ => false end = false -> match tcmp j i with Lt => true | _ => false end = false -> i = j.
  Proof.
    intros A B. apply TO_tcmp. rewrite (proj1 (proj2 TO_tcmp) i j) in B. destruct (tcmp i j); cbn in *; auto; discriminate.
  Qed.
  Lemma fl_irrefl i : plain i -> full_label_less i i = false.
  Proof. intros P. rewrite plain_fl; auto. rewrite (TO_refl _ _ TO_tcmp). auto. Qed.
  Lemma fl_trans i j k : plain i -> plain j -> plain k -> full_label_less i j = true -> full_label_less j k = true -> full_label_less i k = true.
  Proof.
    intros P Q W. rewrite !plain_fl; auto. destruct (tcmp i j) eqn:A; try discriminate. destruct (tcmp j k) eqn:B; try discriminate.
    intros _ _. rewrite (proj2 (proj2 TO_tcmp) _ _ _ A B). auto.
  Qed.
  Lemma fl_total i j : plain i -> plain j -> full_label_less i j = false -> full_label_less j i = false -> i = j.
  Proof. intros P Q. rewrite !plain_fl; auto. apply tcmp_both. Qed.

  Lemma same_label i j : plain i -> plain j -> negb (full_label_less i j) && negb (full_label_less j i) = true <-> i = j.
  Proof.
    intros P Q. rewrite andb_true_iff, !negb_true_iff. split.
    - intros (A & B). apply fl_total; auto.
    - intros ->. rewrite fl_irrefl; auto.
  Qed.
  Lemma same_key i j : plain i -> plain j -> negb (ix_ltb i j) && negb (ix_ltb j i) = true <-> i = j.
  Proof.
    intros P Q. rewrite andb_true_iff, !negb_true_iff, !plain_lt; auto. split.
    - intros (A & B). apply tcmp_both; auto.
    - intros ->. rewrite (TO_refl _ _ TO_tcmp). auto.
  Qed.
  Lemma named_in_spec l i : Forall plain l -> plain i -> named_in l i = true <-> In i l.
  Proof.
    intros F P. unfold named_in. rewrite existsb_exists. rewrite Forall_forall in F. split.
    - intros (n & I & H). apply same_label in H; auto. subst; auto.
    - intros I. exists i. split; auto. apply same_label; auto.
  Qed.
  Lemma named_in_false l i : Forall plain l -> plain i -> named_in l i = false <-> ~ In i l.
  Proof. intros F P. rewrite <- named_in_spec; auto. destruct (named_in l i); intuition congruence. Qed.

  Definition ordered (l : list index) : Prop := StronglySorted (fun i j => full_label_less i j = true) l.
  Lemma ordered_nodup l : Forall plain l -> ordered l -> NoDup l.
  Proof.
    induction 2 as [|i l O IH F]; constructor.
    - intros I. rewrite Forall_forall in F. apply F in I. rewrite fl_irrefl in I by (inversion H; auto). discriminate.
    - apply IH. inversion H; auto.
  Qed.
  Lemma ordered_unique l m : Forall plain l -> ordered l -> ordered m -> (forall i, In i l <-> In i m) -> l = m.
  Proof.
    intros P O. revert m P. induction O as [|i l O IH F]; intros m P O' E.
    - destruct m as [|j m]; auto. destruct (proj2 (E j)); left; auto.
    - inversion P; subst. destruct O' as [|j m O' F'].
      { destruct (proj1 (E i)); left; auto. }
      rewrite Forall_forall in F, F', H2.
      assert (plain j) as Pj. { destruct (proj2 (E j)) as [<-|]; auto. left; auto. }
      assert (i = j).
      { destruct (proj1 (E i)) as [->|A]; [left; auto|auto|]. destruct (proj2 (E j)) as [->|B]; [left; auto|auto|].
        apply F' in A. apply F in B. pose proof (fl_trans i j i H1 Pj H1 B A) as X. rewrite fl_irrefl in X; auto. discriminate. }
      subst j. f_equal. apply IH; auto.
      + rewrite Forall_forall. auto.
      + intros k. split; intros K.
        * destruct (proj1 (E k)) as [<-|]; [right; auto| |auto]. apply F in K. rewrite fl_irrefl in K; auto. discriminate.
        * destruct (proj2 (E k)) as [<-|]; [right; auto| |auto]. apply F' in K. rewrite fl_irrefl in K; auto. discriminate.
  Qed.

  Lemma named_add_spec l i : Forall plain l -> plain i -> ordered l ->
    ordered (named_add l i) /\ (forall j, In j (named_add l i) <-> j = i \/ In j l) /\ Forall plain (named_add l i).
  Proof.
    intros F P O. induction O as [|n l O IH FF]; cbn.
    - split; [repeat constructor|]. split; [intros j; cbn; intuition|constructor; auto].
    - inversion F; subst. destruct (IH H2) as (A & B & C). destruct (full_label_less n i) eqn:E1.
      + split; [|split].
        * constructor; auto. rewrite Forall_forall in *. intros j J. apply B in J. destruct J as [->|J]; auto.
        * intros j. cbn. rewrite B. tauto.
        * constructor; auto.
      + destruct (full_label_less i n) eqn:E2.
        * split; [|split].
          { constructor; [constructor; auto|]. constructor; auto. rewrite Forall_forall in *. intros j J. apply (fl_trans i n j); auto. }
          { intros j. cbn. intuition. }
          { constructor; auto. }
        * assert (n = i) by (apply fl_total; auto). subst. split; [constructor; auto|]. split; [|auto].
          intros j. cbn. split; [tauto|]. intros [->|X]; auto.
  Qed.
  Lemma named_adds_spec js : forall l, Forall plain l -> Forall plain js -> ordered l ->
    ordered (fold_left named_add js l) /\ (forall j, In j (fold_left named_add js l) <-> In j js \/ In j l) /\ Forall plain (fold_left named_add js l).
  Proof.
    induction js as [|i js IH]; intros l F Fj O; cbn.
    - split; [auto|split; [|auto]]. tauto.
    - inversion Fj; subst. destruct (named_add_spec l i F H1 O) as (A & B & C).
      destruct (IH (named_add l i) C H2 A) as (A' & B' & C'). split; [auto|split; [|auto]]. intros j. rewrite B', B. cbn. intuition.
  Qed.

  (** ** Edges *)
  Lemma set_emplace_perm v l l' : set_emplace v l = Some l' -> Permutation (v :: l) l'.
  Proof.
    revert l'. induction l as [|w l IH]; intros l'; cbn.
    - intros [= <-]. auto.
    - destruct (vref_ltb w v).
      + destruct (set_emplace v l) as [m|]; [|discriminate]. cbn. intros [= <-]. rewrite perm_swap. constructor. auto.
      + destruct (vref_ltb v w); [|discriminate]. intros [= <-]. auto.
  Qed.
  Lemma set_emplace_last v l : (forall w, In w l -> vref_ltb w v = true) -> set_emplace v l = Some (l ++ [v]).
  Proof.
    induction l as [|w l IH]; intros H; cbn; auto. rewrite (H w) by (left; auto). rewrite IH by (intros; apply H; right; auto). auto.
  Qed.

  Fixpoint insert_all (ps : list (index * vref)) (es : list edge) : option (list edge) :=
    match ps with
    | [] => Some es
    | (i, v) :: ps' => match idx_insert i v es with None => None | Some es' => insert_all ps' es' end
    end.
  Lemma insert_all_app ps qs es : insert_all (ps ++ qs) es = match insert_all ps es with None => None | Some es' => insert_all qs es' end.
  Proof. revert es. induction ps as [|(i, v) ps IH]; intros es; cbn; auto. destruct (idx_insert i v es); auto. Qed.

  Fixpoint bundle_refs (o : origin) (t : nat) (s : symmetry) (k : nat) (l : list index) : list (index * vref) :=
    match l with
    | [] => []
    | i :: l' => (i, mkvref o t k s) :: bundle_refs o t s (Datatypes.S k) l'
    end.
  Definition tensor_refs (n : nat) (t : tensor) : list (index * vref) :=
    bundle_refs OBra n (t_symm t) 0 (t_bra t) ++ bundle_refs OKet n (t_symm t) 0 (t_ket t) ++ bundle_refs OAux n Nonsymm 0 (t_aux t).
  Fixpoint refs (n : nat) (ts : list tensor) : list (index * vref) :=
    match ts with
    | [] => []
    | t :: ts' => tensor_refs n t ++ refs (Datatypes.S n) ts'
    end.
  Lemma insert_bundle_all o t s l : Forall plain l -> forall k es, insert_bundle o t s k l es = insert_all (bundle_refs o t s k l) es.
  Proof.
    induction 1 as [|i l P F IH]; intros k es; cbn; auto.
    destruct P as (_ & _ & _ & ->). destruct (idx_insert i _ es); auto.
  Qed.
  Lemma insert_tensors_all ts : Forall plain (indices ts) -> forall n es, insert_tensors n ts es = insert_all (refs n ts) es.
  Proof.
    induction ts as [|t ts IH]; intros F n es; cbn; auto. cbn in F. unfold slots in F. rewrite !Forall_app in F. destruct F as ((F1 & F2 & F3) & F4).
    unfold insert_tensor, tensor_refs. rewrite !insert_all_app, insert_bundle_all by auto.
    destruct (insert_all (bundle_refs OBra _ _ _ _) es) as [e1|]; auto. rewrite insert_all_app, insert_bundle_all by auto.
    destruct (insert_all (bundle_refs OKet _ _ _ _) e1) as [e2|]; auto. rewrite insert_bundle_all by auto.
    destruct (insert_all (bundle_refs OAux _ _ _ _) e2) as [e3|]; auto.
  Qed.
  Lemma bundle_refs_fst o t s l : forall k, map fst (bundle_refs o t s k l) = l.
  Proof. induction l as [|i l IH]; intros k; cbn; congruence. Qed.
  Lemma refs_fst ts : forall n, map fst (refs n ts) = indices ts.
  Proof.
    induction ts as [|t ts IH]; intros n; cbn; auto. unfold tensor_refs. rewrite !map_app, !bundle_refs_fst, IH. unfold slots. reflexivity.
  Qed.

  Definition at_index (i : index) (ps : list (index * vref)) : list vref :=
    map snd (filter (fun p => if index_eq_dec (fst p) i then true else false) ps).
  Lemma at_index_app i ps qs : at_index i (ps ++ qs) = at_index i ps ++ at_index i qs.
  Proof. unfold at_index. rewrite filter_app, map_app. auto. Qed.
  Lemma at_index_count i ps : length (at_index i ps) = count_occ index_eq_dec (map fst ps) i.
  Proof.
    unfold at_index. rewrite map_length. induction ps as [|p ps IH]; cbn; auto. destruct (index_eq_dec (fst p) i); cbn; auto.
  Qed.

  (** [es] are the edges of the references [ps]. *)
  Definition edges_of (ps : list (index * vref)) (es : list edge) : Prop :=
    ordered (map e_idx es) /\ (forall j, In j (map e_idx es) <-> In j (map fst ps)) /\
    forall e, In e es -> Permutation (e_vs e) (at_index (e_idx e) ps).

  Lemma idx_insert_spec i v es : forall es', plain i -> Forall plain (map e_idx es) -> ordered (map e_idx es) ->
    idx_insert i v es = Some es' ->
    ordered (map e_idx es') /\ (forall j, In j (map e_idx es') <-> j = i \/ In j (map e_idx es)) /\
    (forall e, In e es' -> (e_idx e <> i /\ In e es) \/
       (e_idx e = i /\ (In i (map e_idx es) -> exists e0, In e0 es /\ e_idx e0 = i /\ Permutation (v :: e_vs e0) (e_vs e)) /\
        (~ In i (map e_idx es) -> e_vs e = [v]))).
  Proof.
    induction es as [|e es IH]; intros es' P F O; cbn.
    - intros [= <-]. cbn. split; [repeat constructor|]. split; [intuition|]. intros e [<-|[]]. right. cbn. tauto.
    - inversion F; subst. inversion O; subst. destruct (full_label_less (e_idx e) i) eqn:E1.
      + destruct (idx_insert i v es) as [m|] eqn:E; [|discriminate]. cbn. intros [= <-].
        destruct (IH m P H2 H3 eq_refl) as (A & B & C). split; [|split].
        * cbn. constructor; auto. rewrite Forall_forall in *. intros j J. apply B in J. destruct J as [->|J]; auto.
        * intros j. cbn. rewrite B. tauto.
        * assert (N : e_idx e <> i) by (intros <-; rewrite fl_irrefl in E1; auto; discriminate).
          intros e' [<-|I]; [left; split; auto|]. destruct (C e' I) as [(X & Y)|(X & Y & Z)]; [left; auto|right].
          split; auto. split.
          { intros [W|W]; [contradiction|]. destruct (Y W) as (e0 & W1 & W2). exists e0. split; [right; auto|auto]. }
          { intros W. apply Z. auto. }
      + destruct (ix_eqb (e_idx e) i) eqn:E2; cbn [negb].
        * apply plain_eqb in E2; auto. subst i. destruct (set_emplace v (e_vs e)) as [vs|] eqn:E; [|discriminate]. cbn. intros [= <-]. cbn.
          split; [constructor; auto|]. split; [intros j; intuition|]. intros e' [<-|I].
          { right. cbn. split; auto. split; [|tauto]. intros _. exists e. split; [left; auto|]. split; auto. apply set_emplace_perm; auto. }
          { left. split; [|right; auto]. rewrite Forall_forall in H4. specialize (H4 (e_idx e')). intros X.
            rewrite X in H4. rewrite fl_irrefl in H4; auto. discriminate H4. rewrite <- X. apply in_map; auto. }
        * assert (N : e_idx e <> i) by (intros X; apply plain_eqb in X; auto; congruence).
          assert (L : full_label_less i (e_idx e) = true).
          { destruct (full_label_less i (e_idx e)) eqn:X; auto. destruct N. apply fl_total; auto. }
          assert (NI : ~ In i (map e_idx (e :: es))).
          { intros [X|X]; auto. rewrite Forall_forall in H4. apply H4 in X. rewrite X in E1. discriminate. }
          intros [= <-]. cbn. split; [|split].
          { constructor; [constructor; auto|]. constructor; auto. rewrite Forall_forall in *. intros j J. apply (fl_trans i (e_idx e) j); auto. }
          { intros j. intuition. }
          { intros e' [<-|I]; cbn; [right; split; auto; split; [|auto]; intros X; exfalso; apply NI; cbn; tauto|].
            left. split; auto. intros X. apply NI. rewrite <- X. apply (in_map e_idx (e :: es)). auto. }
  Qed.

  Lemma insert_all_spec qs : forall ps es es', Forall plain (map fst (ps ++ qs)) -> edges_of ps es -> insert_all qs es = Some es' ->
    edges_of (ps ++ qs) es'.
  Proof.
    induction qs as [|(i, v) qs IH]; intros ps es es' F E; cbn.
    - intros [= <-]. rewrite app_nil_r. auto.
    - destruct (idx_insert i v es) as [m|] eqn:X; [|discriminate]. intros H.
      replace (ps ++ (i, v) :: qs) with ((ps ++ [(i, v)]) ++ qs) in * by (rewrite <- app_assoc; auto).
      apply IH with (es := m); auto. clear H IH.
      destruct E as (A & B & C). rewrite !map_app, !Forall_app in F. destruct F as ((F1 & F2) & _). cbn in F2. inversion F2; subst.
      assert (Fe : Forall plain (map e_idx es)).
      { rewrite Forall_forall in *. intros j J. apply B in J. auto. }
      destruct (idx_insert_spec i v es m H1 Fe A X) as (A' & B' & C'). split; [auto|split].
      + intros j. rewrite B', B, map_app, in_app_iff. cbn. intuition.
      + intros e I. rewrite at_index_app. unfold at_index at 2. cbn [filter fst].
        destruct (C' e I) as [(N & J)|(E & Y & Z)].
        * destruct (index_eq_dec i (e_idx e)) as [->|_]; [congruence|]. cbn. rewrite app_nil_r. auto.
        * destruct (index_eq_dec i (e_idx e)) as [_|NN]; [|congruence]. cbn [map snd].
          destruct (in_dec index_eq_dec i (map e_idx es)) as [W|W].
          { destruct (Y W) as (e0 & W1 & W2 & W3). rewrite <- W3. rewrite E. specialize (C e0 W1). rewrite W2 in C. rewrite C. apply Permutation_cons_append. }
          { rewrite (Z W). replace (at_index (e_idx e) ps) with (@nil vref); [auto|]. unfold at_index. rewrite B in W. rewrite <- E in W.
            clear - W. induction ps as [|p ps IH]; cbn in *; auto. destruct (index_eq_dec (fst p) (e_idx e)); [tauto|]. auto. }
  Qed.
  Lemma edges_of_nil : edges_of [] [].
  Proof. split; [constructor|]. split; [cbn; tauto|]. intros e []. Qed.

  (** What [init_edges] computes. *)
  Lemma init_edges_spec ts info : Forall plain (indices ts) -> init_edges ts = Some info ->
    edges_of (refs 0 ts) (ei_edges info) /\ ei_pure info = [] /\
    ordered (ei_ext info) /\ Forall plain (ei_ext info) /\
    (forall i, In i (ei_ext info) <-> count_occ index_eq_dec (indices ts) i = 1).
  Proof.
    intros F. unfold init_edges. rewrite insert_tensors_all by auto. destruct (insert_all (refs 0 ts) []) as [es|] eqn:X; [|discriminate].
    apply (insert_all_spec (refs 0 ts) []) in X; [|cbn; rewrite refs_fst; auto|apply edges_of_nil]. cbn in X.
    pose proof X as (A & B & C). rewrite refs_fst in B.
    assert (Fe : Forall plain (map e_idx es)).
    { rewrite Forall_forall in *. intros j J. apply B in J. auto. }
    assert (NP : flat_map (fun e => ix_protos (e_idx e)) es = []).
    { clear - Fe. induction es as [|e es IH]; cbn in *; auto. inversion Fe; subst. destruct H1 as (_ & _ & -> & _). auto. }
    rewrite NP. cbn [existsb]. intros [= <-]. cbn [ei_edges ei_ext ei_pure].
    set (sing := filter (fun e => length (e_vs e) =? 1) es).
    assert (Ex : fold_left (fun s e => if length (e_vs e) =? 1 then named_add s (e_idx e) else s) es [] = fold_left named_add (map e_idx sing) []).
    { unfold sing. clear. generalize (@nil index). induction es as [|e es IH]; intros l; cbn; auto.
      destruct (length (e_vs e) =? 1); cbn; auto. }
    assert (Fs : Forall plain (map e_idx sing)).
    { rewrite Forall_forall in *. intros j J. apply in_map_iff in J. destruct J as (e & <- & J). unfold sing in J. apply filter_In in J. apply Fe. apply in_map. tauto. }
    destruct (named_adds_spec (map e_idx sing) [] (Forall_nil _) Fs (SSorted_nil _)) as (O1 & O2 & O3).
    rewrite Ex. set (ext := fold_left named_add (map e_idx sing) []) in *.
    assert (NPx : flat_map ix_protos ext = []).
    { clear - O3. induction O3 as [|j l P F IH]; cbn; auto. destruct P as (_ & _ & -> & _). auto. }
    rewrite NPx. cbn [filter fold_left]. split; [auto|]. split; [auto|]. split; [auto|]. split; [auto|].
    intros i. rewrite O2. unfold sing. rewrite in_map_iff. split.
    - intros [(e & <- & I)|[]]. apply filter_In in I. destruct I as (I & L). apply Nat.eqb_eq in L.
      rewrite <- (refs_fst ts 0), <- at_index_count, <- (C e I). auto.
    - intros H. left. assert (I : In i (indices ts)) by (rewrite (count_occ_In index_eq_dec); lia).
      apply B in I. apply in_map_iff in I. destruct I as (e & <- & I). exists e. split; auto. apply filter_In. split; auto.
      apply Nat.eqb_eq. rewrite (C e I), at_index_count, refs_fst. auto.
  Qed.

  (** ** Replacements *)
  Definition rho (m : list (index * index)) (i : index) : index := match map_find m i with Some r => r | None => i end.

  Lemma space_cmp_eq s s' : S s -> S s' -> space_cmp s s' = Eq <-> s = s'.
  Proof. intros A B. rewrite (space_cmp_reg S); auto. apply TO_space. Qed.
  Lemma counter_cons s n cs s' : S s -> S s' -> counter ((s, n) :: cs) s' = if space_eqb s s' then n else counter cs s'.
  Proof.
    intros A B. cbn. destruct (space_eqb s s') eqn:E.
    - apply space_eqb_spec in E. subst. rewrite (proj2 (space_cmp_eq s' s' B B)); auto.
    - destruct (space_cmp s s') eqn:X; auto. apply space_cmp_eq in X; auto. subst. rewrite (proj2 (space_eqb_spec s' s')) in E; auto. discriminate.
  Qed.
  Lemma factory_spec named f : forall cs i r cs', Forall plain named -> plain i -> factory_make f named cs i = Some (r, cs') ->
    plain r /\ ix_space r = ix_space i /\ ~ In r named /\
    (exists n, ix_ord r = Some n /\ counter cs (ix_space i) < n /\ n <= counter cs' (ix_space i)) /\
    (forall s, S s -> counter cs s <= counter cs' s).
  Proof.
    induction f as [|f IH]; intros cs i r cs' F P; cbn -[counter]; [discriminate|].
    set (n := Datatypes.S (counter cs (ix_space i))). set (x := Idx (ix_space i) (Some n) None (ix_protos i)).
    assert (Si : S (ix_space i)) by apply P.
    assert (Px : plain x).
    { unfold x. destruct P as (P1 & P2 & P3 & P4). rewrite P3. split; [auto|]. split; [auto|]. split; [auto|].
      unfold ix_null, null_index. rewrite ix_eqb_unfold. cbn [opt_eqb]. rewrite andb_false_r. reflexivity. }
    assert (Cx : forall s, S s -> counter ((ix_space i, n) :: cs) s = if space_eqb (ix_space i) s then n else counter cs s) by (intros; apply counter_cons; auto).
    assert (Ce : counter ((ix_space i, n) :: cs) (ix_space i) = n).
    { rewrite Cx by auto. rewrite (proj2 (space_eqb_spec _ _)); auto. }
    assert (Cm : forall s, S s -> counter cs s <= counter ((ix_space i, n) :: cs) s).
    { intros s Ss. rewrite Cx by auto. destruct (space_eqb (ix_space i) s) eqn:E; auto. apply space_eqb_spec in E. subst s. unfold n. lia. }
    destruct (named_in named x) eqn:N.
    - intros H. apply IH in H; auto. destruct H as (A & B & C & (k & D1 & D2 & D3) & G). split; [auto|]. split; [auto|]. split; [auto|]. split.
      + exists k. split; auto. rewrite Ce in D2. unfold n in D2. lia.
      + intros s Ss. specialize (G s Ss). specialize (Cm s Ss). lia.
    - intros [= <- <-]. split; [auto|]. split; [auto|]. split; [apply named_in_false; auto|]. split; [|auto].
      exists n. split; [auto|]. rewrite Ce. unfold n. lia.
  Qed.

  Lemma make_spec named is : forall cs m, Forall plain named -> Forall plain is -> NoDup is ->
    make_replacements named cs is = Some m ->
    Forall plain (map fst m) /\ (forall p, In p m -> In (fst p) is /\ plain (snd p)) /\
    (forall i, In i is -> plain (rho m i) /\ ix_space (rho m i) = ix_space i /\ ~ In (rho m i) named /\
       exists n, ix_ord (rho m i) = Some n /\ counter cs (ix_space i) < n) /\
    (forall i j, In i is -> In j is -> rho m i = rho m j -> i = j) /\
    (forall i, plain i -> ~ In i is -> rho m i = i).
  Proof.
    induction is as [|i is IH]; intros cs m Fn Fi ND; cbn -[factory_make].
    - intros [= <-]. cbn. split; [constructor|]. split; [tauto|]. split; [tauto|]. split; [tauto|]. reflexivity.
    - inversion Fi; subst. inversion ND; subst. destruct (factory_make _ named cs i) as [(r, cs')|] eqn:X; [|discriminate].
      apply factory_spec in X; auto. destruct X as (A & B & C & (n & D1 & D2 & D3) & G).
      destruct (make_replacements named cs' is) as [m'|] eqn:Y; [|discriminate]. cbn. intros [= <-].
      destruct (IH cs' m' Fn H2 H4 Y) as (I1 & I2 & I3 & I4 & I5).
      assert (Q1 : rho (if ix_eqb i r then m' else (i, r) :: m') i = r).
      { destruct (ix_eqb i r) eqn:E.
        - apply plain_eqb in E; auto. rewrite I5; auto.
        - unfold rho, map_find. cbn. rewrite (proj2 (same_key i i H1 H1)); auto. }
      assert (Q2 : forall j, plain j -> j <> i -> rho (if ix_eqb i r then m' else (i, r) :: m') j = rho m' j).
      { intros j Pj N. destruct (ix_eqb i r) eqn:E; auto. unfold rho, map_find. cbn.
        destruct (negb (ix_ltb i j) && negb (ix_ltb j i)) eqn:Z; auto. apply same_key in Z; auto. congruence. }
      assert (Ij : forall j, In j is -> plain j /\ j <> i).
      { intros j J. rewrite Forall_forall in H2. split; auto. intros ->. contradiction. }
      split; [|split; [|split; [|split]]].
      + destruct (ix_eqb i r); auto. cbn. constructor; auto.
      + intros p Hp. destruct (ix_eqb i r) eqn:E.
        * apply I2 in Hp. tauto.
        * destruct Hp as [<-|Hp]; [cbn; auto|]. apply I2 in Hp. tauto.
      + intros j [<-|J].
        * rewrite Q1. split; [auto|]. split; [auto|]. split; [auto|]. eauto.
        * destruct (Ij j J) as (Pj & Nj). rewrite Q2 by auto. destruct (I3 j J) as (K1 & K2 & K3 & k & K4 & K5). split; [auto|]. split; [auto|]. split; [auto|].
          exists k. split; auto. assert (S (ix_space j)) by apply Pj. specialize (G _ H). lia.
      + assert (Disj : forall j, In j is -> r <> rho m' j).
        { intros j J E. destruct (I3 j J) as (K1 & K2 & K3 & k & K4 & K5). rewrite <- E in *. rewrite D1 in K4. injection K4 as <-.
          rewrite <- K2, B in K5. lia. }
        intros j k [<-|J] [<-|Kk]; auto.
        * rewrite Q1. destruct (Ij k Kk) as (Pk & Nk). rewrite Q2 by auto. intros E. destruct (Disj k Kk E).
        * rewrite Q1. destruct (Ij j J) as (Pj & Nj). rewrite Q2 by auto. intros E. symmetry in E. destruct (Disj j J E).
        * destruct (Ij k Kk) as (Pk & Nk). destruct (Ij j J) as (Pj & Nj). rewrite !Q2 by auto. apply I4; auto.
      + intros j Pj NJ. rewrite Q2; auto.
  Qed.

  Lemma map_find_plain m i r : (forall p, In p m -> plain (snd p)) -> map_find m i = Some r -> plain r.
  Proof.
    intros H. unfold map_find. destruct (find _ m) as [p|] eqn:E; [|discriminate]. cbn. intros [= <-]. apply find_some in E. apply H. tauto.
  Qed.

  Lemma transform_plain m i : (forall p, In p m -> plain (snd p)) -> plain i ->
    transform_slot m i = (match map_find m i with Some r => with_tag r (Some 0%Z) | None => i end,
                          match map_find m i with Some _ => true | None => false end).
  Proof.
    intros H P. unfold transform_slot. destruct P as (P1 & P2 & P3 & ->). unfold transform_index, is_tagged. rewrite P2.
    destruct (map_find m i) as [r|]; auto. rewrite P3. reflexivity.
  Qed.
  Lemma transform_tagged m r : plain r -> transform_slot m (with_tag r (Some 0%Z)) = (with_tag r (Some 0%Z), false).
  Proof.
    intros (s & o & -> & Sr)%plain_shape. unfold transform_slot. destruct (ix_null _); reflexivity.
  Qed.
  Definition pass1 (m : list (index * index)) (i : index) : index :=
    match map_find m i with Some r => with_tag r (Some 0%Z) | None => i end.
  Lemma pass2 m i : (forall p, In p m -> plain (snd p)) -> plain i -> transform_slot m (pass1 m i) = (pass1 m i, false).
  Proof.
    intros H P. unfold pass1. destruct (map_find m i) as [r|] eqn:E.
    - apply transform_tagged. eapply map_find_plain; eauto.
    - rewrite transform_plain; auto. rewrite E. auto.
  Qed.
  Lemma untag_pass m i : (forall p, In p m -> plain (snd p)) -> plain i -> untag_all (pass1 m i) = rho m i.
  Proof.
    intros H P. unfold pass1, rho. destruct (map_find m i) as [r|] eqn:E.
    - apply (map_find_plain m i r H) in E. apply plain_shape in E. destruct E as (s & o & -> & _). reflexivity.
    - apply plain_shape in P. destruct P as (s & o & -> & _). reflexivity.
  Qed.

  Lemma existsb_false {A} (f : A -> bool) l : (forall x, In x l -> f x = false) -> existsb f l = false.
  Proof. induction l as [|x l IH]; intros H; cbn; auto. rewrite H, IH; auto with datatypes. Qed.
  Lemma map_tensor_pass m t : (forall p, In p m -> plain (snd p)) -> Forall plain (slots t) ->
    transform_tensor m (map_tensor (pass1 m) t) = (map_tensor (pass1 m) t, false).
  Proof.
    intros H F. unfold slots in F. rewrite !Forall_app, !Forall_forall in F. destruct F as (F1 & F2 & F3).
    unfold transform_tensor, map_tensor. cbn. rewrite !map_map.
    rewrite (map_ext_in (fun x => fst (transform_slot m (pass1 m x))) (pass1 m) (t_bra t)) by (intros; rewrite pass2; auto).
    rewrite (map_ext_in (fun x => fst (transform_slot m (pass1 m x))) (pass1 m) (t_ket t)) by (intros; rewrite pass2; auto).
    rewrite (map_ext_in (fun x => fst (transform_slot m (pass1 m x))) (pass1 m) (t_aux t)) by (intros; rewrite pass2; auto).
    f_equal. apply existsb_false. intros x X. rewrite <- !map_app in X. apply in_map_iff in X. destruct X as (y & <- & Y).
    rewrite pass2; auto. rewrite !in_app_iff in Y. destruct Y as [Y|[Y|Y]]; auto.
  Qed.
  Lemma apply_spec m t : (forall p, In p m -> plain (snd p)) -> Forall plain (slots t) ->
    apply_replacements m t = Some (renamed (rho m) t).
  Proof.
    intros H F. unfold apply_replacements.
    assert (U : untagged_slots t = true).
    { unfold untagged_slots. apply forallb_forall. intros i I. rewrite Forall_forall in F. destruct (F i I) as (_ & -> & _). auto. }
    rewrite U. cbn [negb].
    assert (T1 : fst (transform_tensor m t) = map_tensor (pass1 m) t).
    { unfold slots in F. rewrite !Forall_app, !Forall_forall in F. destruct F as (F1 & F2 & F3).
      unfold transform_tensor, map_tensor. cbn. rewrite !map_map.
      f_equal; apply map_ext_in; intros i I; rewrite transform_plain; auto. }
    assert (L : transform_loop 4 m t = Some (map_tensor (pass1 m) t)).
    { cbn [transform_loop]. destruct (transform_tensor m t) as (t1, mu) eqn:X. cbn in T1. subst t1. destruct mu; auto.
      rewrite map_tensor_pass; auto. }
    rewrite L. cbn. f_equal. unfold map_tensor, renamed. cbn. rewrite !map_map.
    unfold slots in F. rewrite !Forall_app, !Forall_forall in F. destruct F as (F1 & F2 & F3).
    f_equal; apply map_ext_in; intros i I; apply untag_pass; auto.
  Qed.
  Lemma map_opt_some {A B} (f : A -> option B) (g : A -> B) l : (forall x, In x l -> f x = Some (g x)) -> map_opt f l = Some (map g l).
  Proof. induction l as [|x l IH]; intros H; cbn; auto. rewrite H, IH; auto with datatypes. Qed.
  Lemma apply_all m ts : (forall p, In p m -> plain (snd p)) -> Forall plain (indices ts) ->
    map_opt (apply_replacements m) ts = Some (map (renamed (rho m)) ts).
  Proof.
    intros H F. apply map_opt_some. intros t T. apply apply_spec; auto. unfold indices in F. rewrite Forall_forall in *.
    intros i I. apply F. apply in_flat_map. eauto.
  Qed.

  (** Renaming the anonymous indices of a network. *)
  Lemma rename_equivalent named is m ts : Forall plain named -> Forall plain (indices ts) -> Forall plain is -> NoDup is ->
    (forall i, In i is <-> In i (indices ts) /\ ~ In i named) -> make_replacements named [] is = Some m ->
    map_opt (apply_replacements m) ts = Some (map (renamed (rho m)) ts) /\
    equivalent named ts (map (renamed (rho m)) ts) false /\
    Forall plain (indices (map (renamed (rho m)) ts)) /\
    indices (map (renamed (rho m)) ts) = map (rho m) (indices ts) /\
    (forall i, In i (indices ts) -> In i named -> rho m i = i) /\
    (forall i, In i (indices ts) -> ~ In i named -> ~ In (rho m i) named) /\
    (forall i, In i (indices ts) -> ix_space (rho m i) = ix_space i) /\
    (forall i j, In i (indices ts) -> In j (indices ts) -> rho m i = rho m j -> i = j).
  Proof.
    intros Fn Ft Fi ND Iff H. destruct (make_spec named is [] m Fn Fi ND H) as (M1 & M2 & M3 & M4 & M5).
    assert (Fx : forall i, In i (indices ts) -> In i named -> rho m i = i).
    { intros i I J. apply M5; [rewrite Forall_forall in Ft; auto|]. rewrite Iff. tauto. }
    assert (An : forall i, In i (indices ts) -> ~ In i named -> In i is) by (intros; apply Iff; auto).
    assert (Inj : forall i j, In i (indices ts) -> In j (indices ts) -> rho m i = rho m j -> i = j).
    { intros i j I J E. destruct (in_dec index_eq_dec i named) as [Ni|Ni], (in_dec index_eq_dec j named) as [Nj|Nj].
      - rewrite !Fx in E; auto.
      - rewrite (Fx i) in E by auto. destruct (M3 j) as (_ & _ & Z & _); [auto|]. rewrite <- E in Z. contradiction.
      - rewrite (Fx j) in E by auto. destruct (M3 i) as (_ & _ & Z & _); [auto|]. rewrite E in Z. contradiction.
      - apply M4; auto. }
    assert (Sp : forall i, In i (indices ts) -> ix_space (rho m i) = ix_space i).
    { intros i I. destruct (in_dec index_eq_dec i named) as [Ni|Ni]; [rewrite Fx; auto|]. apply M3; auto. }
    assert (Nn : forall i, In i (indices ts) -> ~ In i named -> ~ In (rho m i) named).
    { intros i I Ni. apply M3; auto. }
    assert (II : indices (map (renamed (rho m)) ts) = map (rho m) (indices ts)).
    { clear. unfold indices. induction ts as [|t ts IH]; [reflexivity|]. cbn. rewrite IH, map_app. f_equal. unfold slots, renamed. cbn. rewrite !map_app. auto. }
    split; [apply apply_all; auto; intros p Hp; apply M2; auto|]. split; [apply eqv_names; auto|]. split; [|split; [|split; [|split; [|split]]]]; auto.
    rewrite II, Forall_map, Forall_forall. intros i I. destruct (in_dec index_eq_dec i named) as [Ni|Ni].
    - rewrite Fx by auto. rewrite Forall_forall in Ft. auto.
    - apply M3. auto.
  Qed.
End Plain.
