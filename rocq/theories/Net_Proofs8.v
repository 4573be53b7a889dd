(** Networks with the same canonical graph become equal: tensors. *)
From Coq Require Import ZArith List Arith Bool Permutation Sorted Lia.
From Verif Require Import Alg_Model Alg_Spec Alg_Proofs1 Tsr_Model Tsr_Spec Tsr_Proofs2 Tsr_Proofs4 Net_Model Net_Spec Net_Spec2 Net_Proofs2 Net_Proofs3 Net_Proofs4 Net_Proofs5 Net_Proofs6 Net_Proofs7.
Import ListNotations.
Open Scope nat_scope.

Definition flip_origin (fl : bool) (o : origin) : origin :=
  if fl then match o with OBra => OKet | OKet => OBra | OAux => OAux end else o.

Section Pair.
  Variable named : list index.
  Definition vcolor (N : list tensor) (v : vtx) : color := match v with VIndex i => index_color named true i | _ => tcol N v end.
  Definition adj (N : list tensor) (u v : vtx) : Prop := arrow N u v \/ arrow N v u.

  (** Two labellings that make the graphs of the networks equal. *)
  Definition matching (N M : list tensor) (p q : vtx -> nat) : Prop :=
    (forall v, vertex N v -> exists w, vertex M w /\ p v = q w) /\
    (forall w, vertex M w -> exists v, vertex N v /\ p v = q w) /\
    (forall u v, vertex N u -> vertex N v -> p u = p v -> u = v) /\
    (forall u v, vertex M u -> vertex M v -> q u = q v -> u = v) /\
    (forall u u' v v', vertex N u -> vertex N v -> vertex M u' -> vertex M v' -> p u = q u' -> p v = q v' ->
       vcolor N u = vcolor M u' /\ (adj N u v <-> adj M u' v')).
  Lemma matching_sym N M p q : matching N M p q -> matching M N q p.
  Proof.
    intros (A & B & C & D & E). split; [|split; [|split; [|split]]]; auto.
    - intros v V. destruct (B v V) as (w & W & X). eauto.
    - intros w W. destruct (A w W) as (v & V & X). eauto.
    - intros u u' v v' U V U' V' X Y. destruct (E u' u v' v) as (P & Q); auto. split; auto. tauto.
  Qed.

  Section Two.
    Variables (N M : list tensor) (p q : vtx -> nat).
    Hypothesis H : matching N M p q.
    Definition mt (v w : vtx) : Prop := vertex N v /\ vertex M w /\ p v = q w.

    Lemma mt_ex v : vertex N v -> exists w, mt v w.
    Proof. intros V. destruct H as (A & _). destruct (A v V) as (w & W & E). exists w. split; auto. Qed.
    Lemma mt_ex' w : vertex M w -> exists v, mt v w.
    Proof. intros W. destruct H as (_ & A & _). destruct (A w W) as (v & V & E). exists v. split; auto. Qed.
    Lemma mt_fun v w w' : mt v w -> mt v w' -> w = w'.
    Proof. intros (_ & W & E) (_ & W' & E'). destruct H as (_ & _ & _ & A & _). apply A; congruence. Qed.
    Lemma mt_inj v v' w : mt v w -> mt v' w -> v = v'.
    Proof. intros (V & _ & E) (V' & _ & E'). destruct H as (_ & _ & A & _). apply A; congruence. Qed.
    Lemma mt_color v w : mt v w -> vcolor N v = vcolor M w.
    Proof. intros (V & W & E). destruct H as (_ & _ & _ & _ & A). destruct (A v w v w); auto. Qed.
    Lemma mt_adj u v u' v' : mt u u' -> mt v v' -> (adj N u v <-> adj M u' v').
    Proof. intros (U & U' & E) (V & V' & F). destruct H as (_ & _ & _ & _ & A). destruct (A u u' v v'); auto. Qed.

    Lemma index_color_shape i : match index_color named true i with CNamed _ | CAnon _ _ _ => True | _ => False end.
    Proof. unfold index_color. destruct (named_in named i); exact Logic.I. Qed.

    Lemma mt_core n w : mt (VCore n) w -> exists n', w = VCore n' /\ shade_of (ten M n') = shade_of (ten N n).
    Proof.
      intros X. pose proof (mt_color _ _ X) as C. destruct X as (_ & W & _). cbn in C.
      destruct w as [m|m|m k|m b|m o k|i|ps]; cbn in C; try discriminate; try (cbn in W; tauto).
      - exists m. split; auto. congruence.
      - destruct b; try discriminate. destruct (is_bksymm _); discriminate.
      - destruct o; try discriminate. destruct (is_bksymm _); discriminate.
      - pose proof (index_color_shape i) as Z. rewrite <- C in Z. destruct Z.
    Qed.
    Lemma mt_column n w : (exists k, mt (VColumn n k) w) \/ mt (VBraKet n) w ->
      (exists m k, w = VColumn m k) \/ exists m, w = VBraKet m.
    Proof.
      intros X. assert (C : exists s d, CColumn s d = vcolor M w /\ vertex M w).
      { destruct X as [(k & X)|X]; pose proof (mt_color _ _ X) as C; destruct X as (_ & W & _); cbn in C; eauto. }
      clear X. destruct C as (s & d & C & W). destruct w as [m|m|m k|m b|m o k|i|ps]; cbn in C, W; try discriminate; try tauto; eauto.
      - destruct b; try discriminate. destruct (is_bksymm _); discriminate.
      - destruct o; try discriminate. destruct (is_bksymm _); discriminate.
      - pose proof (index_color_shape i) as Z. rewrite <- C in Z. destruct Z.
    Qed.
    Lemma column_color N' m k : exists s d, vcolor N' (VColumn m k) = CColumn s (S d).
    Proof. cbn. destruct (is_colsymm _); eauto. Qed.

    Section Core.
      Variables n n' : nat.
      Hypothesis Hn : mt (VCore n) (VCore n').
      Lemma core_shade : shade_of (ten M n') = shade_of (ten N n).
      Proof. destruct (mt_core n _ Hn) as (m & [= <-] & E). auto. Qed.
      Lemma mt_braket : mt (VBraKet n) (VBraKet n').
      Proof.
        destruct (mt_ex (VBraKet n)) as (w & W); [apply Hn|]. destruct (mt_column n w) as [(m & k & ->)|(m & ->)]; auto.
        - pose proof (mt_color _ _ W) as C. destruct (column_color M m k) as (s & d & E). rewrite E in C. discriminate.
        - pose proof (mt_adj _ _ _ _ Hn W) as A. assert (adj M (VCore n') (VBraKet m)) by (apply A; left; reflexivity).
          destruct H0 as [X|[]]. cbn in X. subst. auto.
      Qed.
      Lemma mt_col k : vertex N (VColumn n k) -> exists k', mt (VColumn n k) (VColumn n' k').
      Proof.
        intros V. destruct (mt_ex _ V) as (w & W). destruct (mt_column n w) as [(m & k' & ->)|(m & ->)]; eauto.
        - pose proof (mt_adj _ _ _ _ Hn W) as A. assert (X : adj M (VCore n') (VColumn m k')) by (apply A; left; reflexivity).
          destruct X as [X|[]]. cbn in X. subst. eauto.
        - pose proof (mt_color _ _ W) as C. destruct (column_color N n k) as (s & d & E). rewrite E in C. discriminate.
      Qed.
      Lemma mt_bundle b : exists b', mt (VBundle n b) (VBundle n' b').
      Proof.
        destruct (mt_ex (VBundle n b)) as (w & W); [apply Hn|].
        pose proof (mt_adj _ _ _ _ mt_braket W) as A. assert (X : adj M (VBraKet n') w) by (apply A; left; reflexivity).
        unfold adj in X. destruct w as [m|m|m k|m b'|m o k|i|ps]; cbn in X; try tauto.
        - pose proof (mt_color _ _ W) as C. cbn in C. destruct b; try discriminate. destruct (is_bksymm _); discriminate.
        - destruct X as [X|X]; [subst; eauto|]. destruct b'; tauto.
      Qed.
      Lemma mt_bundles : exists fl, (forall b, mt (VBundle n b) (VBundle n' (xorb fl b))) /\ (fl = true -> t_bk (ten N n) = BKSymm).
      Proof.
        destruct (mt_bundle true) as (b1 & B1), (mt_bundle false) as (b2 & B2). exists (negb b1).
        assert (b1 <> b2) by (intros ->; pose proof (mt_inj _ _ _ B1 B2); discriminate).
        split.
        - intros [|]; [destruct b1; exact B1|]. destruct b1, b2; try congruence; exact B2.
        - destruct b1; try discriminate. intros _. pose proof (mt_color _ _ B1) as C. cbn in C.
          pose proof core_shade as Sh. assert (K : t_bk (ten M n') = t_bk (ten N n)) by (unfold shade_of in Sh; injection Sh; auto).
          rewrite K in C. destruct (t_bk (ten N n)); auto; discriminate.
      Qed.

      Variable fl : bool.
      Hypothesis Hf : forall b, mt (VBundle n b) (VBundle n' (xorb fl b)).
      Lemma bundle_lengths o : length (bundle_of (ten M n') (flip_origin fl o)) = length (bundle_of (ten N n) o).
      Proof.
        assert (G : forall T m b, exists s, vcolor T (VBundle m b) = CBra s (length (bundle_of (ten T m) (if b then OBra else OKet))) \/
                                   vcolor T (VBundle m b) = CKet s (length (bundle_of (ten T m) (if b then OBra else OKet)))).
        { intros T m b. cbn. destruct b; [eauto|]. destruct (is_bksymm _); eauto. }
        assert (G' : forall b, length (bundle_of (ten M n') (if xorb fl b then OBra else OKet)) = length (bundle_of (ten N n) (if b then OBra else OKet))).
        { intros b. pose proof (mt_color _ _ (Hf b)) as C. destruct (G N n b) as (s & [E|E]), (G M n' (xorb fl b)) as (s' & [E'|E']); rewrite E, E' in C; congruence. }
        destruct o; cbn [flip_origin].
        - pose proof (G' true) as X. destruct fl; exact X.
        - pose proof (G' false) as X. destruct fl; exact X.
        - pose proof core_shade as Sh. unfold shade_of in Sh. injection Sh as _ _ _ X _ _ _. destruct fl; exact X.
      Qed.
      Lemma mt_slot o k : vertex N (VSlot n o k) -> exists k', mt (VSlot n o k) (VSlot n' (flip_origin fl o) k') /\
        (o = OAux -> k' = k) /\ (t_symm (ten N n) = Nonsymm -> t_col (ten N n) = ColNonsymm -> k' = k).
      Proof.
        intros V. destruct (mt_ex _ V) as (w & W). pose proof (mt_color _ _ W) as C.
        assert (Q : exists m o' k', w = VSlot m o' k').
        { destruct w as [m|m|m j|m b|m o' j|i|ps]; eauto.
          1,2,3: exfalso; cbn in C; destruct o; try discriminate; destruct (is_bksymm _); discriminate.
          - exfalso. destruct (mt_ex' (VBraKet m)) as (v & X); [apply W|].
            assert (A : adj N v (VSlot n o k)) by (apply (mt_adj _ _ _ _ X W); left; reflexivity).
            pose proof (mt_color _ _ X) as D. destruct X as (X & _). cbn in D.
            unfold adj in A. destruct v as [a|a|a c|a d|a d c|a|a]; cbn in A, D, X; try discriminate; try tauto.
            + destruct (is_colsymm _); discriminate.
            + destruct d; try discriminate. destruct (is_bksymm _); discriminate.
            + pose proof (index_color_shape a) as Z. rewrite D in Z. destruct Z.
          - exfalso. pose proof (index_color_shape i) as Z. cbn in C. destruct o; try (rewrite <- C in Z; destruct Z; fail).
            destruct (is_bksymm _); rewrite <- C in Z; destruct Z.
          - destruct W as (_ & [] & _). }
        destruct Q as (m & o' & k' & ->).
        assert (F : m = n' /\ o' = flip_origin fl o).
        { destruct o.
          - assert (A : adj M (VBundle n' (xorb fl true)) (VSlot m o' k')) by (apply (mt_adj _ _ _ _ (Hf true) W); left; reflexivity).
            destruct A as [A|A]; [|cbn in A; tauto]. destruct fl; cbn in A |- *; destruct o'; try tauto; auto.
          - assert (A : adj M (VBundle n' (xorb fl false)) (VSlot m o' k')) by (apply (mt_adj _ _ _ _ (Hf false) W); left; reflexivity).
            destruct A as [A|A]; [|cbn in A; tauto]. destruct fl; cbn in A |- *; destruct o'; try tauto; auto.
          - assert (A : adj M (VCore n') (VSlot m o' k')) by (apply (mt_adj _ _ _ _ Hn W); left; reflexivity).
            destruct A as [A|A]; [|cbn in A; tauto]. cbn in A. destruct o'; try tauto. destruct fl; cbn; auto. }
        destruct F as (-> & ->). exists k'. split; auto. split.
        - intros ->. cbn in C. destruct fl; cbn in C; congruence.
        - intros Sy Cl. pose proof core_shade as Sh. unfold shade_of in Sh. injection Sh as _ _ _ _ E1 E2 E3.
          assert (Id : forall x, slot_color_id (ten N n) x = x) by (intros x; unfold slot_color_id; rewrite Sy, Cl; auto).
          assert (Id' : forall x, slot_color_id (ten M n') x = x) by (intros x; unfold slot_color_id; rewrite E1, E2, Sy, Cl; auto).
          cbn in C. destruct o, fl; cbn in C; rewrite ?Id, ?Id', ?E3 in C; try destruct (is_bksymm _); congruence.
      Qed.
      Lemma mt_col_slot k k' o : o <> OAux -> mt (VColumn n k) (VColumn n' k') -> k < length (bundle_of (ten N n) o) ->
        mt (VSlot n o k) (VSlot n' (flip_origin fl o) k').
      Proof.
        intros No Hc K. destruct (mt_slot o k) as (k'' & X & _); [split; auto; apply Hn|].
        assert (A : adj M (VColumn n' k') (VSlot n' (flip_origin fl o) k'')).
        { apply (mt_adj _ _ _ _ Hc X). left. destruct o; cbn; tauto. }
        destruct A as [A|A]; [|cbn in A; tauto]. destruct o, fl; cbn in A; try congruence; destruct A as (_ & ->); auto.
      Qed.
    End Core.

    Lemma mt_index i : vertex N (VIndex i) -> exists j, mt (VIndex i) (VIndex j) /\ index_color named true i = index_color named true j.
    Proof.
      intros V. destruct (mt_ex _ V) as (w & W). pose proof (mt_color _ _ W) as C. cbn in C. pose proof (index_color_shape i) as Z.
      destruct w as [m|m|m k|m b|m o k|j|ps]; cbn in C; try (rewrite C in Z; destruct Z; fail).
      - destruct b; [rewrite C in Z; destruct Z|]. destruct (is_bksymm _); rewrite C in Z; destruct Z.
      - destruct o; try (rewrite C in Z; destruct Z; fail). destruct (is_bksymm _); rewrite C in Z; destruct Z.
      - eauto.
    Qed.
    Lemma mt_name i j n n' o o' k k' : mt (VIndex i) (VIndex j) -> mt (VSlot n o k) (VSlot n' o' k') ->
      nth_error (bundle_of (ten N n) o) k = Some i -> nth_error (bundle_of (ten M n') o') k' = Some j.
    Proof.
      intros A B E. assert (X : adj M (VIndex j) (VSlot n' o' k')) by (apply (mt_adj _ _ _ _ A B); left; exact E).
      destruct X as [X|X]; [exact X|cbn in X; tauto].
    Qed.

    (** Names that agree. *)
    Variables r1 r2 : index -> index.
    Hypothesis Hr : forall i j, mt (VIndex i) (VIndex j) -> r1 i = r2 j.
    Lemma mt_names n n' o o' k k' : mt (VSlot n o k) (VSlot n' o' k') ->
      nth k (map r1 (bundle_of (ten N n) o)) null_index = nth k' (map r2 (bundle_of (ten M n') o')) null_index.
    Proof.
      intros X. pose proof X as ((L & K) & (L' & K') & _).
      destruct (nth_error (bundle_of (ten N n) o) k) as [i|] eqn:E; [|apply nth_error_None in E; lia].
      destruct (mt_index i) as (j & J & _); [apply (slot_index N n o k i); auto|].
      pose proof (mt_name i j n n' o o' k k' J X E) as E'.
      assert (G : forall (r : index -> index) l m x, nth_error l m = Some x -> nth m (map r l) null_index = r x).
      { intros r l m x Y. apply nth_error_nth. rewrite nth_error_map, Y. auto. }
      rewrite (G r1 _ _ _ E), (G r2 _ _ _ E'). auto.
    Qed.
  End Two.

  Lemma mt_sym N M p q v w : mt N M p q v w -> mt M N q p w v.
  Proof. intros (A & B & C). split; auto. Qed.
End Pair.
