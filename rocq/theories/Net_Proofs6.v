(** The graph that the code makes is the graph of the network; networks with the same canonical graph
    have isomorphic graphs. *)
From Coq Require Import ZArith List Arith Bool Permutation Lia.
From Verif Require Import Alg_Model Alg_Spec Tsr_Model Tsr_Spec Tsr_Proofs2 Net_Model Net_Spec Net_Spec2 Net_Proofs2 Net_Proofs3 Net_Proofs4 Net_Proofs5.
Import ListNotations.
Open Scope nat_scope.

Lemma nodup_app {A} (l m : list A) : NoDup l -> NoDup m -> (forall x, In x l -> In x m -> False) -> NoDup (l ++ m).
Proof.
  induction 1 as [|x l X N IH]; cbn; auto. intros M D. constructor.
  - rewrite in_app_iff. intros [H|H]; auto. apply (D x); auto.
  - apply IH; auto. intros y Y. apply D. auto.
Qed.
Lemma nodup_flat_map {A B} (f : A -> list B) l : NoDup l -> (forall x, In x l -> NoDup (f x)) ->
  (forall x y z, In x l -> In y l -> In z (f x) -> In z (f y) -> x = y) -> NoDup (flat_map f l).
Proof.
  induction 1 as [|x l X N IH]; cbn; intros F D; [constructor|]. apply nodup_app.
  - apply F. auto.
  - apply IH; [intros; apply F; auto|]. intros a b z Ha Hb. apply D; auto.
  - intros z Z Z'. apply in_flat_map in Z'. destruct Z' as (y & Y & Z'). assert (x = y) by (apply (D x y z); auto). subst. auto.
Qed.
Lemma nodup_map_inj {A B} (f : A -> B) l : (forall x y, f x = f y -> x = y) -> NoDup l -> NoDup (map f l).
Proof.
  intros I. induction 1 as [|x l X N IH]; cbn; constructor; auto. intros H. apply in_map_iff in H. destruct H as (y & E & H).
  apply I in E. subst. auto.
Qed.

Lemma number_from {A} (l : list A) : forall k n x, In (n, x) (combine (seq k (length l)) l) <-> k <= n /\ nth_error l (n - k) = Some x.
Proof.
  induction l as [|y l IH]; intros k n x; cbn.
  - split; [tauto|]. intros (_ & H). destruct (n - k); discriminate.
  - rewrite IH. split.
    + intros [[= <- <-]|(L & E)]; [rewrite Nat.sub_diag; auto|]. split; [lia|]. replace (n - k) with (S (n - S k)) by lia. auto.
    + intros (L & E). destruct (Nat.eq_dec k n) as [->|Ne].
      * rewrite Nat.sub_diag in E. cbn in E. left. congruence.
      * right. split; [lia|]. replace (n - k) with (S (n - S k)) in E by lia. auto.
Qed.
Lemma number_in N n t : In (n, t) (number N) <-> n < length N /\ t = ten N n.
Proof.
  unfold number. rewrite number_from, Nat.sub_0_r. split.
  - intros (_ & E). assert (L : n < length N) by (apply nth_error_Some; congruence). split; auto. rewrite ten_nth in E by auto. congruence.
  - intros (L & ->). split; [lia|]. apply ten_nth. auto.
Qed.
Lemma number_nodup {A} (l : list A) : forall k, NoDup (combine (seq k (length l)) l).
Proof.
  induction l as [|x l IH]; intros k; cbn; constructor; auto. intros H. apply number_from in H. lia.
Qed.

(** The vertices of one tensor. *)
Definition tensor_of (v : vtx) : option nat :=
  match v with
  | VCore n | VBraKet n | VColumn n _ | VBundle n _ | VSlot n _ _ => Some n
  | _ => None
  end.
Definition tvertex (n : nat) (t : tensor) (v : vtx) : Prop :=
  match v with
  | VCore m | VBraKet m | VBundle m _ => m = n
  | VColumn m k => m = n /\ t_symm t = Nonsymm /\ k < num_cols t
  | VSlot m o k => m = n /\ k < length (bundle_of t o)
  | _ => False
  end.
Lemma column_verts_in n t v : In v (column_verts n t) <-> exists k, v = VColumn n k /\ t_symm t = Nonsymm /\ k < num_cols t.
Proof.
  unfold column_verts. destruct (t_symm t); cbn.
  1,2: split; [tauto|]; intros (k & _ & H & _); discriminate.
  rewrite in_map_iff. split.
  - intros (k & <- & K). apply in_seq in K. exists k. split; auto. split; auto. lia.
  - intros (k & -> & _ & K). exists k. split; auto. apply in_seq. lia.
Qed.
Lemma slot_verts_in n t o v : In v (slot_verts n t o) <-> exists k, v = VSlot n o k /\ k < length (bundle_of t o).
Proof.
  unfold slot_verts. rewrite in_map_iff. split.
  - intros (k & <- & K). apply in_seq in K. exists k. split; auto. lia.
  - intros (k & -> & K). exists k. split; auto. apply in_seq. lia.
Qed.
Lemma tensor_verts_in n t v : In v (tensor_verts n t) <-> tvertex n t v.
Proof.
  unfold tensor_verts. cbn [In]. rewrite in_app_iff. cbn [In]. rewrite !in_app_iff, column_verts_in, !slot_verts_in. split.
  - intros [<-|[<-|[(k & -> & A & B)|[<-|[<-|[(k & -> & B)|[(k & -> & B)|(k & -> & B)]]]]]]]; cbn; auto.
  - destruct v as [m|m|m k|m b|m o k|i|ps]; cbn; try tauto.
    + intros ->; auto.
    + intros ->; auto.
    + intros (-> & A & B). right; right; left. eauto.
    + intros ->. destruct b; [do 3 right; left|do 4 right; left]; auto.
    + intros (-> & B). destruct o; [do 5 right; left|do 6 right; left|do 7 right]; eauto.
Qed.
Lemma tensor_verts_nodup n t : NoDup (tensor_verts n t).
Proof.
  unfold tensor_verts.
  assert (C : NoDup (column_verts n t)).
  { unfold column_verts. destruct (is_nonsymm (t_symm t)); [|constructor]. apply nodup_map_inj; [congruence|apply seq_NoDup]. }
  assert (Sl : forall o, NoDup (slot_verts n t o)) by (intros; apply nodup_map_inj; [congruence|apply seq_NoDup]).
  assert (X : forall v, In v (slot_verts n t OBra ++ slot_verts n t OKet ++ slot_verts n t OAux) -> exists o k, v = VSlot n o k).
  { intros v. rewrite !in_app_iff, !slot_verts_in. intros [(k & -> & _)|[(k & -> & _)|(k & -> & _)]]; eauto. }
  constructor; [|constructor; [|apply nodup_app; auto; [constructor; [|constructor]|]]].
  - cbn [In]. rewrite in_app_iff. cbn [In]. rewrite column_verts_in. intros [H|[(k & H & _)|[H|[H|H]]]]; try discriminate.
    apply X in H. destruct H as (o & k & H). discriminate.
  - rewrite in_app_iff. cbn [In]. rewrite column_verts_in. intros [(k & H & _)|[H|[H|H]]]; try discriminate.
    apply X in H. destruct H as (o & k & H). discriminate.
  - cbn [In]. intros [H|H]; try discriminate. apply X in H. destruct H as (o & k & H). discriminate.
  - intros H. apply X in H. destruct H as (o & k & H). discriminate.
  - apply nodup_app; auto; [apply nodup_app; auto|].
    + intros v. rewrite !slot_verts_in. intros (k & -> & _) (k' & H & _). discriminate.
    + intros v. rewrite in_app_iff, !slot_verts_in. intros (k & -> & _) [(k' & H & _)|(k' & H & _)]; discriminate.
  - intros v. rewrite column_verts_in. cbn [In]. intros (k & -> & _) [H|[H|H]]; try discriminate.
    apply X in H. destruct H as (o & k' & H). discriminate.
Qed.

(** The edges of one tensor. *)
Definition tarrow (u v : vtx) : Prop :=
  match u, v with
  | VIndex _, _ => False
  | _, _ => arrow [] u v
  end.
Lemma tensor_edges_in n t u v : In (u, v) (tensor_edges n t) <-> tvertex n t u /\ tvertex n t v /\ tarrow u v.
Proof.
  unfold tensor_edges. cbn [In]. rewrite in_app_iff. cbn [In]. rewrite !in_app_iff, !in_map_iff, !in_flat_map. split.
  - intros [[= <- <-]|[(x & [= <- <-] & X)|[[= <- <-]|[[= <- <-]|[(k & K & X)|[(k & K & X)|(x & [= <- <-] & X)]]]]]]; try (cbn; auto; fail).
    + apply column_verts_in in X. destruct X as (k & -> & A & B). cbn. auto.
    + apply in_seq in K. cbn in X. destruct X as [[= <- <-]|X]; [cbn; intuition lia|].
      destruct (t_symm t) eqn:Q; cbn in X; try tauto. destruct X as [[= <- <-]|[]]. cbn. unfold num_cols. intuition lia.
    + apply in_seq in K. cbn in X. destruct X as [[= <- <-]|X]; [cbn; intuition lia|].
      destruct (t_symm t) eqn:Q; cbn in X; try tauto. destruct X as [[= <- <-]|[]]. cbn. unfold num_cols. intuition lia.
    + apply slot_verts_in in X. destruct X as (k & -> & A). cbn. auto.
  - intros (U & V & A).
    destruct u as [m|m|m k|m b|m o k|i|ps], v as [m'|m'|m' j|m' b'|m' o' j|i'|ps']; cbn in U, V, A; try tauto; try (destruct b; tauto).
    + subst; auto.
    + right; left. exists (VColumn m' j). destruct V as (-> & V). subst. split; auto. apply column_verts_in. eauto.
    + destruct o'; try tauto. do 6 right. exists (VSlot m' OAux j). destruct V as (-> & V). subst. split; auto. apply slot_verts_in. eauto.
    + subst. destruct b'; auto.
    + destruct U as (-> & U1 & U2), V as (-> & V). destruct o'; try tauto; destruct A as (_ & <-).
      * do 4 right; left. exists k. split; [apply in_seq; cbn in V; lia|]. rewrite U1. cbn. auto.
      * do 5 right; left. exists k. split; [apply in_seq; cbn in V; lia|]. rewrite U1. cbn. auto.
    + destruct V as (-> & V). subst m. destruct b, o'; try tauto.
      * do 4 right; left. exists j. split; [apply in_seq; cbn in V; lia|]. cbn. auto.
      * do 5 right; left. exists j. split; [apply in_seq; cbn in V; lia|]. cbn. auto.
Qed.

Section Graph.
  Variable S : space -> Prop.
  Hypothesis R : one_registry S.
  Notation plain := (plain S).

  Lemma bundle_refs_in o m s l : forall k i v, In (i, v) (bundle_refs o m s k l) <-> exists j, v = mkvref o m (k + j) s /\ nth_error l j = Some i.
  Proof.
    induction l as [|x l IH]; intros k i v; cbn.
    - split; [tauto|]. intros ([|j] & _ & H); discriminate.
    - rewrite IH. split.
      + intros [[= -> <-]|(j & -> & E)]; [exists 0; rewrite Nat.add_0_r; auto|]. exists (Datatypes.S j). split; auto. f_equal. lia.
      + intros ([|j] & -> & E); cbn in E; [left; rewrite Nat.add_0_r; congruence|]. right. exists j. split; auto. f_equal. lia.
  Qed.
  Definition slot_symm (t : tensor) (o : origin) : symmetry := match o with OAux => Nonsymm | _ => t_symm t end.
  Lemma tensor_refs_in n t i v : In (i, v) (tensor_refs n t) <->
    exists o k, v = mkvref o n k (slot_symm t o) /\ nth_error (bundle_of t o) k = Some i.
  Proof.
    unfold tensor_refs. rewrite !in_app_iff, !bundle_refs_in. cbn. split.
    - intros [(j & -> & E)|[(j & -> & E)|(j & -> & E)]]; [exists OBra, j|exists OKet, j|exists OAux, j]; auto.
    - intros ([] & k & -> & E); cbn in *; eauto.
  Qed.
  Lemma refs_in ts : forall m i v, In (i, v) (refs m ts) <->
    exists n o k, n < length ts /\ v = mkvref o (m + n) k (slot_symm (ten ts n) o) /\ nth_error (bundle_of (ten ts n) o) k = Some i.
  Proof.
    induction ts as [|t ts IH]; intros m i v; cbn [refs].
    - split; [intros []|]. intros (n & _ & _ & L & _). cbn in L. lia.
    - rewrite in_app_iff, tensor_refs_in, IH. cbn [length]. split.
      + intros [(o & k & -> & E)|(n & o & k & L & -> & E)].
        * exists 0, o, k. rewrite Nat.add_0_r. split; [lia|]. auto.
        * exists (Datatypes.S n), o, k. split; [lia|]. split; auto. f_equal. lia.
      + intros ([|n] & o & k & L & -> & E).
        * left. exists o, k. rewrite Nat.add_0_r. auto.
        * right. exists n, o, k. split; [lia|]. split; auto. f_equal. lia.
  Qed.

  Variable named : list index.
  Hypothesis Pn : Forall plain named.
  Hypothesis On : ordered named.

  Section One.
    Variable ts : list tensor.
    Variable info : edges_info.
    Hypothesis Pt : Forall plain (indices ts).
    Hypothesis Hi : init_edges ts = Some info.
    Let g := create_graph named true ts info.

    Lemma edges_idx i : In i (map e_idx (ei_edges info)) <-> In i (indices ts).
    Proof. pose proof (init_edges_spec S R ts info Pt Hi) as ((_ & I & _) & _). rewrite I, refs_fst. tauto. Qed.
    Lemma edges_plain : Forall plain (map e_idx (ei_edges info)).
    Proof. apply Forall_forall. intros i I. apply edges_idx in I. rewrite Forall_forall in Pt. auto. Qed.
    Lemma edges_nodup : NoDup (map e_idx (ei_edges info)).
    Proof.
      pose proof (init_edges_spec S R ts info Pt Hi) as ((O & _ & _) & _). apply (ordered_nodup S R); auto. apply edges_plain.
    Qed.
    Lemma pure_nil : ei_pure info = [].
    Proof. apply (init_edges_spec S R ts info Pt Hi). Qed.
    Lemma bundles_nil : bundles (ei_edges info) = [].
    Proof.
      unfold bundles. pose proof edges_plain as P. induction (ei_edges info) as [|e es IH]; cbn; auto. inversion P; subst.
      destruct H1 as (_ & _ & -> & _). auto.
    Qed.
    Lemma graph_verts v : In v (g_verts g) <-> vertex ts v.
    Proof.
      unfold g, create_graph. cbn [g_verts]. rewrite pure_nil, bundles_nil, !in_app_iff, in_flat_map, in_map_iff. cbn [map In].
      split.
      - intros [((n, t) & I & V)|[(e & <- & E)|[[]|[]]]].
        + apply number_in in I. destruct I as (L & ->). apply tensor_verts_in in V. cbn [fst snd] in V.
          destruct v as [m|m|m k|m b|m o k|i|ps]; cbn in V |- *; try tauto; try (subst; auto; fail);
            destruct V as (-> & V); auto.
        + cbn. apply edges_idx. apply in_map. auto.
      - assert (T : forall n, n < length ts -> tvertex n (ten ts n) v -> exists x, In x (number ts) /\ In v (tensor_verts (fst x) (snd x))).
        { intros n L V. exists (n, ten ts n). split; [apply number_in; auto|]. apply tensor_verts_in. auto. }
        destruct v as [m|m|m k|m b|m o k|i|ps]; cbn; intros V; try tauto; try (left; apply (T m); cbn; tauto).
        right; left. apply edges_idx in V. apply in_map_iff in V. destruct V as (e & <- & E). eauto.
    Qed.
    Lemma graph_nodup : NoDup (g_verts g).
    Proof.
      unfold g, create_graph. cbn [g_verts]. rewrite pure_nil, bundles_nil, !app_nil_r. apply nodup_app.
      - apply nodup_flat_map.
        + apply number_nodup.
        + intros x _. apply tensor_verts_nodup.
        + intros (n, t) (m, u) z A B X Y. apply number_in in A, B. destruct A as (_ & ->), B as (_ & ->).
          apply tensor_verts_in in X, Y. cbn [fst snd] in *. assert (n = m); [|subst; auto].
          destruct z; cbn in X, Y; try tauto; try congruence; destruct X, Y; congruence.
      - rewrite <- map_map. apply nodup_map_inj; [congruence|]. apply edges_nodup.
      - intros v X Y. apply in_map_iff in Y. destruct Y as (e & <- & _). apply in_flat_map in X. destruct X as (x & _ & X).
        apply tensor_verts_in in X. cbn in X. auto.
    Qed.
    Lemma graph_edges u v : In (u, v) (g_edges g) <-> vertex ts u /\ vertex ts v /\ arrow ts u v.
    Proof.
      unfold g, create_graph. cbn [g_edges]. rewrite bundles_nil, !in_app_iff, !in_flat_map. split.
      - intros [((n, t) & I & E)|[(e & E & X)|(x & [] & _)]].
        + apply number_in in I. destruct I as (L & ->). apply tensor_edges_in in E. cbn [fst snd] in E. destruct E as (U & V & A).
          assert (W : forall w, tvertex n (ten ts n) w -> vertex ts w).
          { intros w. destruct w; cbn; try tauto; try (intros ->; auto; fail); intros (-> & H); auto. }
          split; auto. split; auto. destruct u, v; cbn in *; tauto.
        + apply in_app_iff in X. destruct X as [X|X].
          { pose proof edges_plain as P. rewrite Forall_forall in P. destruct (P (e_idx e) (in_map _ _ _ E)) as (_ & _ & Q & _). rewrite Q in X. destruct X. }
          apply in_map_iff in X. destruct X as (w & [= <- <-] & W).
          pose proof (init_edges_spec S R ts info Pt Hi) as ((_ & _ & At) & _). apply (Permutation_in _ (At e E)) in W.
          unfold at_index in W. apply in_map_iff in W. destruct W as ((i, w') & <- & W). apply filter_In in W. destruct W as (W & Q).
          cbn in Q. destruct (index_eq_dec i (e_idx e)) as [->|]; [|discriminate]. apply refs_in in W. destruct W as (n & o & k & L & -> & Nth).
          cbn. split; [apply edges_idx; apply in_map; auto|]. split; auto. split; auto. apply nth_error_Some. congruence.
      - intros (U & V & A).
        assert (T : forall n, tensor_of u = Some n -> tensor_of v = Some n -> tarrow u v ->
           exists x, In x (number ts) /\ In (u, v) (tensor_edges (fst x) (snd x))).
        { intros n Tu Tv Ta. exists (n, ten ts n). split.
          - apply number_in. split; auto. destruct u; cbn in Tu, U; try discriminate; injection Tu as ->; tauto.
          - apply tensor_edges_in. cbn [fst snd]. split; [|split; auto].
            + destruct u; cbn in Tu, U |- *; try discriminate; injection Tu as ->; tauto.
            + destruct v; cbn in Tv, V |- *; try discriminate; injection Tv as ->; tauto. }
        destruct u as [m|m|m k|m b|m o k|i|ps], v as [m'|m'|m' j|m' b'|m' o' j|i'|ps']; cbn in A; try tauto; try (destruct b; tauto).
        1,2,3,4,5,6: left; apply (T m); cbn; auto; try (f_equal; try destruct o'; try destruct b; try tauto; intuition congruence).
        right; left. cbn in U, V. apply edges_idx in U. apply in_map_iff in U. destruct U as (e & <- & E). exists e. split; auto.
        apply in_app_iff. right. apply in_map_iff. exists (mkvref o' m' j (slot_symm (ten ts m') o')). split; auto.
        pose proof (init_edges_spec S R ts info Pt Hi) as ((_ & _ & At) & _). apply (Permutation_in _ (Permutation_sym (At e E))).
        unfold at_index. apply in_map_iff. exists (e_idx e, mkvref o' m' j (slot_symm (ten ts m') o')). split; auto. apply filter_In. split.
        + apply refs_in. exists m', o', j. tauto.
        + cbn. destruct (index_eq_dec (e_idx e) (e_idx e)); congruence.
    Qed.
    Lemma graph_color v : vertex ts v -> g_color g v = match v with VIndex i => index_color named true i | _ => tcol ts v end.
    Proof.
      unfold g, create_graph. cbn [g_color]. intros V.
      destruct v as [m|m|m k|m b|m o k|i|ps]; cbn in V; auto; try (rewrite ten_nth by tauto; reflexivity). tauto.
    Qed.
  End One.

  Lemma named_pos_inj i j : In i named -> In j named -> named_pos named i = named_pos named j -> i = j.
  Proof.
    induction Pn as [|n l P F IH]; cbn; [tauto|]. inversion On; subst. intros I J.
    assert (Pl : forall x, In x (n :: l) -> plain x) by (intros x [<-|X]; auto; rewrite Forall_forall in F; auto).
    destruct (negb (full_label_less n i) && negb (full_label_less i n)) eqn:E1; destruct (negb (full_label_less n j) && negb (full_label_less j n)) eqn:E2; try discriminate.
    - intros _. apply (same_label S R) in E1, E2; auto; try congruence; apply Pl; auto.
    - intros [= E]. assert (n <> i) by (intros ->; rewrite (proj2 (same_label S R i i (Pl i I) (Pl i I)) eq_refl) in E1; discriminate).
      assert (n <> j) by (intros ->; rewrite (proj2 (same_label S R j j (Pl j J) (Pl j J)) eq_refl) in E2; discriminate).
      apply IH; auto; tauto.
  Qed.

  (** The colours of indices. *)
  Lemma index_color_same i j : plain i -> plain j -> index_color named true i = index_color named true j <->
    ix_space j = ix_space i /\ (In i named -> j = i) /\ (~ In i named -> ~ In j named).
  Proof.
    intros Pi Pj. unfold index_color.
    assert (Sp : attr_of i = attr_of j <-> ix_space j = ix_space i).
    { split; [|unfold attr_of; congruence]. intros [= A B]. destruct Pi as (Si & _), Pj as (Sj & _). apply R; auto. }
    assert (Sp' : fst (attr_of i) = fst (attr_of j) /\ snd (attr_of i) = snd (attr_of j) <-> ix_space j = ix_space i).
    { rewrite <- Sp. destruct (attr_of i), (attr_of j); cbn. split; [intros (-> & ->); auto|intros [= -> ->]; auto]. }
    assert (Qi : ix_protos i = []) by apply Pi. assert (Qj : ix_protos j = []) by apply Pj. rewrite Qi, Qj.
    destruct (named_in named i) eqn:Ni; destruct (named_in named j) eqn:Nj.
    - apply (named_in_spec S R) in Ni, Nj; auto. split; [|intros (_ & H & _); rewrite H; auto].
      intros [= H]. apply named_pos_inj in H; auto. subst. auto.
    - apply (named_in_spec S R) in Ni; auto. apply (named_in_false S R) in Nj; auto. split; [discriminate|]. intros (_ & H & _). rewrite H in Nj; tauto.
    - apply (named_in_spec S R) in Nj; auto. apply (named_in_false S R) in Ni; auto. split; [discriminate|]. intros (_ & _ & H). tauto.
    - apply (named_in_false S R) in Ni, Nj; auto. split.
      + intros [= A B]. split; [apply Sp'; auto|]. tauto.
      + intros (H & _). apply Sp' in H. destruct H as (-> & ->). auto.
  Qed.

  Lemma iso_isomorphic ts1 ts2 info1 info2 : Forall plain (indices ts1) -> Forall plain (indices ts2) ->
    init_edges ts1 = Some info1 -> init_edges ts2 = Some info2 -> iso named ts1 ts2 ->
    isomorphic (create_graph named true ts1 info1) (create_graph named true ts2 info2).
  Proof.
    intros P1 P2 I1 I2 (f & g & A & B & C). exists f. split; [|split].
    - apply NoDup_Permutation.
      + pose proof (graph_nodup ts1 info1 P1 I1) as ND. pose proof (graph_verts ts1 info1 P1 I1) as V.
        assert (Inj : forall u v, vertex ts1 u -> vertex ts1 v -> f u = f v -> u = v).
        { intros u v U V' E. destruct (A u U) as (_ & <- & _), (A v V') as (_ & <- & _). congruence. }
        assert (Al : forall v, In v (g_verts (create_graph named true ts1 info1)) -> vertex ts1 v) by (intros v; apply V).
        clear V. induction ND as [|x l X ND IH]; cbn; constructor.
        * intros Y. apply in_map_iff in Y. destruct Y as (y & E & Y). apply Inj in E; [subst; auto|apply Al; right; auto|apply Al; left; auto].
        * apply IH. intros v Y. apply Al. right; auto.
      + apply (graph_nodup ts2 info2 P2 I2).
      + intros w. rewrite (graph_verts ts2 info2 P2 I2), in_map_iff. split.
        * intros (v & <- & V). apply (graph_verts ts1 info1 P1 I1) in V. apply A; auto.
        * intros W. destruct (B w W) as (V & E). exists (g w). split; auto. apply (graph_verts ts1 info1 P1 I1). auto.
    - intros v V. apply (graph_verts ts1 info1 P1 I1) in V. destruct (A v V) as (W & _ & Sm).
      rewrite (graph_color ts2 info2) by auto. rewrite (graph_color ts1 info1) by auto.
      destruct v, (f _) eqn:E; cbn in Sm, V, W |- *; try tauto. symmetry. apply index_color_same; auto; rewrite Forall_forall in P1, P2; auto.
    - intros u v U V. apply (graph_verts ts1 info1 P1 I1) in U, V. unfold adjacent.
      rewrite (graph_edges ts1 info1 P1 I1), (graph_edges ts1 info1 P1 I1 v u), (graph_edges ts2 info2 P2 I2), (graph_edges ts2 info2 P2 I2 (f v)).
      rewrite (C u v U V), (C v u V U). destruct (A u U) as (U' & _), (A v V) as (V' & _). tauto.
  Qed.
End Graph.
