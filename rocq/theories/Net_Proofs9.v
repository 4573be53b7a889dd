(** The canonical form by the graph is unique. *)
From Coq Require Import ZArith List Arith Bool Permutation Sorted Lia.
From Verif Require Import Alg_Model Alg_Spec Alg_Proofs1 Alg_Proofs2 Tsr_Model Tsr_Spec Tsr_Proofs2 Tsr_Proofs3 Tsr_Proofs4 Net_Model Net_Spec Net_Spec2 Net_Proofs2 Net_Proofs3 Net_Proofs4 Net_Proofs5 Net_Proofs6 Net_Proofs7 Net_Proofs8.
Import ListNotations.
Open Scope nat_scope.

Lemma flip_flip fl o : flip_origin fl (flip_origin fl o) = o.
Proof. destruct fl, o; auto. Qed.
Lemma flip_aux fl o : flip_origin fl o <> OAux <-> o <> OAux.
Proof. destruct fl, o; cbn; split; congruence. Qed.

(** What [permute_tensor] can turn. *)
Definition orientable (t : tensor) : Prop := t_col t = ColNonsymm -> t_symm t = Nonsymm /\ t_bk t <> BKSymm.

Section Tensor.
  Variable S : space -> Prop.
  Variable named : list index.
  Variables (N M : list tensor) (p q : vtx -> nat).
  Hypothesis H : matching named N M p q.
  Notation mt := (mt N M p q).
  Variables r1 r2 : index -> index.
  Hypothesis Hr : forall i j, mt (VIndex i) (VIndex j) -> r1 i = r2 j.
  Variables n n' : nat.
  Hypothesis Hn : mt (VCore n) (VCore n').
  Let t1 := renamed r1 (ten N n).
  Let t2 := renamed r2 (ten M n').
  Hypothesis P1 : proper S t1.
  Hypothesis P2 : proper S t2.
  Variable fl : bool.
  Hypothesis Hf : forall b, mt (VBundle n b) (VBundle n' (xorb fl b)).
  Hypothesis Hb : fl = true -> t_bk t1 = BKSymm.
  Hypothesis Or : orientable t1.

  Lemma Hf' b : Net_Proofs8.mt M N q p (VBundle n' b) (VBundle n (xorb fl b)).
  Proof. apply mt_sym. pose proof (Hf (xorb fl b)) as X. rewrite <- xorb_assoc, xorb_nilpotent, xorb_false_l in X. exact X. Qed.
  Lemma Hn' : Net_Proofs8.mt M N q p (VCore n') (VCore n).
  Proof. apply mt_sym. auto. Qed.

  Lemma len o : length (bundle_of t2 (flip_origin fl o)) = length (bundle_of t1 o).
  Proof.
    unfold t1, t2. rewrite !bundle_renamed, !map_length.
    exact (bundle_lengths named N M p q H n n' Hn fl Hf o).
  Qed.
  Lemma fields : t_label t2 = t_label t1 /\ t_symm t2 = t_symm t1 /\ t_bk t2 = t_bk t1 /\ t_col t2 = t_col t1.
  Proof.
    pose proof (core_shade named N M p q H n n' Hn) as Sh. unfold shade_of in Sh. injection Sh as E1 _ _ _ E2 E3 E4. cbn. auto.
  Qed.
  Lemma slot_partner o k : k < length (bundle_of t1 o) -> exists k', k' < length (bundle_of t2 (flip_origin fl o)) /\
    mt (VSlot n o k) (VSlot n' (flip_origin fl o) k') /\ nth k (bundle_of t1 o) null_index = nth k' (bundle_of t2 (flip_origin fl o)) null_index /\
    (o = OAux -> k' = k) /\ (t_symm t1 = Nonsymm -> t_col t1 = ColNonsymm -> k' = k).
  Proof.
    intros K. unfold t1 in K. rewrite bundle_renamed, map_length in K.
    destruct (mt_slot named N M p q H n n' Hn fl Hf o k) as (k' & X & A & B); [split; auto; apply Hn|].
    exists k'. unfold t1, t2. rewrite !bundle_renamed, map_length. split; [apply X|]. split; auto. split; [|split; auto].
    apply (mt_names named N M p q H r1 r2 Hr). auto.
  Qed.
  Lemma slot_partner' o k' : k' < length (bundle_of t2 (flip_origin fl o)) -> exists k, k < length (bundle_of t1 o) /\
    mt (VSlot n o k) (VSlot n' (flip_origin fl o) k').
  Proof.
    intros K. unfold t2 in K. rewrite bundle_renamed, map_length in K.
    destruct (mt_slot named M N q p (matching_sym _ _ _ _ _ H) n' n Hn' fl Hf' (flip_origin fl o) k') as (k & X & _); [split; auto; apply Hn|].
    rewrite flip_flip in X. exists k. unfold t1. rewrite bundle_renamed, map_length. split; [apply X|]. apply mt_sym. auto.
  Qed.
  Lemma p_inj u v : vertex N u -> vertex N v -> p u = p v -> u = v.
  Proof. destruct H as (_ & _ & X & _). apply X. Qed.
  Lemma q_inj u v : vertex M u -> vertex M v -> q u = q v -> u = v.
  Proof. destruct H as (_ & _ & _ & X & _). apply X. Qed.

  Lemma same_bundle o : (o = OAux \/ (t_symm t1 = Nonsymm /\ t_col t1 = ColNonsymm)) -> bundle_of t1 o = bundle_of t2 (flip_origin fl o).
  Proof.
    intros X. apply (nth_ext _ _ null_index null_index); [symmetry; apply len|]. intros k K.
    destruct (slot_partner o k K) as (k' & _ & _ & E & A & B). rewrite E. f_equal. destruct X as [X|(X & Y)]; auto.
  Qed.
  Lemma same_aux : t_aux t1 = t_aux t2.
  Proof. pose proof (same_bundle OAux (or_introl eq_refl)) as X. destruct fl; exact X. Qed.

  Lemma permute_align (f g : nat -> vtx) o l1 l2 : StronglySorted lt (map (fun k => p (f k)) l1) -> StronglySorted lt (map (fun k => q (g k)) l2) ->
    (forall k, In k l1 -> exists k', In k' l2 /\ mt (f k) (g k')) -> (forall k', In k' l2 -> exists k, In k l1 /\ mt (f k) (g k')) ->
    (forall k k', In k l1 -> In k' l2 -> mt (f k) (g k') -> mt (VSlot n o k) (VSlot n' (flip_origin fl o) k')) ->
    permute l1 (bundle_of t1 o) = permute l2 (bundle_of t2 (flip_origin fl o)).
  Proof.
    intros S1 S2 A B C. unfold permute. apply forall2_map.
    assert (F : Forall2 (fun x y => In x l1 /\ In y l2 /\ p (f x) = q (g y)) l1 l2).
    { apply (align (fun k => p (f k)) (fun k => q (g k))); auto.
      - intros x X. destruct (A x X) as (y & Y & Z). exists y. split; auto. apply Z.
      - intros y Y. destruct (B y Y) as (x & X & Z). exists x. split; auto. apply Z. }
    eapply forall2_imp; [|exact F]. cbv beta. intros x y (X & Y & E).
    assert (Z : mt (f x) (g y)).
    { destruct (A x X) as (y' & _ & (V & _ & _)). destruct (B y Y) as (x' & _ & (_ & W & _)). split; auto. }
    pose proof (C x y X Y Z) as T. unfold t1, t2. rewrite !bundle_renamed. apply (mt_names named N M p q H r1 r2 Hr). auto.
  Qed.

  (** Symmetric tensors. *)
  Lemma slot_keys o : NoDup (map (fun k => p (VSlot n o k)) (seq 0 (length (bundle_of t1 o)))).
  Proof.
    rewrite <- (map_map (VSlot n o) p). pose proof (seq_NoDup (length (bundle_of t1 o)) 0) as ND.
    assert (B : forall k, In k (seq 0 (length (bundle_of t1 o))) -> vertex N (VSlot n o k)).
    { intros k K. apply in_seq in K. split; [apply Hn|]. unfold t1 in K. rewrite bundle_renamed, map_length in K. lia. }
    induction ND as [|x l X ND IH]; cbn; constructor.
    - rewrite map_map, in_map_iff. intros (y & E & Y). apply p_inj in E; [|apply B; right; auto|apply B; left; auto]. injection E as ->. auto.
    - apply IH. intros k K. apply B. right; auto.
  Qed.
  Lemma slot_keys' o : NoDup (map (fun k => q (VSlot n' o k)) (seq 0 (length (bundle_of t2 o)))).
  Proof.
    rewrite <- (map_map (VSlot n' o) q). pose proof (seq_NoDup (length (bundle_of t2 o)) 0) as ND.
    assert (B : forall k, In k (seq 0 (length (bundle_of t2 o))) -> vertex M (VSlot n' o k)).
    { intros k K. apply in_seq in K. split; [apply Hn|]. unfold t2 in K. rewrite bundle_renamed, map_length in K. lia. }
    induction ND as [|x l X ND IH]; cbn; constructor.
    - rewrite map_map, in_map_iff. intros (y & E & Y). apply q_inj in E; [|apply B; right; auto|apply B; left; auto]. injection E as ->. auto.
    - apply IH. intros k K. apply B. right; auto.
  Qed.
  Lemma slots_same o pm1 pm2 s1 s2 :
    sort_ordinals (map (fun k => p (VSlot n o k)) (seq 0 (length (bundle_of t1 o)))) = Some (pm1, s1) ->
    sort_ordinals (map (fun k => q (VSlot n' (flip_origin fl o) k)) (seq 0 (length (bundle_of t2 (flip_origin fl o))))) = Some (pm2, s2) ->
    permute pm1 (bundle_of t1 o) = permute pm2 (bundle_of t2 (flip_origin fl o)) /\
    length (permute pm1 (bundle_of t1 o)) = length (bundle_of t1 o).
  Proof.
    intros E1 E2. apply (ordinals_keys (fun k => p (VSlot n o k))) in E1; [|apply slot_keys].
    apply (ordinals_keys (fun k => q (VSlot n' (flip_origin fl o) k))) in E2; [|apply slot_keys'].
    destruct E1 as (Pm1 & S1), E2 as (Pm2 & S2). split.
    - apply (permute_align (VSlot n o) (VSlot n' (flip_origin fl o))); auto.
      + intros k K. apply (Permutation_in _ (Permutation_sym Pm1)), in_seq in K. destruct (slot_partner o k) as (k' & L & X & _); [lia|].
        exists k'. split; auto. apply (Permutation_in _ Pm2), in_seq. lia.
      + intros k' K. apply (Permutation_in _ (Permutation_sym Pm2)), in_seq in K. destruct (slot_partner' o k') as (k & L & X); [lia|].
        exists k. split; auto. apply (Permutation_in _ Pm1), in_seq. lia.
    - rewrite permute_length, <- (Permutation_length Pm1), seq_length. auto.
  Qed.

  (** Tensors without symmetry. *)
  Lemma cols_len : num_cols t2 = num_cols t1.
  Proof.
    pose proof (len OBra) as A. pose proof (len OKet) as B. unfold num_cols. destruct fl; cbn [flip_origin bundle_of] in A, B; lia.
  Qed.
  Lemma min_len : Nat.min (length (t_bra t2)) (length (t_ket t2)) = Nat.min (length (t_bra t1)) (length (t_ket t1)).
  Proof.
    pose proof (len OBra) as A. pose proof (len OKet) as B. destruct fl; cbn [flip_origin bundle_of] in A, B; lia.
  Qed.
  Lemma cvertex k : t_symm t1 = Nonsymm -> k < num_cols t1 -> vertex N (VColumn n k).
  Proof. intros Sy K. split; [apply Hn|]. split; auto. unfold t1 in K. rewrite cols_renamed in K. auto. Qed.
  Lemma cvertex' k : t_symm t1 = Nonsymm -> k < num_cols t1 -> vertex M (VColumn n' k).
  Proof.
    intros Sy K. split; [apply Hn|]. destruct fields as (_ & E & _). rewrite <- cols_len in K. unfold t2 in K. rewrite cols_renamed in K.
    split; auto. unfold t2 in E. cbn in E. rewrite E. auto.
  Qed.
  Lemma col_partner k : t_symm t1 = Nonsymm -> k < num_cols t1 -> exists k', k' < num_cols t1 /\ mt (VColumn n k) (VColumn n' k').
  Proof.
    intros Sy K. destruct (mt_col named N M p q H n n' Hn k (cvertex k Sy K)) as (k' & X). exists k'. split; auto.
    destruct X as (_ & (_ & _ & X) & _). rewrite <- cols_len. unfold t2. rewrite cols_renamed. auto.
  Qed.
  Lemma col_partner' k' : t_symm t1 = Nonsymm -> k' < num_cols t1 -> exists k, k < num_cols t1 /\ mt (VColumn n k) (VColumn n' k').
  Proof.
    intros Sy K. destruct (mt_col named M N q p (matching_sym _ _ _ _ _ H) n' n Hn' k' (cvertex' k' Sy K)) as (k & X). exists k.
    split; [|apply mt_sym; auto]. destruct X as (_ & (_ & _ & X) & _). unfold t1. rewrite cols_renamed. auto.
  Qed.
  Lemma col_slot k k' o : o <> OAux -> mt (VColumn n k) (VColumn n' k') -> k < length (bundle_of t1 o) ->
    mt (VSlot n o k) (VSlot n' (flip_origin fl o) k').
  Proof.
    intros No X K. apply (mt_col_slot named N M p q H n n' Hn fl Hf); auto. unfold t1 in K. rewrite bundle_renamed, map_length in K. auto.
  Qed.
  Lemma col_slot' k k' o : o <> OAux -> mt (VColumn n k) (VColumn n' k') -> k' < length (bundle_of t2 (flip_origin fl o)) ->
    mt (VSlot n o k) (VSlot n' (flip_origin fl o) k').
  Proof.
    intros No X K. pose proof (mt_col_slot named M N q p (matching_sym _ _ _ _ _ H) n' n Hn' fl Hf' k' k (flip_origin fl o)) as Y.
    rewrite flip_flip in Y. apply mt_sym. apply Y; [apply flip_aux; auto|apply mt_sym; auto|].
    unfold t2 in K. rewrite bundle_renamed, map_length in K. auto.
  Qed.
  Lemma col_lt k k' o : o <> OAux -> mt (VColumn n k) (VColumn n' k') -> (k < length (bundle_of t1 o) <-> k' < length (bundle_of t2 (flip_origin fl o))).
  Proof.
    intros No X. split; intros K.
    - apply (col_slot k k' o) in K; auto. destruct K as (_ & (_ & K) & _). unfold t2. rewrite bundle_renamed, map_length. auto.
    - apply (col_slot' k k' o) in K; auto. destruct K as ((_ & K) & _). unfold t1. rewrite bundle_renamed, map_length. auto.
  Qed.
  Lemma col_min k k' : mt (VColumn n k) (VColumn n' k') ->
    (k < Nat.min (length (t_bra t1)) (length (t_ket t1)) <-> k' < Nat.min (length (t_bra t2)) (length (t_ket t2))).
  Proof.
    intros X. pose proof (col_lt k k' OBra ltac:(discriminate) X) as A. pose proof (col_lt k k' OKet ltac:(discriminate) X) as B.
    destruct fl; cbn [flip_origin bundle_of] in A, B; lia.
  Qed.
  Lemma col_keys : t_symm t1 = Nonsymm -> NoDup (map (fun k => p (VColumn n k)) (seq 0 (num_cols t1))).
  Proof.
    intros Sy. rewrite <- (map_map (VColumn n) p). pose proof (seq_NoDup (num_cols t1) 0) as ND.
    assert (B : forall k, In k (seq 0 (num_cols t1)) -> vertex N (VColumn n k)).
    { intros k K. apply in_seq in K. apply cvertex; auto. lia. }
    induction ND as [|x l X ND IH]; cbn; constructor.
    - rewrite map_map, in_map_iff. intros (y & E & Y). apply p_inj in E; [|apply B; right; auto|apply B; left; auto]. injection E as ->. auto.
    - apply IH. intros k K. apply B. right; auto.
  Qed.
  Lemma col_keys' : t_symm t1 = Nonsymm -> NoDup (map (fun k => q (VColumn n' k)) (seq 0 (num_cols t1))).
  Proof.
    intros Sy. rewrite <- (map_map (VColumn n') q). pose proof (seq_NoDup (num_cols t1) 0) as ND.
    assert (B : forall k, In k (seq 0 (num_cols t1)) -> vertex M (VColumn n' k)).
    { intros k K. apply in_seq in K. apply cvertex'; auto. lia. }
    induction ND as [|x l X ND IH]; cbn; constructor.
    - rewrite map_map, in_map_iff. intros (y & E & Y). apply q_inj in E; [|apply B; right; auto|apply B; left; auto]. injection E as ->. auto.
    - apply IH. intros k K. apply B. right; auto.
  Qed.
  Definition part (t : tensor) (o : origin) (perm : list nat) : list index :=
    let m := Nat.min (length (t_bra t)) (length (t_ket t)) in
    permute (filter (fun k => k <? m) perm) (bundle_of t o) ++
    (if m <? length (bundle_of t o) then permute (filter (fun k => negb (k <? m)) perm) (bundle_of t o) else []).
  Lemma parts_same o pm1 pm2 s1 s2 : o <> OAux -> t_symm t1 = Nonsymm ->
    sort_ordinals (map (fun k => p (VColumn n k)) (seq 0 (num_cols t1))) = Some (pm1, s1) ->
    sort_ordinals (map (fun k => q (VColumn n' k)) (seq 0 (num_cols t2))) = Some (pm2, s2) ->
    part t1 o pm1 = part t2 (flip_origin fl o) pm2.
  Proof.
    intros No Sy E1 E2. rewrite cols_len in E2. apply (ordinals_keys (fun k => p (VColumn n k))) in E1; [|apply col_keys; auto].
    apply (ordinals_keys (fun k => q (VColumn n' k))) in E2; [|apply col_keys'; auto].
    destruct E1 as (Pm1 & S1), E2 as (Pm2 & S2). unfold part. rewrite len. rewrite min_len. set (m := Nat.min _ _).
    assert (G1 : forall k, In k pm1 -> exists k', In k' pm2 /\ mt (VColumn n k) (VColumn n' k')).
    { intros k K. apply (Permutation_in _ (Permutation_sym Pm1)), in_seq in K. destruct (col_partner k Sy) as (k' & L & X); [lia|].
      exists k'. split; auto. apply (Permutation_in _ Pm2), in_seq. lia. }
    assert (G2 : forall k', In k' pm2 -> exists k, In k pm1 /\ mt (VColumn n k) (VColumn n' k')).
    { intros k K. apply (Permutation_in _ (Permutation_sym Pm2)), in_seq in K. destruct (col_partner' k Sy) as (k' & L & X); [lia|].
      exists k'. split; auto. apply (Permutation_in _ Pm1), in_seq. lia. }
    assert (Mn : forall k k', mt (VColumn n k) (VColumn n' k') -> (k <? m) = (k' <? m)).
    { intros k k' X. apply col_min in X. rewrite min_len in X. fold m in X.
      destruct (k <? m) eqn:A, (k' <? m) eqn:B; auto; rewrite ?Nat.ltb_lt, ?Nat.ltb_ge in *; lia. }
    assert (G : forall f, (forall k k', mt (VColumn n k) (VColumn n' k') -> f k = f k') ->
       (forall k, In k pm1 -> f k = true -> k < length (bundle_of t1 o)) ->
       permute (filter f pm1) (bundle_of t1 o) = permute (filter f pm2) (bundle_of t2 (flip_origin fl o))).
    { intros f Ff Fl. apply (permute_align (VColumn n) (VColumn n')).
      - apply (sorted_filter (fun k => p (VColumn n k))); auto.
      - apply (sorted_filter (fun k => q (VColumn n' k))); auto.
      - intros k K. apply filter_In in K. destruct K as (K & F). destruct (G1 k K) as (k' & K' & X). exists k'. split; auto.
        apply filter_In. split; auto. rewrite <- (Ff _ _ X). auto.
      - intros k K. apply filter_In in K. destruct K as (K & F). destruct (G2 k K) as (k' & K' & X). exists k'. split; auto.
        apply filter_In. split; auto. rewrite (Ff _ _ X). auto.
      - intros k k' K K' X. apply filter_In in K. destruct K as (K & F). apply col_slot; auto. }
    f_equal.
    - apply G; auto. intros k K F. apply Nat.ltb_lt in F. unfold m in F. destruct o; cbn [bundle_of]; try lia. contradiction.
    - destruct (m <? length (bundle_of t1 o)) eqn:X; auto. apply G.
      + intros k k' Y. rewrite (Mn _ _ Y). auto.
      + intros k K _. apply (Permutation_in _ (Permutation_sym Pm1)), in_seq in K. apply Nat.ltb_lt in X. unfold m, num_cols in *.
        destruct o; cbn [bundle_of] in *; try lia. contradiction.
  Qed.

  (** The orientation. *)
  Definition turned (pp : vtx -> nat) (k : nat) (v : tensor) : tensor :=
    if is_bksymm (t_bk v) && (pp (VBundle k false) <? pp (VBundle k true)) then swapped v else v.
  Lemma turn_some pp k v sg u s : t_bra_net v = length (t_bra v) -> t_ket_net v = length (t_ket v) ->
    (if is_bksymm (t_bk v) && (pp (VBundle k false) <? pp (VBundle k true)) then option_map (fun u : tensor => (u, sg : bool)) (swap_bra_ket v) else Some (v, sg)) = Some (u, s) ->
    u = turned pp k v.
  Proof.
    intros A B. unfold turned. destruct (is_bksymm (t_bk v) && _); [|intros [= <- <-]; auto].
    unfold swap_bra_ket. destruct (validate_indices _); [|discriminate]. fold (swapped v).
    cbn [option_map]. rewrite proper_keep; auto. intros [= <- <-]. auto.
  Qed.
  Lemma turned_same X1 X2 : (forall o, o <> OAux -> X1 o = X2 (flip_origin fl o)) ->
    turned p n (with_slots t1 (X1 OBra) (X1 OKet)) = turned q n' (with_slots t2 (X2 OBra) (X2 OKet)).
  Proof.
    intros E. destruct fields as (F1 & F2 & F3 & F4). pose proof same_aux as F5.
    pose proof (E OBra ltac:(discriminate)) as Eb. pose proof (E OKet ltac:(discriminate)) as Ek.
    assert (N1 : forall o, length (bundle_of t1 o) = length (bundle_of t2 (flip_origin fl o))) by (intros; symmetry; apply len).
    pose proof (N1 OBra) as Lb. pose proof (N1 OKet) as Lk.
    destruct P1 as (_ & B1 & K1), P2 as (_ & B2 & K2).
    assert (Q : forall b, p (VBundle n b) = q (VBundle n' (xorb fl b))) by (intros b; apply (Hf b)).
    assert (Ne : q (VBundle n' true) <> q (VBundle n' false)).
    { intros Y. apply q_inj in Y; try apply Hn. discriminate. }
    clearbody t1 t2. unfold turned. cbn [with_slots t_bk]. rewrite F3. rewrite !Q. unfold swapped, with_slots.
    cbn [t_label t_bra t_ket t_aux t_symm t_bk t_col t_bra_net t_ket_net].
    destruct fl; cbn [xorb flip_origin bundle_of] in *.
    - rewrite (Hb eq_refl). cbn [is_bksymm andb].
      destruct (q (VBundle n' true) <? q (VBundle n' false)) eqn:Y, (q (VBundle n' false) <? q (VBundle n' true)) eqn:Z;
        rewrite ?Nat.ltb_lt, ?Nat.ltb_ge in *; try lia.
      + rewrite F1, F2, F4, <- F5, Eb, Ek, B1, K1, B2, K2, Lb, Lk. rewrite F3, (Hb eq_refl). reflexivity.
      + rewrite F1, F2, F4, <- F5, Eb, Ek, B1, K1, B2, K2, Lb, Lk. rewrite F3, (Hb eq_refl). reflexivity.
    - rewrite F1, F2, F3, F4, <- F5, Eb, Ek, B1, K1, B2, K2, Lb, Lk. reflexivity.
  Qed.

  Lemma part_columns t : proper S t -> forall pm b k, Permutation (seq 0 (num_cols t)) pm -> permute_columns pm (t_bra t) (t_ket t) = Some (b, k) ->
    b = part t OBra pm /\ k = part t OKet pm /\ t_bra_net t = length (part t OBra pm) /\ t_ket_net t = length (part t OKet pm).
  Proof.
    intros (Fs & Nb & Nk) pm b k Pm E. unfold slots in Fs. rewrite !Forall_app in Fs. destruct Fs as (Fb & Fk & _).
    destruct (permute_columns_spec pm (t_bra t) (t_ket t) b k) as (A & B & C & D); auto.
    { eapply Forall_impl; [|exact Fb]. apply plain_null. }
    { eapply Forall_impl; [|exact Fk]. apply plain_null. }
    split; [exact A|]. split; [exact B|].
    apply Permutation_length in C, D. rewrite seq_length in C, D. unfold part. cbn [bundle_of]. rewrite !app_length, !permute_length, C.
    split.
    - rewrite Nb. destruct (_ <? length (t_bra t)) eqn:X; rewrite ?permute_length, ?D; rewrite ?Nat.ltb_lt, ?Nat.ltb_ge in X; cbn [length]; lia.
    - rewrite Nk. destruct (_ <? length (t_ket t)) eqn:X; rewrite ?permute_length, ?D; rewrite ?Nat.ltb_lt, ?Nat.ltb_ge in X; cbn [length]; lia.
  Qed.
  Lemma permute_same u1 u2 s1 s2 : permute_tensor p n t1 = Some (u1, s1) -> permute_tensor q n' t2 = Some (u2, s2) -> u1 = u2.
  Proof.
    unfold permute_tensor. destruct fields as (F1 & F2 & F3 & F4). pose proof same_aux as F5. rewrite F2, F4, cols_len.
    pose proof (len OBra) as Lb. pose proof (len OKet) as Lk.
    assert (Lsum : length (t_bra t2) + length (t_ket t2) = length (t_bra t1) + length (t_ket t1)) by (destruct fl; cbn [flip_origin bundle_of] in Lb, Lk; lia).
    assert (Whole : (forall o, o <> OAux -> bundle_of t1 o = bundle_of t2 o) -> t1 = t2).
    { intros X. pose proof (X OBra ltac:(discriminate)) as Xb. pose proof (X OKet ltac:(discriminate)) as Xk. cbn [bundle_of] in Xb, Xk.
      destruct P1 as (_ & B1 & K1), P2 as (_ & B2 & K2). rewrite Xb in B1. rewrite Xk in K1.
      clear - F1 F2 F3 F4 F5 Xb Xk B1 K1 B2 K2. clearbody t1 t2. destruct t1, t2. cbn in *. congruence. }
    destruct (t_col t1) eqn:Cl; cbn [is_colsymm negb].
    2: { intros [= <- _] [= <- _]. destruct (Or Cl) as (Sy & Nb). apply Whole. intros o _. rewrite (same_bundle o) by auto.
         assert (fl = false) as -> by (destruct fl; auto; destruct (Nb (Hb eq_refl))). auto. }
    destruct (is_nonsymm (t_symm t1)) eqn:Sy.
    - assert (Sy' : t_symm t1 = Nonsymm) by (destruct (t_symm t1); auto; discriminate).
      destruct (num_cols t1 =? 0) eqn:Z.
      { intros [= <- _] [= <- _]. apply Nat.eqb_eq in Z. unfold num_cols in Z. apply Whole.
        intros o No. assert (length (bundle_of t1 o) = 0 /\ length (bundle_of t2 o) = 0) as (A & B) by (destruct o; cbn [bundle_of]; try lia; contradiction).
        destruct (bundle_of t1 o), (bundle_of t2 o); cbn in *; try discriminate; auto. }
      destruct (sort_ordinals (map (fun k => p (VColumn n k)) (seq 0 (num_cols t1)))) as [(pm1, sp1)|] eqn:O1; [|discriminate].
      destruct (permute_columns pm1 (t_bra t1) (t_ket t1)) as [(b1, k1)|] eqn:C1; [|discriminate]. cbn [option_map fst snd].
      destruct (sort_ordinals (map (fun k => q (VColumn n' k)) (seq 0 (num_cols t1)))) as [(pm2, sp2)|] eqn:O2; [|discriminate].
      destruct (permute_columns pm2 (t_bra t2) (t_ket t2)) as [(b2, k2)|] eqn:C2; [|discriminate]. cbn [option_map fst snd].
      destruct (part_columns t1 P1 pm1 b1 k1) as (-> & -> & Wb1 & Wk1); auto.
      { apply (ordinals_keys (fun k => p (VColumn n k))) in O1; [|apply col_keys; auto]. apply O1. }
      destruct (part_columns t2 P2 pm2 b2 k2) as (-> & -> & Wb2 & Wk2); auto.
      { rewrite cols_len. apply (ordinals_keys (fun k => q (VColumn n' k))) in O2; [|apply col_keys'; auto]. apply O2. }
      intros U1 U2. apply turn_some in U1; auto. apply turn_some in U2; auto. subst u1 u2.
      apply (turned_same (fun o => part t1 o pm1) (fun o => part t2 o pm2)).
      intros o No. rewrite <- cols_len in O2. eapply parts_same; eauto.
    - rewrite Lsum. destruct (length (t_bra t1) + length (t_ket t1) =? 0) eqn:Z.
      { intros [= <- _] [= <- _]. apply Nat.eqb_eq in Z. apply Whole.
        intros o No. assert (length (bundle_of t1 o) = 0 /\ length (bundle_of t2 o) = 0) as (A & B) by (destruct o; cbn [bundle_of]; try lia; contradiction).
        destruct (bundle_of t1 o), (bundle_of t2 o); cbn in *; try discriminate; auto. }
      destruct (sort_ordinals (map (fun k => p (VSlot n OBra k)) (seq 0 (length (t_bra t1))))) as [(b1, sb1)|] eqn:B1; [|discriminate].
      destruct (sort_ordinals (map (fun k => p (VSlot n OKet k)) (seq 0 (length (t_ket t1))))) as [(k1, sk1)|] eqn:K1; [|discriminate].
      destruct (sort_ordinals (map (fun k => q (VSlot n' OBra k)) (seq 0 (length (t_bra t2))))) as [(b2, sb2)|] eqn:B2; [|discriminate].
      destruct (sort_ordinals (map (fun k => q (VSlot n' OKet k)) (seq 0 (length (t_ket t2))))) as [(k2, sk2)|] eqn:K2; [|discriminate].
      set (Y1 := fun o => match o with OBra => permute b1 (t_bra t1) | OKet => permute k1 (t_ket t1) | OAux => [] end).
      set (Y2 := fun o => match o with OBra => permute b2 (t_bra t2) | OKet => permute k2 (t_ket t2) | OAux => [] end).
      assert (Y : forall o, o <> OAux -> Y1 o = Y2 (flip_origin fl o) /\ length (Y1 o) = length (bundle_of t1 o)).
      { intros o No. pose proof (fun a b c d => slots_same o a b c d) as T. destruct fl, o; try contradiction; cbn [flip_origin bundle_of Y1 Y2] in *; eapply T; eauto. }
      pose proof (Y OBra ltac:(discriminate)) as (Yb & Wb). pose proof (Y OKet ltac:(discriminate)) as (Yk & Wk).
      destruct P1 as (_ & Nb1 & Nk1), P2 as (_ & Nb2 & Nk2).
      intros U1 U2. apply turn_some in U1; [|change (t_bra_net t1 = length (Y1 OBra)); rewrite Wb; exact Nb1|change (t_ket_net t1 = length (Y1 OKet)); rewrite Wk; exact Nk1].
      apply turn_some in U2.
      + subst u1 u2. apply (turned_same Y1 Y2). intros o No. apply Y. auto.
      + change (t_bra_net t2 = length (Y2 OBra)). rewrite Nb2. destruct fl; cbn [flip_origin] in Yb, Yk.
        * rewrite <- Yk, Wk. cbn [flip_origin bundle_of] in *. lia.
        * rewrite <- Yb, Wb. cbn [flip_origin bundle_of] in *. lia.
      + change (t_ket_net t2 = length (Y2 OKet)). rewrite Nk2. destruct fl; cbn [flip_origin] in Yb, Yk.
        * rewrite <- Yb, Wb. cbn [flip_origin bundle_of] in *. lia.
        * rewrite <- Yk, Wk. cbn [flip_origin bundle_of] in *. lia.
  Qed.
End Tensor.
