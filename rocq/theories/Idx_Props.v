(** Properties of the functions that determine the indices of an expression: C39, C41, C60-C64. *)
From Coq Require Import List Arith Bool Lia Permutation.
From Verif Require Import Idx_Model Idx_Spec Idx_Proofs1 Idx_Proofs2.
Import ListNotations.

(** ** C39: get_unique_indices *)

(** For a tensor: exactly the indices that occur once, in order, each in the group of its slot. *)
Theorem C39_tensor t : get_unique_indices (Tens t) = Ret (once_groups (tensor_occ t)).
Proof. cbn. f_equal. apply tensor_unique_once. Qed.

(** For a product: exactly the indices that are unique in exactly one factor. *)
Theorem C39_product l gs : Forall2 (fun x g => get_unique_indices x = Ret g) l gs ->
  get_unique_indices (Prod l) = Ret (once_groups (flat_map groups_occ gs)).
Proof. intros H. rewrite unique_prod, (Forall2_unique_all l gs H). reflexivity. Qed.

(** For a whole expression without operators in which no index occurs more than twice: exactly the
    indices that occur in one slot. *)
Theorem C39_unique e g : no_operators e = true -> (forall x, times x (occ e) <= 2) ->
  get_unique_indices e = Ret g ->
  forall x s, s <> Proto ->
    (In x (match s with Bra => gbra g | Ket => gket g | _ => gaux g end) <-> In (s, x) (occ e) /\ times x (occ e) = 1).
Proof.
  intros H1 H2 H3 x s HS. rewrite (unique_once e H1 H2) in H3. inversion H3; subst.
  destruct s; try congruence; apply once_in.
Qed.
Theorem C39_order e : no_operators e = true -> (forall x, times x (occ e) <= 2) ->
  get_unique_indices e = Ret (once_groups (occ e)).
Proof. exact (unique_once e). Qed.

Module UniqueExample.
  (** sum over i of T(a; i) U(i; b) and a scalar *)
  Definition t := mkt (Ordinary 0) [11] [1] [21].
  Definition u := mkt (Ordinary 1) [1] [12] [21].
  Definition e := Prod [Scal; Tens t; Prod [Tens u]].
  Example meets : no_operators e = true /\ (forall x, times x (occ e) <= 2).
  Proof.
    split; [reflexivity|]. apply times_bound. reflexivity.
  Qed.
  Example result : get_unique_indices e = Ret (mkg [11] [12] []).
  Proof. reflexivity. Qed.

  (** An index that occurs three times is reported if two of the occurrences are in one factor. *)
  Theorem C39_three_occurrences_refuted :
    exists e g, no_operators e = true /\ get_unique_indices e = Ret g /\
      exists x, times x (occ e) = 3 /\ In x (gbra g).
  Proof.
    exists (Prod [Tens (mkt (Ordinary 0) [1] [1] []); Tens (mkt (Ordinary 1) [1] [] [])]), (mkg [1] [] []).
    repeat split. exists 1. split; [reflexivity|left; reflexivity].
  Qed.
  (** A single empty slot is reported as an index. *)
  Theorem C39_empty_slot_refuted :
    exists t g, get_unique_indices (Tens t) = Ret g /\ In null (gbra g).
  Proof. exists (mkt (Ordinary 0) [0; 1] [2; 3] []), (mkg [0; 1] [2; 3] []). split; [reflexivity|left; reflexivity]. Qed.
  (** Operators are refused. *)
  Example operators : get_unique_indices (Prod [Tens t; NOp [1] [2]]) = Threw.
  Proof. reflexivity. Qed.
End UniqueExample.

(** ** C60: get_uncontracted_indices *)
Theorem C60_uncontracted t1 t2 : contracted_properly t1 t2 ->
  get_uncontracted_indices t1 t2 =
    mkg (absent_from t2 (tbra t1) ++ absent_from t1 (tbra t2))
        (absent_from t2 (tket t1) ++ absent_from t1 (tket t2))
        (absent_from t2 (taux t1) ++ absent_from t1 (taux t2)).
Proof. exact (uncontracted_absent t1 t2). Qed.

Module ContractExample.
  Definition t := mkt (Ordinary 0) [11; 12] [1; 2] [21].
  Definition u := mkt (Ordinary 1) [1; 2] [13; 11] [21; 22].
  Example meets : contracted_properly t u.
  Proof. unfold contracted_properly, tensor_indices. cbn. intuition (subst; try discriminate; auto). Qed.
  Example result : get_uncontracted_indices t u = mkg [12] [13] [22].
  Proof. reflexivity. Qed.
  (** An index shared by two bras stays in the result, twice. *)
  Theorem C60_bra_bra_refuted :
    exists t1 t2, In 1 (tensor_indices t1) /\ In 1 (tensor_indices t2) /\ gbra (get_uncontracted_indices t1 t2) = [1; 1].
  Proof. exists (mkt (Ordinary 0) [1] [2] []), (mkt (Ordinary 1) [1] [3] []). cbn. intuition. Qed.
End ContractExample.

(** ** C61: get_used_indices_with_counts *)
Theorem C61_counts proto e :
  NoDup (map fst (get_used_indices_with_counts proto e)) /\
  (forall x c, In (x, c) (get_used_indices_with_counts proto e) ->
     c = mkc (times_in Bra x (filled (all_occ e))) (times_in Ket x (filled (all_occ e)))
             (times_in Aux x (filled (all_occ e))) (times_proto proto x (all_occ e))) /\
  (forall x, In x (map fst (get_used_indices_with_counts proto e)) <->
     (exists s, In (s, x) (filled (all_occ e))) \/ (exists s y, In (s, y) (filled (all_occ e)) /\ In x (proto y))).
Proof. exact (counts_right proto e). Qed.
Theorem C61_used proto e x : In x (get_used_indices proto e) <->
  (exists s, In (s, x) (filled (all_occ e))) \/ (exists s y, In (s, y) (filled (all_occ e)) /\ In x (proto y)).
Proof. apply (counts_right proto e). Qed.

Module CountExample.
  (** a sum of two products; index 31 has the protoindices 1 and 2 *)
  Definition proto (x : idx) : list idx := if Nat.eqb x 31 then [1; 2] else [].
  Definition e := Sum [Prod [Tens (mkt (Ordinary 0) [31; 0] [1; 2] []); NOp [1] [31]]; Tens (mkt (Ordinary 0) [3] [2] [31])].
  Example counted : get_used_indices_with_counts proto e =
    [(31, mkc 1 1 1 0); (1, mkc 1 1 0 3); (2, mkc 0 2 0 3); (3, mkc 1 0 0 0)].
  Proof. reflexivity. Qed.
End CountExample.

(** ** C62: tot_indices *)
Theorem C62_tot proto l outer inner : tot_indices proto l = (outer, inner) ->
  NoDup outer /\
  inner = filter (has_proto proto) l /\
  exists protos plain, outer = protos ++ plain /\
    (forall x, In x protos <-> exists y, In y l /\ In x (proto y)) /\
    (forall x, In x plain <-> In x l /\ proto x = [] /\ ~ In x protos).
Proof. intros H. generalize (tot_right proto l). rewrite H. auto. Qed.
Example C62_example : tot_indices CountExample.proto [3; 31; 2; 31] = ([1; 2; 3], [31; 31]).
Proof. reflexivity. Qed.

(** ** C63: external_indices *)

(** A tensor that is no symmetrizer: its own slots; group k holds the k-th bra and ket index. *)
Theorem C63_tensor t n c : tkind t = Ordinary n -> external_indices (Tens t) = Ret c ->
  of_slot Bra c = tbra t /\ of_slot Ket c = tket t /\ of_slot Aux c = taux t /\
  length c = max (length (tbra t)) (length (tket t)) + length (taux t) /\
  forall k x y, nth_error (tbra t) k = Some x -> nth_error (tket t) k = Some y ->
    exists g, nth_error c k = Some g /\ get_bra_idx g = Ret x /\ get_ket_idx g = Ret y.
Proof.
  intros HK H. cbn in H. unfold tensor_external in H. rewrite HK in H. inversion H; subst c. clear H.
  rewrite !of_slot_app, !zip_slot, !aux_slot, !app_nil_r, app_length, map_length, zip_length.
  split; [reflexivity|]. split; [reflexivity|]. split; [reflexivity|]. split; [reflexivity|].
  intros k x y Hx Hy. assert (L : k < length (tbra t)) by (apply nth_error_Some; congruence).
  eexists. rewrite nth_error_app1 by (rewrite zip_length; lia). rewrite zip_nth by lia. rewrite Hx, Hy. cbn. auto.
Qed.

(** A symmetrizer or antisymmetrizer: bra and ket are exchanged. *)
Theorem C63_antisymmetrizer t : tkind t = Antisymm ->
  exists c, external_indices (Tens t) = Ret c /\
    of_slot Bra c = tket t /\ of_slot Ket c = tbra t /\ of_slot Aux c = taux t /\
    length c = max (length (tbra t)) (length (tket t)) + length (taux t).
Proof.
  intros HK. cbn. unfold tensor_external. rewrite HK.
  destruct (conj_antisymm _ (zip_wf (tbra t) (tket t))) as (l' & H1 & H2 & H3 & H4 & H5). rewrite H1. cbn [bind].
  eexists. split; [reflexivity|]. rewrite !of_slot_app, !aux_slot, H2, H3, H4, !zip_slot, !app_nil_r, app_length, map_length.
  rewrite <- (map_length (@length sidx) l'), H5, map_length, zip_length. auto.
Qed.
Theorem C63_symmetrizer t : tkind t = Symm ->
  (length (tbra t) = length (tket t) -> external_indices (Tens t) = Ret (paired (mkg (tket t) (tbra t) (taux t)))) /\
  (length (tbra t) <> length (tket t) -> external_indices (Tens t) = Threw).
Proof.
  intros HK. cbn. unfold tensor_external. rewrite HK. split; intros HL.
  - rewrite (conj_symm_zip _ _ HL). reflexivity.
  - rewrite (conj_symm_unequal _ _ HL). reflexivity.
Qed.

(** A sum or product with symmetrizers: they are all the same tensor, and the indices are its. *)
Theorem C63_with_symmetrizer e c t : (exists l, e = Sum l \/ e = Prod l) ->
  In t (tensors e) -> is_symmetrizer t = true -> external_indices e = Ret c ->
  external_indices (Tens t) = Ret c.
Proof.
  intros [l HE] HI HS H.
  assert (E : external_indices e = bind (the_symmetrizer (filter is_symmetrizer (tensors e)) None) (fun s =>
      match s with Some t => tensor_external t | None => bind (get_unique_indices e) (fun g => Ret (paired g)) end))
    by (destruct HE; subst e; reflexivity).
  rewrite E in H. destruct (the_symmetrizer _ None) as [r| |] eqn:ES; cbn [bind] in H; try discriminate.
  assert (HF : In t (filter is_symmetrizer (tensors e))) by (apply filter_In; auto).
  rewrite (the_symm_inv _ _ _ ES t HF) in H. exact H.
Qed.
(** In particular a product of a symmetrizer with an expression that has the exchanged indices has
    the external indices of that expression. *)
Theorem C63_symmetrized_product t e g : is_symmetrizer t = true ->
  get_unique_indices e = Ret g -> (forall u, In u (tensors e) -> is_symmetrizer u = false) ->
  length (tbra t) = length (tket t) -> tbra t = gket g -> tket t = gbra g -> taux t = gaux g ->
  external_indices (Prod [Tens t; e]) = Ret (paired g) /\ external_indices (Prod [e]) = external_indices (Prod [Tens t; e]).
Proof.
  intros HS HG HN HL HB HK HA.
  assert (TE : tensors (Prod [Tens t; e]) = t :: tensors e) by (cbn [tensors]; rewrite app_nil_r; reflexivity).
  assert (F : filter is_symmetrizer (tensors e) = []).
  { assert (G : forall l, (forall u, In u l -> is_symmetrizer u = false) -> filter is_symmetrizer l = []).
    { induction l as [|u l IH]; intros H; cbn; auto. rewrite (H u (or_introl eq_refl)). apply IH. intros v Hv. apply H. right. exact Hv. }
    apply G. exact HN. }
  assert (E1 : external_indices (Prod [Tens t; e]) = Ret (paired g)).
  { unfold external_indices. rewrite TE. cbn [filter]. rewrite HS, F. cbn [the_symmetrizer bind].
    unfold tensor_external. destruct (tkind t) eqn:EK; [unfold is_symmetrizer in HS; rewrite EK in HS; discriminate| |].
    - rewrite (conj_symm_zip _ _ HL). cbn [bind]. rewrite HB, HK, HA. reflexivity.
    - rewrite (conj_anti_zip _ _ HL). cbn [bind]. rewrite HB, HK, HA. reflexivity. }
  split; [exact E1|]. rewrite E1. unfold external_indices.
  assert (TE2 : tensors (Prod [e]) = tensors e) by (cbn [tensors]; apply app_nil_r). rewrite TE2, F. cbn [the_symmetrizer bind].
  rewrite (unique_prod [e]). cbn [unique_all]. rewrite HG. cbn [bind flat_map]. rewrite app_nil_r.
  (* the indices reported for a single factor are its own *)
  assert (SELF : once_groups (groups_occ g) = g).
  { assert (W : forall e g, get_unique_indices e = Ret g -> exists l, slots_ok l /\ g = once_groups l).
    { clear. fix IH 1. intros [|t|c a|l|l] g; cbn [get_unique_indices].
      - intros E. inversion E. exists []. split; [intros o []|reflexivity].
      - intros E. inversion E. exists (tensor_occ t). split; [apply tensor_occ_slots|apply tensor_unique_once].
      - discriminate.
      - destruct l as [|x l]; [intros E; inversion E; exists []; split; [intros o []|reflexivity]|apply (IH x g)].
      - intros E. change (get_unique_indices (Prod l) = Ret g) in E. rewrite unique_prod in E.
        destruct (unique_all l) as [gs| |]; cbn [bind] in E; try discriminate. inversion E.
        exists (flat_map groups_occ gs). split; auto. intros o Ho. apply in_flat_map in Ho as [g' [_ Ho]]. eapply groups_occ_slots. exact Ho. }
    destruct (W e g HG) as (l & HSL & ->).
    assert (T1 : forall o, In o (groups_occ (once_groups l)) -> times (snd o) (groups_occ (once_groups l)) = 1).
    { intros [s x] Ho. cbn [snd]. rewrite times_groups_once by exact HSL.
      assert (1 <= times x (groups_occ (once_groups l))) by (apply times_pos; eauto).
      rewrite times_groups_once in H by exact HSL. destruct (Nat.eqb (times x l) 1); lia. }
    assert (SEL : forall s, once s (groups_occ (once_groups l)) = map snd (filter (fun o => slot_eqb (fst o) s) (groups_occ (once_groups l)))).
    { intros s. unfold once at 1. f_equal. apply filter_ext_in'. intros o Ho. rewrite (T1 o Ho). cbn. apply andb_true_r. }
    assert (PS : forall s s' m, map snd (filter (fun o : slot * idx => slot_eqb (fst o) s) (map (pair s') m)) = if slot_eqb s' s then m else []).
    { intros s s' m. induction m as [|y m IHm]; cbn; [destruct (slot_eqb s' s); reflexivity|].
      destruct (slot_eqb s' s) eqn:ES; cbn; rewrite IHm; reflexivity. }
    unfold once_groups at 1. rewrite !SEL. unfold groups_occ. rewrite !filter_app, !map_app, !PS. cbn. rewrite ?app_nil_r. reflexivity. }
  rewrite SELF. reflexivity.
Qed.

(** Without symmetrizers: the indices that occur once. *)
Theorem C63_unsymmetrized e c : (exists l, e = Sum l \/ e = Prod l) ->
  (forall u, In u (tensors e) -> is_symmetrizer u = false) ->
  no_operators e = true -> (forall x, times x (occ e) <= 2) -> external_indices e = Ret c ->
  of_slot Bra c = once Bra (occ e) /\ of_slot Ket c = once Ket (occ e) /\ of_slot Aux c = once Aux (occ e).
Proof.
  intros [l HE] HS HN H2 H.
  assert (F : filter is_symmetrizer (tensors e) = []).
  { assert (G : forall l, (forall u, In u l -> is_symmetrizer u = false) -> filter is_symmetrizer l = []).
    { induction l0 as [|u l0 IH]; intros HH; cbn; auto. rewrite (HH u (or_introl eq_refl)). apply IH. intros v Hv. apply HH. right. exact Hv. }
    apply G. exact HS. }
  assert (E : external_indices e = bind (the_symmetrizer (filter is_symmetrizer (tensors e)) None) (fun s =>
      match s with Some t => tensor_external t | None => bind (get_unique_indices e) (fun g => Ret (paired g)) end))
    by (destruct HE; subst e; reflexivity).
  rewrite E, F, (unique_once e HN H2) in H. cbn [the_symmetrizer bind] in H. inversion H; subst c.
  unfold paired. rewrite !of_slot_app, !zip_slot, !aux_slot, !app_nil_r. auto.
Qed.

Module ExternalExample.
  (** A(i1 i2; a1 a2) t(a1 a2; i1 i2) *)
  Definition A := mkt Antisymm [1; 2] [11; 12] [].
  Definition t := mkt (Ordinary 0) [11; 12] [1; 2] [].
  Example with_A : external_indices (Prod [Tens A; Tens t]) = Ret [[(11, Bra); (1, Ket)]; [(12, Bra); (2, Ket)]].
  Proof. reflexivity. Qed.
  Example meets : is_symmetrizer A = true /\ get_unique_indices (Tens t) = Ret (mkg [11; 12] [1; 2] []) /\
    (forall u, In u (tensors (Tens t)) -> is_symmetrizer u = false).
  Proof. repeat split. intros u [<-|[]]. reflexivity. Qed.
  (** an antisymmetrizer that changes the number of particles *)
  Example unpaired : external_indices (Tens (mkt Antisymm [1; 2] [11] [])) = Ret [[(11, Bra); (1, Ket)]; [(2, Ket)]].
  Proof. reflexivity. Qed.
  (** two different symmetrizers are not accepted *)
  Example two : external_indices (Prod [Tens A; Tens (mkt Symm [1; 2] [11; 12] [])]) = Undefined.
  Proof. reflexivity. Qed.
End ExternalExample.

(** ** C64: is_valid *)
Theorem C64_sum l : is_valid (Sum l) = Ret true <->
  (forall x, In x l -> is_valid x = Ret true) /\ l <> [] /\
  (forall x, In x l -> exists g, get_unique_indices x = Ret g) /\
  (forall x y g h, In x l -> In y l -> get_unique_indices x = Ret g -> get_unique_indices y = Ret h ->
     Permutation (gbra g) (gbra h) /\ Permutation (gket g) (gket h) /\ Permutation (gaux g) (gaux h)).
Proof. exact (valid_sum l). Qed.

Theorem C64_product l : (forall x, In x l -> no_operators x = true) -> (forall x y, In x l -> times y (occ x) <= 2) ->
  is_valid (Prod l) = Ret true <->
  (forall x, In x l -> is_valid x = Ret true) /\ (forall y, factors_with y l <= 2).
Proof. exact (valid_prod l). Qed.

(** A product of scalars and tensors none of which has an index twice is valid if and only if no
    index occurs more than twice. *)
Theorem C64_tensor_product l :
  (forall x, In x l -> x = Scal \/ exists t, x = Tens t /\ NoDup (tensor_indices t)) ->
  is_valid (Prod l) = Ret true <-> forall y, times y (occ (Prod l)) <= 2.
Proof.
  intros H.
  assert (ONE : forall x y, In x l -> times y (occ x) <= 1).
  { intros x y Hx. destruct (H x Hx) as [->|(t & -> & HD)]; [unfold times; cbn; lia|].
    cbn [occ]. change (tensor_occ t) with (groups_occ (mkg (tbra t) (tket t) (taux t))). rewrite times_groups.
    apply (proj1 (NoDup_count_occ Nat.eq_dec _)). exact HD. }
  assert (F : forall y, factors_with y l = times y (occ (Prod l))).
  { intros y. unfold factors_with. cbn [occ]. clear H. induction l as [|x m IH]; [reflexivity|]. cbn [flat_map filter]. rewrite times_app.
    rewrite <- IH by (intros z w Hz; apply ONE; right; exact Hz). specialize (ONE x y (or_introl eq_refl)).
    destruct (Nat.eqb (times y (occ x)) 1) eqn:E; cbn [length]; [apply Nat.eqb_eq in E|apply Nat.eqb_neq in E]; lia. }
  rewrite valid_prod.
  - split.
    + intros [_ H1] y. rewrite <- F. apply H1.
    + intros H1. split; [|intros y; rewrite F; apply H1]. intros x Hx. destruct (H x Hx) as [->|(t & -> & _)]; reflexivity.
  - intros x Hx. destruct (H x Hx) as [->|(t & -> & _)]; reflexivity.
  - intros x y Hx. specialize (ONE x y Hx). lia.
Qed.

Module ValidExample.
  Definition t := mkt (Ordinary 0) [11] [1] [21].
  Definition u := mkt (Ordinary 1) [1] [12] [21].
  Example meets : forall x, In x [Scal; Tens t; Tens u] -> x = Scal \/ exists t, x = Tens t /\ NoDup (tensor_indices t).
  Proof.
    assert (D : forall a b c : idx, a <> b -> a <> c -> b <> c -> NoDup [a; b; c]).
    { intros a b c H1 H2 H3. repeat constructor; cbn; intuition. }
    intros x [<-|[<-|[<-|[]]]]; auto; right; eexists; (split; [reflexivity|]); apply D; discriminate.
  Qed.
  Example valid : is_valid (Prod [Scal; Tens t; Tens u]) = Ret true.
  Proof. reflexivity. Qed.
  Example invalid : is_valid (Prod [Tens t; Tens u; Tens (mkt (Ordinary 2) [1] [2] [])]) = Ret false.
  Proof. reflexivity. Qed.
  (** An index that occurs three times is not noticed if two of the occurrences are in one tensor;
      nor is an index that occurs three times in one tensor. *)
  Theorem C64_repeated_index_refuted :
    (exists l x, is_valid (Prod l) = Ret true /\ times x (occ (Prod l)) = 3 /\ length l = 2) /\
    (exists t x, is_valid (Tens t) = Ret true /\ times x (tensor_occ t) = 3).
  Proof.
    split.
    - exists [Tens (mkt (Ordinary 0) [1] [1] []); Tens (mkt (Ordinary 1) [1] [] [])], 1. repeat split.
    - exists (mkt (Ordinary 0) [1; 1] [1] []), 1. repeat split.
  Qed.
  (** The check of an empty sum is undefined. *)
  Theorem C64_empty_sum_refuted : is_valid (Sum []) = Undefined.
  Proof. reflexivity. Qed.
End ValidExample.

(** ** C41: left_to_right_binarization_indices *)
Theorem C41_ltr rng uncontract children imed : ltr rng uncontract = Ret (children, imed) ->
  length children = length rng /\ length imed = length rng /\
  (** an index of the k-th set is relevant if another set has it or it is to be kept *)
  (forall k s c, nth_error rng k = Some s -> nth_error children k = Some c -> forall x,
     In x c <-> In x s /\ ((exists j s', j <> k /\ nth_error rng j = Some s' /\ In x s') \/ In x uncontract)) /\
  (** the k-th intermediate has the indices of the sets so far that a later set has or that are to be kept *)
  (forall k i, nth_error imed k = Some i -> NoDup i /\ forall x,
     In x i <-> (exists j s, j <= k /\ nth_error rng j = Some s /\ In x s) /\
                ((exists j s, k < j /\ nth_error rng j = Some s /\ In x s) \/ In x uncontract)).
Proof. exact (ltr_right rng uncontract children imed). Qed.
Theorem C41_final rng uncontract children imed i : ltr rng uncontract = Ret (children, imed) ->
  nth_error imed (length rng - 1) = Some i ->
  forall x, In x i <-> (exists s, In s rng /\ In x s) /\ In x uncontract.
Proof.
  intros H HI x. destruct (ltr_right _ _ _ _ H) as (_ & _ & _ & K). destruct (K _ _ HI) as [_ Kx]. rewrite Kx. split.
  - intros [(j & s & H1 & H2 & H3) H4]. split; [exists s; split; auto; eapply nth_error_In; eauto|].
    destruct H4 as [(j' & s' & L & N & _)|H4]; auto. assert (j' < length rng) by (apply nth_error_Some; congruence). lia.
  - intros [(s & H1 & H2) H3]. split; auto. apply In_nth_error in H1 as [j H1]. assert (j < length rng) by (apply nth_error_Some; congruence).
    exists j, s. split; [lia|]. auto.
Qed.

Module LtrExample.
  Definition rng := [[1; 11]; [1; 2]; [2; 12]].
  Example result : ltr rng [11; 12] = Ret ([[1; 11]; [1; 2]; [2; 12]], [[1; 11]; [11; 2]; [11; 12]]).
  Proof. reflexivity. Qed.
  (** "Indices that appear exactly once in the sets are always uncontracted": they are not, unless
      they are passed; so "passing non-repeating indices does not change the behavior" is false too. *)
  Theorem C41_note_refuted :
    exists rng x, occurrences x rng = 1 /\
      (exists ch im, ltr rng [] = Ret (ch, im) /\ ~ In x (concat im) /\ ~ In x (concat ch)) /\
      ltr rng [x] <> ltr rng [].
  Proof.
    exists [[1; 11]; [1; 12]], 11. split; [reflexivity|]. split; [|discriminate].
    eexists. eexists. split; [reflexivity|]. cbn. intuition discriminate.
  Qed.
  Theorem C41_empty_range_refuted : ltr [] [] = Undefined.
  Proof. reflexivity. Qed.
End LtrExample.

Print Assumptions C39_unique.
Print Assumptions C39_product.
Print Assumptions C60_uncontracted.
Print Assumptions C61_counts.
Print Assumptions C62_tot.
Print Assumptions C63_symmetrized_product.
Print Assumptions C63_unsymmetrized.
Print Assumptions C64_tensor_product.
Print Assumptions C41_ltr.
