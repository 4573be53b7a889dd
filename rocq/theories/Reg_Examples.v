(** Concrete registries: the hypotheses of the theorems of Reg_Props are met, and the claims that
    do not hold of the code are refuted. *)
From Coq Require Import List NArith Bool Arith Lia.
From Verif Require Import Reg_Model Reg_Spec Reg_Proofs Reg_Contract Reg_Conv Reg_Memo Reg_Props.
Import ListNotations.
Open Scope N_scope.

Module RegExample.
  (** i and a with both spins, their union p, and the up and down copies of each *)
  Definition i := mks [105] 1 3 10.      Definition a := mks [97] 2 3 10.    Definition p := mks [112] 3 3 20.
  Definition iu := mks [105; up] 1 1 10. Definition au := mks [97; up] 2 1 10. Definition pu := mks [112; up] 3 1 20.
  Definition id := mks [105; down] 1 2 10.
  Definition hist : list op := [OAdd i; OAdd a; OUnion [112] [i; a]; OAdd iu; OAdd au; OAdd pu; OAdd id].
  Definition r : reg := history hist.

  Ltac reg := vm_compute; tauto.

  Example registered_all : registered r i /\ registered r a /\ registered r p /\ registered r iu /\ registered r pu /\ registered r id.
  Proof. reg. Qed.

  (** C38, C53: the hypotheses and a value for each outcome *)
  Example C38_value : intersection r i p = Ret i /\ intersection r iu pu = Ret iu /\ intersection r i a = Ret null /\ intersection r iu id = Ret null.
  Proof. vm_compute. auto. Qed.
  Example C53_value : unIon r i a = Ret p /\ unIon r i iu = Threw /\ valid_unIon r i a = true /\ valid_intersection r i p = true.
  Proof. vm_compute. auto. Qed.
  (** an intersection that is not registered: o+i and i+a without i *)
  Example C38_throws :
    let h := history [OAdd (mks [109] 3 0 1); OAdd (mks [120] 6 0 1)] in
    intersection h (mks [109] 3 0 1) (mks [120] 6 0 1) = Threw.
  Proof. reflexivity. Qed.

  (** C38: if the quantum numbers overlap without being equal, the result depends on the order and
      is not the set of common states. *)
  Theorem C38_different_quantum_numbers_refuted :
    exists l a b s t x, let r := history l in
      registered r a /\ registered r b /\ intersection r a b = Ret s /\ intersection r b a = Ret t /\
      s <> t /\ in_space x s /\ ~ in_space x b.
  Proof.
    exists hist, i, iu, i, iu, (0, Some 1). cbv zeta.
    split; [reg|]. split; [reg|]. split; [reflexivity|]. split; [reflexivity|]. split; [discriminate|].
    split; [vm_compute; auto|]. intros [_ H]. vm_compute in H. discriminate.
  Qed.

  (** C53: valid_unIon depends on the order of its arguments. *)
  Theorem C53_valid_union_symmetric_refuted :
    exists l a b, let r := history l in
      registered r a /\ registered r b /\ valid_unIon r a b = true /\ valid_unIon r b a = false /\
      unIon r a b = unIon r b a.
  Proof. exists hist, i, p. cbv zeta. split; [reg|]. split; [reg|]. vm_compute. auto. Qed.

  (** C53: valid_unIon accepts spaces whose union throws: i-up and i-down. *)
  Theorem C53_valid_union_refuted :
    exists l a b, let r := history l in
      registered r a /\ registered r b /\ valid_unIon r a b = true /\ unIon r a b = Threw.
  Proof. exists hist, iu, id. cbv zeta. split; [reg|]. split; [reg|]. vm_compute. auto. Qed.

  (** C53: valid_intersection accepts spaces whose intersection throws. *)
  Theorem C53_valid_intersection_refuted :
    exists l a b, let r := history l in
      registered r a /\ registered r b /\ valid_intersection r a b = true /\ intersection r a b = Threw.
  Proof.
    exists [OAdd p; OAdd iu], p, iu. cbv zeta. split; [reg|]. split; [reg|]. vm_compute. auto.
  Qed.

  (** C54: a space whose key contains a digit is not found by its key: reduced labels end before
      the first digit. Another space may be found instead. *)
  Theorem C54_digit_key_refuted :
    exists l s t, let r := history l in
      registered r s /\ registered r t /\ s <> t /\ retrieve_label r (skey s) = Some t.
  Proof.
    exists [OAdd i; OAdd (mks [105; 49] 4 3 10)], (mks [105; 49] 4 3 10), i. cbv zeta.
    split; [reg|]. split; [reg|]. split; [discriminate|reflexivity].
  Qed.
  Example C54_label_value : retrieve_label r [105; 95; 49; 50] = Some i /\ retrieve_label r [105; 49] = Some i.
  Proof. vm_compute. auto. Qed.
  (** C54: reducing a label twice may give another label than reducing it once: i1_2 *)
  Theorem C54_reduce_idempotent_refuted : exists k, reduce_key (reduce_key k) <> reduce_key k.
  Proof. exists [105; 49; 95; 50]. discriminate. Qed.
  (** C54: a space with an underscore in its key cannot be found by any label. *)
  Lemma take_until_none p k : existsb p (take_until p k) = false.
  Proof. induction k as [|c k IH]; cbn; auto. destruct (p c) eqn:E; auto. cbn. rewrite E. exact IH. Qed.
  Theorem C54_underscore_key_refuted : forall r s k,
    existsb (N.eqb underscore) (skey s) = true -> retrieve_label r k <> Some s.
  Proof.
    intros r0 s k H E. unfold retrieve_label in E. apply find_key_some in E as [_ E]. rewrite E in H. clear E.
    unfold reduce_key in H. destruct (existsb (N.eqb underscore) k) eqn:E.
    - rewrite take_until_none in H. discriminate.
    - destruct k as [|c k]; [discriminate|].
      assert (T : forall l, existsb (N.eqb underscore) l = false -> existsb (N.eqb underscore) (take_until is_digit l) = false).
      { induction l as [|d l IH]; cbn; auto. intros HL. apply orb_false_elim in HL as [H1 H2]. destruct (is_digit d); auto.
        cbn. rewrite H1. auto. }
      destruct (is_digit c); [congruence|]. rewrite T in H by exact E. discriminate.
  Qed.

  (** C54: replace that throws has removed the space with the key already. *)
  Theorem C54_replace_refuted :
    exists l s r', registered (history l) i /\ replace (history l) s = (Threw, r') /\ ~ registered r' i.
  Proof.
    exists [OAdd i; OAdd a], (mks [105] 2 3 7), (remove (history [OAdd i; OAdd a]) i). split; [reg|]. split; [reflexivity|].
    rewrite C54_remove. intros [_ H]. apply H. reflexivity.
  Qed.

  (** C55: the union of i-up and i-down cannot be registered, although it is not registered yet *)
  Example C55_single : let r := history [OAdd iu; OAdd id] in
    fold_attr N.lor [iu; id] = Ret (1, 3) /\ retrieve_attr r 1 3 = None /\ add_unIon r [105] [iu; id] = Threw.
  Proof. vm_compute. auto. Qed.
  Example C55_value : exists r', add_unIon (history [OAdd i; OAdd a]) [112] [i; a] = Ret r' /\ registered r' p.
  Proof. eexists. split; [reflexivity|]. reg. Qed.
  Example C55_intersection_value :
    let x := mks [120] 7 0 10 in let y := mks [121] 14 0 20 in
    exists r', add_intersection (history [OAdd x; OAdd y]) [122] [x; y] = Ret r' /\ exists s, registered r' s /\ sty s = 6.
  Proof. eexists. split; [reflexivity|]. eexists. split; [right; right; right; left; reflexivity|reflexivity]. Qed.

  (** C56: the memoized lists *)
  Definition answer_of (l : list cmd) (c : cmd) : answer := snd (exec (run l) c).
  Example C56_value :
    answer_of [New; Add 0 i; Add 0 a] (BaseTypes 0) = Types [1; 2] /\
    answer_of [New; SetMask 0 3; Add 0 i; Add 0 a; Add 0 p] (BaseSpaces 0) = Spaces [i; a].
  Proof. vm_compute. auto. Qed.
  Example C56_simple : simple_history (run [New; SetMask 0 3; Add 0 i; BaseSpaces 0; Add 0 a; Clone 0; Remove 1 i]).
  Proof.
    unfold run. cbn [fold_left].
    repeat (apply sh_step; [|cbn [simple]; try exact Logic.I]); [constructor|].
    intros o H. vm_compute in H. inversion H; subst. auto.
  Qed.

  Lemma wrong_types l k ts : answer_of l (BaseTypes k) = Types ts ->
    (exists o, nth_error (objs (run l)) k = Some o /\ ~ right_types (run l) o ts) ->
    ~ right_answer (run l) (BaseTypes k) (answer_of l (BaseTypes k)).
  Proof. intros -> (o & H1 & H2) (o' & H3 & H4). congruence. Qed.

  (** After an assignment, after clear, after adding to a copy, the list of types is still that of
      before. *)
  Theorem C56_assignment_refuted :
    let l := [New; Add 0 i; New; BaseTypes 0; Assign 0 1] in
    ~ right_answer (run l) (BaseTypes 0) (answer_of l (BaseTypes 0)).
  Proof.
    cbv zeta. eapply wrong_types; [reflexivity|]. eexists. split; [reflexivity|]. intros [_ H].
    destruct (H 1) as [H1 _]. destruct H1 as [_ [s [HS E]]]; [left; reflexivity|]. vm_compute in HS.
    destruct HS as [<-|[]]. discriminate.
  Qed.
  Theorem C56_clear_refuted :
    let l := [New; Add 0 i; BaseTypes 0; Clear 0] in
    ~ right_answer (run l) (BaseTypes 0) (answer_of l (BaseTypes 0)).
  Proof.
    cbv zeta. eapply wrong_types; [reflexivity|]. eexists. split; [reflexivity|]. intros [_ H].
    destruct (H 1) as [H1 _]. destruct H1 as [_ [s [HS E]]]; [left; reflexivity|]. vm_compute in HS.
    destruct HS as [<-|[]]. discriminate.
  Qed.
  Theorem C56_copy_refuted :
    let l := [New; BaseTypes 0; Copy 0; Add 1 i] in
    ~ right_answer (run l) (BaseTypes 0) (answer_of l (BaseTypes 0)).
  Proof.
    cbv zeta. eapply wrong_types; [reflexivity|]. eexists. split; [reflexivity|]. intros [_ H].
    destruct (H 1) as [_ H1]. destruct H1. split; [exists 0; reflexivity|]. exists i. split; [vm_compute; auto|reflexivity].
  Qed.
  (** Setting the mask changes what is a base space, but not the memoized list. *)
  Theorem C56_mask_refuted :
    let l := [New; Add 0 i; BaseSpaces 0; SetMask 0 3] in
    ~ right_answer (run l) (BaseSpaces 0) (answer_of l (BaseSpaces 0)).
  Proof.
    cbv zeta. intros (o & H1 & H2). vm_compute in H1. injection H1 as <-. destruct H2 as (_ & _ & H2).
    destruct (H2 i) as [_ H3]. destruct H3. split; [vm_compute; auto|]. split; [exists 0; reflexivity|]. cbn [sqn i omask].
    auto.
  Qed.
  (** The list of types may contain a type twice: equal types need not be neighbours in the order
      of keys. *)
  Theorem C56_duplicates_refuted :
    exists l ts, simple_history (run l) /\ answer_of l (BaseTypes 0) = Types ts /\ ~ NoDup ts.
  Proof.
    exists [New; Add 0 i; Add 0 a; Add 0 (mks [122] 2 0 1)], [1; 2; 2].
    split; [|split; [|intros H; inversion H as [|? ? _ H2]; inversion H2 as [|? ? H3 _]; apply H3; left; reflexivity]].
    - unfold run. cbn [fold_left]. repeat (apply sh_step; [|cbn [simple]; try exact Logic.I]). constructor.
    - vm_compute. reflexivity.
  Qed.

  (** C51: an instance with a space that is partly occupied, p contracted with p *)
  Definition rc := mkr (spaces (history (hist ++ []))) 3 1 3.
  Example C51_hypotheses : proper rc /\ registered rc p /\ within rc p /\ (exists k, vacocc rc = N.ones k).
  Proof.
    split; [|split; [reg|split; [reflexivity|exists 1; reflexivity]]].
    intros s H E. vm_compute in H. repeat (destruct H as [<-|H]; [vm_compute in *; congruence|]). destruct H.
  Qed.
  Example C51_value :
    can_contract rc (mko p false) (mko p true) = Ret true /\
    contract rc (mko p false) (mko p true) =
      Ret [Overlap (INewLeft a) (INewRight a); Kronecker ILeft (INewLeft a); Kronecker (INewRight a) IRight] /\
    can_contract rc (mko i false) (mko p true) = Ret false /\
    contract rc (mko i true) (mko i false) = Ret [Overlap IRight ILeft].
  Proof. vm_compute. auto. Qed.

  (** C51: if the occupied subspaces are not the lowest bits, a space that is partly unoccupied may
      pass as occupied, because the bit patterns are compared as integers; then the contraction has
      the value 1 at an unoccupied state. Bits 1 and 2 are occupied, bit 0 is not. *)
  Definition vv := mks [118] 1 0 1. Definition oo := mks [111] 6 0 1. Definition xx := mks [120] 3 0 1.
  Definition oi := mks [105] 2 0 1. Definition pp := mks [112] 7 0 1.
  Definition rn := mkr (spaces (history [OAdd vv; OAdd oo; OAdd xx; OAdd oi; OAdd pp])) 0 6 7.
  Theorem C51_order_refuted :
    exists l occ all a b fs x, let r := mkr (spaces (history l)) 0 occ all in
      proper r /\ registered r (osp a) /\ registered r (osp b) /\ within r (osp a) /\ within r (osp b) /\
      contract r a b = Ret fs /\ in_space x (osp a) /\ in_space x (osp b) /\
      value fs x x = 1%nat /\ vev occ (ocr a) (ocr b) x x = 0%nat.
  Proof.
    exists [OAdd vv; OAdd oo; OAdd xx; OAdd oi; OAdd pp], 6, 7, (mko xx true), (mko xx false), [Overlap IRight ILeft], (0, None).
    cbv zeta. split.
    { intros s H E. vm_compute in H. repeat (destruct H as [<-|H]; [vm_compute in *; congruence|]). destruct H. }
    split; [reg|]. split; [reg|]. split; [reflexivity|]. split; [reflexivity|]. split; [vm_compute; reflexivity|].
    split; [vm_compute; auto|]. split; [vm_compute; auto|]. split; reflexivity.
  Qed.

  (** C57: the registries exist and have spaces to contract. *)
  Example C57_value : exists r, make f12_items true = Ret r /\ length (spaces r) = 43%nat /\
    exists s, registered r s /\ sty s <> 0 /\ skey s = [120; up].
  Proof.
    eexists. split; [vm_compute; reflexivity|]. split; [reflexivity|]. exists (mks [120; up] 6 1 20). split; [vm_compute; tauto|].
    split; [discriminate|reflexivity].
  Qed.
  Example C57_QCiFS_value : exists r s, make legacy_items false = Ret r /\ registered r s /\ sty s = 16.
  Proof. eexists. exists (mks [97] 16 0 10). split; [vm_compute; reflexivity|]. split; [vm_compute; tauto|reflexivity]. Qed.

  Example C58_value : bits_unIon 5 6 = Ret 7 /\ bits_intersection 5 6 = Ret 4 /\ bits_xOr 5 6 = Ret 3 /\ bits_includes 7 5 = true.
  Proof. vm_compute. auto. Qed.
  Example C59_value :
    throw_if_missing_any false r [(3, 1); (1, 1)] = Ret tt /\ throw_if_missing_any false r [(3, 1); (7, 1)] = Threw /\
    throw_if_missing_any true r [(3, 1); (1, 1)] = Asserted.
  Proof. vm_compute. auto. Qed.
End RegExample.

Print Assumptions C38_same_quantum_numbers_partial.
Print Assumptions C38_disjoint_quantum_numbers.
Print Assumptions C53_union.
Print Assumptions C53_valid_union_partial.
Print Assumptions C53_valid_intersection_partial.
Print Assumptions C54_unambiguous.
Print Assumptions C54_ordered.
Print Assumptions C54_add.
Print Assumptions C54_lookup.
Print Assumptions C54_label.
Print Assumptions C55_add_union.
Print Assumptions C55_add_intersection.
Print Assumptions C55_single_subspace_refuted.
Print Assumptions C56_base_spaces_partial.
Print Assumptions C51_can_contract.
Print Assumptions C51_contract_partial.
Print Assumptions C57_conventions_partial.
Print Assumptions C57_QCiFS_refuted.
Print Assumptions C58_bitsets.
Print Assumptions C58_complement_refuted.
Print Assumptions C59_with_assertions_refuted.
Print Assumptions C59_without_assertions.
