(** What is proved about the canonicalization of tensor networks. *)
From Coq Require Import ZArith List Arith Bool Permutation Sorted Lia Ring QArith Qcanon.
From Verif Require Import Tsr_Proofs1  Alg_Model Alg_Spec Tsr_Model Tsr_Spec Tsr_Proofs5 Tsr_Props Net_Model Net_Spec Net_Proofs1 Net_Proofs2 Net_Proofs3 Net_Proofs4.
Import ListNotations.
Open Scope nat_scope.

(** The conditions: tensors as the constructor makes them, all indices plain indices of one registry;
    named indices that are given are plain and, for the lexicographic step, occur in the network. *)
Definition valid_network (S : space -> Prop) (opts : options) (N : list tensor) : Prop :=
  one_registry S /\ Forall made N /\ Forall (plain S) (indices N) /\
  match o_named opts with
  | None => True
  | Some l => Forall (plain S) l /\ (o_lexicographic opts = true -> incl l (indices N))
  end.

Lemma valid_proper S opts N : valid_network S opts N -> Forall (proper S) N /\ Forall (plain S) (named_indices (o_named opts) N) /\
  (o_lexicographic opts = true -> forall i, In i (named_indices (o_named opts) N) -> In i (indices N)).
Proof.
  intros (R & M & P & G). split; [|split].
  - rewrite Forall_forall in *. intros t T. apply made_proper; auto. apply Forall_forall. intros i I. apply P. apply in_flat_map. eauto.
  - unfold named_indices. destruct (o_named opts); [apply G|]. unfold externals. rewrite Forall_forall in *. intros i I. apply filter_In in I. apply P. tauto.
  - unfold named_indices. destruct (o_named opts); [intros L i I; apply G; auto|]. intros _ i I. unfold externals in I. apply filter_In in I. tauto.
Qed.

(** ** C83: the value is kept *)

Theorem C83_equivalent : forall S bliss sort hash labels opts N M ords s, valid_network S opts N ->
  canonicalize bliss sort hash labels opts N = Some (M, ords, s) ->
  equivalent (named_indices (o_named opts) N) N M s.
Proof.
  intros S bliss sort hash labels opts N M ords s V H. destruct (valid_proper _ _ _ V) as (A & B & C).
  apply (canonicalize_sound S) in H; auto; try apply V. apply H.
Qed.

Theorem C83_value : forall S bliss sort hash labels opts N M ords s, valid_network S opts N ->
  canonicalize bliss sort hash labels opts N = Some (M, ords, s) ->
  forall (K : cring) (D : Type) (range : space -> list D) E, symmetric_elements (K := K) E ->
  let named := named_indices (o_named opts) N in
  (forall i, In i named -> (In i (indices N) <-> In i (indices M))) /\
  forall ds ds' a, dummies named N ds -> dummies named M ds' ->
    total range ds (product E N) a = signed s (total range ds' (product E M) a).
Proof.
  intros S bliss sort hash labels opts N M ords s V H K D range E Sy. apply (equivalent_value range E Sy).
  eapply C83_equivalent; eauto.
Qed.

(** ** C84: the positions of the input tensors *)

(** The loop that reorders the tensors puts at position [k] the tensor with the [k]-th ordinal, and turns
    the list of ordinals into the identity. *)
Theorem C84_reorder : forall (A : Type) (d : A) ords (l : list A), Permutation ords (seq 0 (length l)) ->
  reorder_loop d (seq 0 (length l)) (l, ords) = Some (map (fun k => nth k l d) ords, seq 0 (length l)).
Proof. intros A d ords l P. apply reorder_loop_spec; [apply perm_of_seq; auto|lia|lia]. Qed.

Theorem C84_ordinals_identity : forall S bliss named ignore N M ords s, one_registry S ->
  Forall made N -> Forall (plain S) (indices N) -> Forall (plain S) named ->
  canonicalize_graph bliss named ignore N = Some (M, ords, s) -> ords = seq 0 (length M).
Proof.
  intros S bliss named ignore N M ords s R Md P Pn H. apply (graph_sound S R) in H; auto; [apply H|].
  rewrite Forall_forall in *. intros t T. apply made_proper; auto. apply Forall_forall. intros i I. apply P. apply in_flat_map. eauto.
Qed.

Module NetExample.
Import TsrExample.

Lemma plain_o n : plain reg (o n). Proof. repeat split. cbn; auto. Qed.
Lemma plain_v n : plain reg (v n). Proof. repeat split. cbn; auto. Qed.

(** A labelling: the position of the vertex. *)
Definition vtx_eqb (a b : vtx) : bool :=
  match a, b with
  | VCore t, VCore t' => t =? t'
  | VBraKet t, VBraKet t' => t =? t'
  | VColumn t k, VColumn t' k' => (t =? t') && (k =? k')
  | VBundle t b, VBundle t' b' => (t =? t') && Bool.eqb b b'
  | VSlot t o k, VSlot t' o' k' => (t =? t') && (origin_nat o =? origin_nat o') && (k =? k')
  | VIndex i, VIndex j => ix_eqb i j
  | VProto _, VProto _ => true
  | _, _ => false
  end.
Fixpoint position (l : list vtx) (x : vtx) : nat := match l with [] => 0 | y :: l' => if vtx_eqb y x then 0 else S (position l' x) end.
Definition last_first (g : graph) (x : vtx) : nat := length (g_verts g) - position (g_verts g) x.
Definition label_g : list Z := [103%Z].
Definition label_t : list Z := [116%Z].
Definition g0 : tensor := mktensor label_g [o 5; o 7] [v 9; v 8] [] Antisymm BKSymm ColSymm 2 2.
Definition t0 : tensor := mktensor label_t [v 8; v 9] [o 5; o 6] [] Antisymm BKNonsymm ColSymm 2 2.
Definition f0 : tensor := mktensor [102%Z] [v 9] [v 9] [] Nonsymm BKNonsymm ColSymm 1 1.
Definition net : list tensor := [g0; t0].
Lemma made_net : Forall made net.
Proof.
  constructor; [|constructor; [|constructor]].
  - apply (made_ctor label_g [o 5; o 7] [v 9; v 8] [] Antisymm BKSymm ColSymm). reflexivity.
  - apply (made_ctor label_t [v 8; v 9] [o 5; o 6] [] Antisymm BKNonsymm ColSymm). reflexivity.
Qed.
Example C83_hyps : valid_network reg default_options net /\ exists M ords,
  canonicalize last_first (fun l => l) (fun _ => 0%Z) [] default_options net = Some (M, ords, true) /\ M <> net.
Proof.
  split.
  - split; [apply reg_one|]. split; [apply made_net|]. split; [|exact Logic.I].
    cbn. repeat apply Forall_cons; try apply plain_o; try apply plain_v. constructor.
  - eexists _, _. vm_compute. split; [reflexivity|discriminate].
Qed.

Example C84_hyps : Permutation [2; 0; 1] (seq 0 (length [7; 8; 9])) /\
  reorder_loop 0 (seq 0 3) ([7; 8; 9], [2; 0; 1]) = Some ([9; 7; 8], [0; 1; 2]).
Proof.
  split; [|reflexivity]. cbn. apply NoDup_Permutation; try (repeat constructor; cbn; intuition congruence). intros x. cbn. intuition.
Qed.

(** The ordinals of the input tensors do not say where the tensors come from. *)
Theorem C84_ordinals_refuted : exists S bliss sort hash labels N M ords s, valid_network S default_options N /\
  canonicalize bliss sort hash labels default_options N = Some (M, ords, s) /\
  exists k, k < length M /\ t_label (nth k M no_tensor) <> t_label (nth (nth k ords 0) N no_tensor).
Proof.
  exists reg, last_first, (fun l => l), (fun _ => 0%Z), [], net. eexists _, _, _. split; [apply C83_hyps|].
  split; [vm_compute; reflexivity|]. exists 0. cbn. split; [lia|discriminate].
Qed.

(** *** A named index that does not occur *)

Definition zring : cring := CRing Z 0%Z 1%Z Z.add Z.mul Z.opp Zth.
Definition mat (n : Z) (i j : index) : tensor := mktensor [n] [i] [j] [] Nonsymm BKNonsymm ColSymm 1 1.
Lemma made_mat n a b : made (mat n (v a) (v b)).
Proof. apply (made_ctor [n] [v a] [v b] [] Nonsymm BKNonsymm ColSymm). reflexivity. Qed.
Definition loop3 : list tensor := [mat 1 (v 1) (v 2); mat 2 (v 2) (v 3); mat 3 (v 3) (v 1)].
Definition swap2 (b k : bool) : Z := if Bool.eqb b k then 0%Z else 1%Z.
Definition same2 (b k : bool) : Z := if Bool.eqb b k then 1%Z else 0%Z.
Definition elems (l : list Z) (s : symmetry) (bk : bksymmetry) (c : colsymmetry) (b k x : list bool) : zring :=
  match s, bk, c with
  | Nonsymm, BKNonsymm, ColSymm =>
      fold_right (fun p z => ((match l with [2] => same2 | _ => swap2 end) (fst p) (snd p) * z)%Z) 1%Z (combine b k)
  | _, _, _ => 0%Z
  end.
Lemma elems_symmetric : symmetric_elements elems.
Proof.
  split; [reflexivity|]. split; [intros; cbn; destruct (Nat.odd _); reflexivity|]. split; [|intros l [] []; reflexivity].
  intros l bk x c c' r r' q q' RQ P Pr Pq. cbn. destruct bk; auto. set (f := match l with [2%Z] => same2 | _ => swap2 end).
  assert (C : forall (c : list (bool * bool)) r q, r = [] \/ q = [] -> combine (map fst c ++ r) (map snd c ++ q) = c).
  { clear. intros c r q H. induction c as [|(x, y) c IH]; cbn; [|rewrite IH; auto]. destruct H as [->| ->]; auto. destruct r; auto. }
  rewrite !C; auto.
  - clear - P. induction P; cbn; auto; [rewrite IHP; auto|rewrite !Z.mul_assoc; f_equal; apply Z.mul_comm|congruence].
  - destruct RQ as [->| ->]; [left; apply Permutation_nil in Pr|right; apply Permutation_nil in Pq]; auto.
Qed.
Lemma plain_loop3 : Forall (plain reg) (indices loop3).
Proof. cbn. repeat apply Forall_cons; try apply plain_v. constructor. Qed.

Theorem C83_unused_named_refuted : forall bliss sort hash, exists S N l M ords s,
  one_registry S /\ Forall made N /\ Forall (plain S) (indices N) /\ Forall (plain S) l /\
  canonicalize bliss sort hash [] (mkopts false true (Some l) true) N = Some (M, ords, s) /\
  exists (K : cring) (D : Type) (range : space -> list D) E ds ds' a, symmetric_elements (K := K) E /\
    dummies l N ds /\ dummies l M ds' /\
    total range ds (product E N) a <> signed s (total range ds' (product E M) a).
Proof.
  intros bliss sort hash. exists reg, loop3, [o 5]. eexists _, _, _. split; [apply reg_one|].
  split; [repeat (apply Forall_cons; [apply made_mat|]); constructor|]. split; [apply plain_loop3|].
  split; [constructor; [apply plain_o|constructor]|]. split; [vm_compute; reflexivity|].
  exists zring, bool, (fun _ => [false; true]), elems, [v 1; v 2; v 3], [v 1; v 2], (fun _ => false).
  split; [apply elems_symmetric|].
  split; [split; [repeat constructor; cbn; intuition discriminate|intros i; cbn; intuition (subst; auto; discriminate)]|].
  split; [split; [repeat constructor; cbn; intuition discriminate|intros i; cbn; intuition (subst; auto; discriminate)]|].
  vm_compute. discriminate.
Qed.

(** *** A proto-index that labels no slot *)

Definition vp (n : nat) : index := Idx vir (Some n) None [o 1].
Lemma made_pmat n a b : made (mat n (vp a) (vp b)).
Proof. apply (made_ctor [n] [vp a] [vp b] [] Nonsymm BKNonsymm ColSymm). reflexivity. Qed.
Definition ploop3 : list tensor := [mat 1 (vp 1) (vp 2); mat 2 (vp 2) (vp 3); mat 3 (vp 3) (vp 1)].
Theorem C83_pure_proto_refuted : forall bliss sort hash, exists S N M ords s,
  one_registry S /\ Forall made N /\ (forall i, In i (indices N) -> over S i /\ untagged i) /\
  canonicalize bliss sort hash [] (mkopts false true None true) N = Some (M, ords, s) /\
  exists (K : cring) (D : Type) (range : space -> list D) E ds ds' a, symmetric_elements (K := K) E /\
    dummies (externals N) N ds /\ dummies (externals N) M ds' /\
    total range ds (product E N) a <> signed s (total range ds' (product E M) a).
Proof.
  intros bliss sort hash. exists reg, ploop3. eexists _, _, _. split; [apply reg_one|].
  split; [repeat (apply Forall_cons; [apply made_pmat|]); constructor|].
  assert (Ok : forall n, over reg (vp n) /\ untagged (vp n)).
  { intros n. split; [apply over_intro; [apply reg_vir|]|apply untagged_intro]; (constructor; [apply clean_o|constructor]). }
  split; [cbn; intros i H; decompose [or] H; try contradiction; subst; apply Ok|]. split; [vm_compute; reflexivity|].
  replace (externals ploop3) with (@nil index) by (vm_compute; reflexivity).
  exists zring, bool, (fun _ => [false; true]), elems, [vp 1; vp 2; vp 3], [vp 1; vp 2], (fun _ => false).
  split; [apply elems_symmetric|].
  split; [split; [repeat constructor; cbn; intuition discriminate|intros i; cbn; intuition (subst; auto; discriminate)]|].
  split; [split; [repeat constructor; cbn; intuition discriminate|intros i; cbn; intuition (subst; auto; discriminate)]|].
  vm_compute. discriminate.
Qed.
End NetExample.
