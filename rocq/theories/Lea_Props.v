(** Theorems about the evaluation of a tensor. *)
From Coq Require Import List ZArith Bool Arith Lia Permutation.
From Verif Require Import Alg_Spec BT_Model Ev_Model Ev_Spec Ev_Proofs1 Ev_Proofs2 Ev_Proofs3 Ev_Proofs4 Ev_Props Tsr_Model Tsr_Spec Tsr_Proofs3 Tsr_Proofs6 Tsr_Props Lea_Model.
Import ListNotations.

(** ** C94: evaluating a tensor gives its value *)

(** [V] gives the values of the tensors with the label and the auxiliary indices of [t]; they have the
    declared symmetries. The leaf evaluator gives the value of the tensor of the leaf. Whatever is in
    the cache, the evaluation gives the value of [t] with the sign of the leaf. The sign is that of
    the changes of order; only antisymmetric tensors can have one. *)
Theorem C94_leaf_partial : forall (R : Type) (opp : R -> R), (forall x, opp (opp x) = x) ->
  forall (V : list index -> list index -> R) sort t n,
  tensor_leaf sort t = Some n ->
  respects opp (t_symm t) V -> (t_bk t = BKSymm -> forall b k, V b k = V k b) ->
  forall peq op_type vsum vprod vadj le custom hook keys own,
  let vphase (p : Z) x := if Z.eqb p 1 then x else opp x in
  let leafv (d : payload) := V (t_bra (fst d)) (t_ket (fst d)) in
  keys_sound op_type leaf_phase vsum vprod vadj vphase leafv peq [n] keys ->
  leaf_evaluator_ok leafv [n] own le ->
  (forall ce, custom = Some ce -> custom_ok op_type leaf_phase vsum vprod vadj vphase leafv [n] keys own ce) ->
  forall s checked fuel, sound_state op_type leaf_phase vsum vprod vadj vphase leafv own keys s -> 3 <= fuel ->
  exists a s' v, evaluate peq op_type leaf_phase vsum vprod vadj vphase le custom hook fuel checked n s = Done (Some a) s' /\
    nth_error (e_heap s') a = Some v /\
    V (t_bra t) (t_ket t) = vphase (leaf_phase (data n)) v /\
    (t_symm t <> Antisymm -> V (t_bra t) (t_ket t) = v).
Proof.
  intros R opp Opp V sort t n Hn Re Bk peq op_type vsum vprod vadj le custom hook keys own vphase leafv KS LE CU s checked fuel SS Fu.
  unfold tensor_leaf in Hn. destruct (block_apply sort [] t) as [(t', sg)|] eqn:B; [|discriminate]. cbn in Hn. injection Hn as <-.
  assert (PC : phases_cancel leaf_phase vphase).
  { intros d v. unfold vphase. destruct (Z.eqb (leaf_phase d) 1); auto. }
  assert (HK : hook_ok op_type vsum vprod vadj leafv [Leaf (t', sg)] hook).
  { intros d l r w (root & [<-|[]] & H). cbn in H. destruct H as [H|[]]; discriminate. }
  destruct (C20_value peq op_type leaf_phase vsum vprod vadj vphase leafv le custom hook keys own (Leaf (t', sg)) PC KS LE HK CU s checked fuel SS) as (a & s' & E & N & _); [cbn; lia|].
  cbn in N. exists a, s', (leafv (t', sg)). split; auto. split; auto.
  assert (W := C81_value sort [] t t' sg B R opp V Re Bk).
  assert (Sg : t_symm t <> Antisymm -> sg = false).
  { intros NA. destruct (block_related _ _ _ _ _ B) as [E1|(_ & _ & E1)]; destruct E1 as (_ & _ & _ & _ & _ & _ & _ & E1).
    - destruct (t_col t); [|tauto]. destruct (t_symm t); [tauto|congruence|]. destruct E1 as (? & ? & ? & ? & ? & ? & ? & ? & E1). tauto.
    - assert (S1 : t_symm (canonicalize_slots (swapped t)) = t_symm t /\ t_col (canonicalize_slots (swapped t)) = t_col t).
      { unfold canonicalize_slots. destruct (_ && _); [|split; reflexivity].
        destruct (take_pairs (t_bra (swapped t)) (t_ket (swapped t))) as ((cb & ck) & (rb & rk)). split; reflexivity. }
      destruct S1 as (S1 & S2). rewrite S1, S2 in E1.
      destruct (t_col t); [|tauto]. destruct (t_symm t); [tauto|congruence|]. destruct E1 as (? & ? & ? & ? & ? & ? & ? & ? & E1). tauto. }
  split.
  - rewrite W. unfold vphase, leaf_phase, leafv. cbn. destruct sg; reflexivity.
  - intros NA. rewrite W, (Sg NA). reflexivity.
Qed.

Module LeaExamples.
  Import TsrExample.
  Local Open Scope Z_scope.

  (** Antisymmetric values for two bra and two ket indices. *)
  Definition f (i : index) : Z := match ix_ord i with Some n => Z.of_nat n | None => 0 end.
  Definition g (l : list index) : Z := match l with [x; y] => f x - f y | _ => 0 end.
  Definition W (b k : list index) : Z := g b * g k.

  Lemma g_exchanges n l m : exchanges n l m -> g l = if Nat.odd n then - g m else g m.
  Proof.
    induction 1 as [l|k a x b y c m H IH]; [reflexivity|].
    assert (E : g (a ++ x :: b ++ y :: c) = - g (a ++ y :: b ++ x :: c)).
    { destruct a as [|a1 [|a2 a]], b as [|b1 b], c as [|c1 c]; cbn; try lia; try (destruct a; cbn; lia); destruct b; cbn; lia. }
    rewrite E, IH, Nat.odd_succ, <- Nat.negb_odd. destruct (Nat.odd k); cbn; lia.
  Qed.
  Lemma W_antisymm : respects Z.opp Antisymm W.
  Proof.
    intros b k b' k' n m Hn Hm. unfold W. rewrite (g_exchanges _ _ _ Hn), (g_exchanges _ _ _ Hm), Nat.odd_add.
    destruct (Nat.odd n), (Nat.odd m); cbn; lia.
  Qed.

  (** g(v1, o2; o1, o3): the block order has o2 before v1. *)
  Definition t0 := get (mk Antisymm BKConjugate [v 1; o 2] [o 1; o 3]).
  Definition peq (a b : payload) : bool := false.
  Definition op (_ : payload) : eop := OpSum.
  Definition bin (_ _ _ : payload) (x y : Z) : Z := x + y.
  Definition adj (_ _ : payload) (x : Z) : Z := x.
  Definition ph (p : Z) x := if Z.eqb p 1 then x else Z.opp x.
  Definition le (n : tree payload) (h : list Z) : nat * list Z :=
    (length h, h ++ [W (t_bra (fst (data n))) (t_ket (fst (data n)))]).
  Definition hook (_ : tree payload) (_ _ : Z) : option Z := None.

  (** The value of the tensor is lost: the evaluation of the leaf does not take the sign. *)
  Theorem C94_sign_refuted : exists n,
    made t0 /\ clean reg (slots t0) /\ respects Z.opp (t_symm t0) W /\ tensor_leaf bsort t0 = Some n /\
    let r := evaluate peq op leaf_phase bin bin adj ph le None hook 3 true n (mkest [] [] []) in
    (exists a s, r = Done (Some a) s /\ nth_error (e_heap s) a = Some (- W (t_bra t0) (t_ket t0))) /\
    W (t_bra t0) (t_ket t0) <> 0.
  Proof.
    eexists. split; [md|]. split; [cl|]. split; [exact W_antisymm|]. split; [reflexivity|]. cbv zeta. split.
    - eexists _, _. split; [vm_compute; reflexivity|]. vm_compute. reflexivity.
    - vm_compute. discriminate.
  Qed.

  (** The hypotheses of the theorem hold for this tensor and for a cache that has its leaf. *)
  Example C94_case : exists n, tensor_leaf bsort t0 = Some n /\ data n = (get (mk Antisymm BKConjugate [o 2; v 1] [o 1; o 3]), true) /\
    let leafv (d : payload) := W (t_bra (fst d)) (t_ket (fst d)) in
    keys_sound op leaf_phase bin bin adj ph leafv peq [n] [n] /\ leaf_evaluator_ok leafv [n] [] le.
  Proof.
    eexists. split; [reflexivity|]. split; [reflexivity|]. split.
    - intros m k (root & [<-|[]] & H) [<-|[]] E. cbn in H. destruct H as [<-|[]]. reflexivity.
    - intros m h H _ _. unfold le. cbn [fst snd]. split; [apply grows_app|]. split; [|right; auto].
      rewrite nth_error_app2, Nat.sub_diag by auto. reflexivity.
  Qed.
End LeaExamples.
