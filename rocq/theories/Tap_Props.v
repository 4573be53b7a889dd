(** * Properties of the TAPP backend *)
From Coq Require Import List Bool Arith Lia QArith Qcanon.
From Verif Require Import Num_Model Num_Proofs1 Tap_Model Tap_Spec Tap_Proofs.
Import ListNotations.
Local Open Scope nat_scope.

(** ** C124: row-major layout *)
(** The volume is the number of elements and the offsets are a bijection from the multi-indices
    within the extents to the positions of the buffer. *)
Theorem C124_layout : forall e, volume e = size e /\
  (forall idx, in_range e idx -> offset e idx < volume e) /\
  (forall i j, in_range e i -> in_range e j -> offset e i = offset e j -> i = j) /\
  (forall k, k < volume e -> exists idx, in_range e idx /\ offset e idx = k).
Proof.
  intros e. rewrite volume_size. split; [reflexivity|]. split; [apply offset_lt|]. split; [apply offset_inj|apply offset_surj].
Qed.

(** The order is lexicographic: the last index runs fastest. *)
Theorem C124_row_major : forall e pre a b i j, in_range e (pre ++ a :: i) -> in_range e (pre ++ b :: j) -> a < b ->
  offset e (pre ++ a :: i) < offset e (pre ++ b :: j).
Proof.
  intros e pre. revert e. induction pre as [|p pre IH]; intros e a b i j Hi Hj L; cbn [app] in *.
  - inversion Hi as [|? x ? e' L1 R1]; subst. inversion Hj as [|? ? ? ? L2 R2]; subst. rewrite !offset_cons.
    pose proof (offset_lt _ _ R1). nia.
  - inversion Hi as [|? x ? e' L1 R1]; subst. inversion Hj as [|? ? ? ? L2 R2]; subst. rewrite !offset_cons.
    specialize (IH e' a b i j R1 R2 L). lia.
Qed.

(** ** C125: operations on results *)
Section Ops.
  Variable tapp : cplx -> tensor -> list nat -> tensor -> list nat -> list nat -> list nat -> list cplx.
  Hypothesis T : tapp_product tapp.

  Lemma element_map : forall f t at_, f c0 = c0 -> element (mkT (ext t) (map f (data t))) at_ = f (element t at_).
  Proof. intros f t at_ H. unfold element. cbn [ext data]. rewrite <- H at 1. apply map_nth. Qed.
  Lemma nth_plus : forall a b k, List.length a = List.length b ->
    nth k (map (fun p => c_add (fst p) (snd p)) (combine a b)) c0 = c_add (nth k a c0) (nth k b c0).
  Proof.
    induction a as [|x a IH]; intros [|y b] k L; cbn in L; try discriminate.
    - destruct k; cbn [combine map nth]; ring.
    - destruct k; cbn [combine map nth fst snd]; [reflexivity|]. apply IH. lia.
  Qed.
  Lemma plus_ok : forall dim a b ls, annotated dim a ls -> annotated dim b ls ->
    annotated dim (plus a b) ls /\ forall at_, element (plus a b) at_ = c_add (element a at_) (element b at_).
  Proof.
    intros dim a b ls (EA & N & VA) (EB & _ & VB).
    assert (L : List.length (data a) = List.length (data b)) by (unfold valid in *; rewrite VA, VB, EA, EB; reflexivity).
    split.
    - split; [exact EA|]. split; [exact N|]. unfold valid, plus. cbn [ext data]. rewrite map_length, combine_length, <- L, Nat.min_id. exact VA.
    - intros at_. unfold element, plus. cbn [ext data]. rewrite nth_plus by exact L. now rewrite EA, EB.
  Qed.

  Theorem C125_sum : forall dim a b la ra ta, annotated dim a la -> annotated dim b ra -> NoDup ta ->
    (forall l, In l ta <-> In l la) -> (forall l, In l ta <-> In l ra) ->
    annotated dim (r_sum tapp a b la ra ta) ta /\
    forall at_, in_range (map dim ta) at_ ->
      element (r_sum tapp a b la ra ta) at_ = c_add (element a (reorder la ta at_)) (element b (reorder ra ta at_)).
  Proof.
    intros dim a b la ra ta HA HB N SA SB. destruct (permute_ok tapp T dim a la ta HA N SA) as [PA EA].
    destruct (permute_ok tapp T dim b ra ta HB N SB) as [PB EB]. destruct (plus_ok dim _ _ ta PA PB) as [P E].
    split; [exact P|]. intros at_ R. unfold r_sum. now rewrite E, EA, EB.
  Qed.

  Theorem C125_permute : forall dim a pre post, annotated dim a pre -> NoDup post -> (forall l, In l post <-> In l pre) ->
    annotated dim (r_permute tapp a pre post) post /\
    forall at_, in_range (map dim post) at_ -> element (r_permute tapp a pre post) at_ = element a (reorder pre post at_).
  Proof. exact (permute_ok tapp T). Qed.

  Theorem C125_adjoint : forall dim a pre post, annotated dim a pre -> NoDup post -> (forall l, In l post <-> In l pre) ->
    forall at_, in_range (map dim post) at_ -> element (r_adjoint tapp a pre post) at_ = c_conj (element a (reorder pre post at_)).
  Proof.
    intros dim a pre post HA N S at_ R. destruct (permute_ok tapp T dim a pre post HA N S) as [_ E].
    unfold r_adjoint. cbv zeta. rewrite element_map; [now rewrite E|]. apply c_eq; cbn; ring.
  Qed.

  Theorem C125_scale : forall dim a c la ta, annotated dim a la -> NoDup ta -> (forall l, In l ta <-> In l la) ->
    forall at_, in_range (map dim ta) at_ -> element (r_prod_scalar tapp a c la ta) at_ = c_mul (element a (reorder la ta at_)) c.
  Proof.
    intros dim a c la ta HA N S at_ R. destruct (permute_ok tapp T dim a la ta HA N S) as [_ E].
    unfold r_prod_scalar, scal. rewrite element_map; [now rewrite E|]. ring.
  Qed.
  Theorem C125_phase : forall a f at_, element (r_phase a f) at_ = c_mul (element a at_) f.
  Proof. intros a f at_. unfold r_phase, scal. rewrite element_map; [reflexivity|]. ring. Qed.

  (** Every label is in the result or in both operands; then both ways to multiply give the
      contraction, and never an assertion. *)
  Theorem C125_prod : forall dim a b la ra ta, annotated dim a la -> annotated dim b ra -> NoDup ta ->
    (forall l, In l ta -> In l la \/ In l ra) ->
    (forall l, In l la \/ In l ra -> In l ta \/ (In l la /\ In l ra)) ->
    match r_prod tapp a b la ra ta with
    | Some (RScalar c) => ta = [] /\ c = contraction dim (element a) la (element b) ra [] []
    | Some (RTensor t) => annotated dim t ta /\
        forall at_, in_range (map dim ta) at_ -> element t at_ = contraction dim (element a) la (element b) ra ta at_
    | None => False
    end.
  Proof.
    intros dim a b la ra ta HA HB N S1 S2. unfold r_prod. destruct ta as [|x ta].
    - split; [reflexivity|]. apply (full_contraction tapp T); auto.
      intros l. split; intros I; [destruct (S2 l (or_introl I)) as [[]|[? ?]]|destruct (S2 l (or_intror I)) as [[]|[? ?]]]; assumption.
    - unfold contract. rewrite (extents_ok dim a la b ra (x :: ta)); [|apply HA|apply HB|exact S1].
      destruct (T dim c1 a la b ra (x :: ta) HA HB N S1) as [V E]. split; [split; [reflexivity|split; [exact N|exact V]]|].
      intros at_ R. rewrite (E at_ R). ring.
  Qed.
End Ops.

(** The promise asked of the library can be kept. *)
Theorem C125_library_exists : tapp_product reference.
Proof. exact reference_ok. Qed.

Module TapExamples.
  Definition q (z : Z) : cplx := c_of (Q2Qc (inject_Z z)).
  Example strides_234 : strides [2; 3; 4] = [12; 4; 1] /\ volume [2; 3; 4] = 24 /\ offset [2; 3; 4] [1; 2; 3] = 23.
  Proof. repeat split; reflexivity. Qed.
  Definition A := mkT [2; 3] [q 1; q 2; q 3; q 4; q 5; q 6].
  Definition B := mkT [3; 2] [q 1; q 0; q 2; q 0; q 0; q 1].
  Definition dim (l : nat) : nat := if Nat.eqb l 8 then 3 else 2.
  Example A_ok : annotated dim A [7; 8] /\ annotated dim B [8; 9].
  Proof.
    repeat split; try reflexivity; (constructor; [cbn; intros [H|[]]; discriminate|constructor; [intros []|constructor]]).
  Qed.
  Example full : r_prod reference A B [7; 8] [8; 7] [] = Some (RScalar (q 11)).
  Proof. vm_compute. f_equal. Qed.
End TapExamples.
