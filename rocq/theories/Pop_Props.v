(** * Properties of removing tensors and transforming expressions *)
From Coq Require Import List Bool Arith Lia QArith Qcanon.
From Verif Require Import Num_Model Num_Proofs1 Pop_Model Pop_Spec Pop_Proofs Pop_Proofs2.
Import ListNotations.
Local Open Scope nat_scope.

(** ** C121: popping a tensor *)
Theorem C121_pop_partial : forall t e, carries t e -> normal e ->
  exists e', pop (t_label t) e = Some (Some t, e') /\ absent (t_label t) e' /\
    forall rho sigma, val rho sigma e = c_mul (rho (t_label t) (t_idx t)) (val rho sigma e').
Proof.
  intros t e C N. destruct (pop_carries (fun _ _ => c0) (fun _ => c0) t e C N) as (e' & P & _ & _ & A).
  exists e'. split; [exact P|]. split; [exact A|]. intros rho sigma.
  destruct (pop_carries rho sigma t e C N) as (e2 & P2 & V & _). rewrite P in P2. injection P2 as <-. exact V.
Qed.

Theorem C121_absent : forall l e, absent l e -> normal e ->
  exists e', pop l e = Some (None, e') /\ forall rho sigma, val rho sigma e' = val rho sigma e.
Proof.
  intros l e A N. destruct (pop_absent (fun _ _ => c0) (fun _ => c0) l e N A) as (e' & P & _).
  exists e'. split; [exact P|]. intros rho sigma.
  destruct (pop_absent rho sigma l e N A) as (e2 & P2 & V & _). rewrite P in P2. injection P2 as <-. exact V.
Qed.

(** ** C122: removing a tensor *)
Theorem C122_remove_partial : forall l e, flat e = true ->
  forall rho sigma, val rho sigma (remove_tensor l e) = val (set_one l rho) sigma e.
Proof. intros l e F rho sigma. now apply remove_flat. Qed.

Theorem C122_has_partial : forall l e, flat e = true -> (has_tensor l e = false <-> absent l e).
Proof. exact has_flat. Qed.

(** ** C123: transforming *)
Theorem C123_transform : forall m k e e', transform m k e = Some e' ->
  forall rho sigma, val rho sigma e' = c_mul k (val (renamed m rho) sigma e).
Proof. intros m k e e' E rho sigma. now apply transform_val. Qed.

Theorem C123_accepted : forall m k e, (exists e', transform m k e = Some e') <-> transformable e = true.
Proof. exact transform_some. Qed.

Module PopExamples.
  Definition S_ := mkT 9 [1; 2].
  Definition A := ETensor (mkT 1 [1; 3]).
  Definition B := ETensor (mkT 2 [3; 2]).
  Definition two : cplx := c_of (Q2Qc 2).
  (** 2 S A + S A (A + B). *)
  Definition e1 := ESum [EProd two [ETensor S_; A]; EProd c1 [ETensor S_; A; ESum [A; B]]].
  Example e1_carries : carries S_ e1 /\ normal e1.
  Proof.
    split.
    - apply carries_sum; [discriminate|]. constructor; [|constructor; [|constructor]].
      + apply (carries_factor S_ two [] [A]); [discriminate|]. constructor; [cbn; discriminate|constructor].
      + apply (carries_factor S_ c1 [] [A; ESum [A; B]]); [discriminate|].
        constructor; [cbn; discriminate|]. constructor; [cbn; repeat split; discriminate|constructor].
    - cbn. repeat split; discriminate.
  Qed.
  Example e1_pop : pop 9 e1 = Some (Some S_, ESum [EProd two [A]; EProd c1 [A; ESum [A; B]]]).
  Proof. reflexivity. Qed.
  Example flat_ok : flat (ESum [EProd two [ETensor S_; A]; B]) = true. Proof. reflexivity. Qed.
  Example transform_ok : transform [(1, 5); (3, 1)] two (EProd two [A; B]) =
    Some (EProd (c_mul two two) [ETensor (mkT 1 [5; 1]); ETensor (mkT 2 [1; 2])]).
  Proof. reflexivity. Qed.

  Definition one_rho : nat -> list nat -> cplx := fun k _ => if Nat.eqb k 9 then two else c1.
  (** Findings. *)
  (** A + S B passes: the tensor is popped although the first term does not have it. *)
  Theorem C121_mixed_refuted : exists e e', pop 9 e = Some (Some S_, e') /\ normal e /\
    val one_rho (fun _ => c0) e <> c_mul (one_rho (t_label S_) (t_idx S_)) (val one_rho (fun _ => c0) e').
  Proof.
    exists (ESum [A; EProd c1 [ETensor S_; B]]), (ESum [A; B]). split; [reflexivity|].
    split; [cbn; repeat split; discriminate|]. intros E. apply (f_equal re) in E. vm_compute in E. discriminate.
  Qed.
  (** The same terms in the other order fail an assertion. *)
  Theorem C121_order_refuted : pop 9 (ESum [EProd c1 [ETensor S_; B]; A]) = None.
  Proof. reflexivity. Qed.
  (** A tensor without other factors leaves 0, not 1; the scalar is lost. *)
  Theorem C121_alone_refuted : forall c, exists e', pop 9 (EProd c [ETensor S_]) = Some (Some S_, e') /\
    forall rho sigma, val rho sigma e' = c0.
  Proof. intros c. exists (EConst c0). split; reflexivity. Qed.
  (** Tensors in nested products and sums are neither found nor removed. *)
  Theorem C122_nested_refuted : let e := EProd c1 [A; ESum [ETensor S_; B]] in
    has_tensor 9 e = false /\ ~ absent 9 e /\
    val one_rho (fun _ => c0) (remove_tensor 9 e) <> val (set_one 9 one_rho) (fun _ => c0) e.
  Proof.
    cbv zeta. split; [reflexivity|]. split; [cbn; intuition congruence|].
    intros E. apply (f_equal re) in E. vm_compute in E. discriminate.
  Qed.
End PopExamples.
