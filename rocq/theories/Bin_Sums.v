(** Sums over the values of indices. *)
From Coq Require Import List Arith Bool Lia Permutation Ring Ring_theory.
From Verif Require Import Idx_Model Bin_Model Bin_Spec.
Import ListNotations.

Section Sums.
  Variable K : Type.
  Variables (zero one : K) (add mul : K -> K -> K).
  Variable SR : semi_ring_theory zero one add mul eq.
  Add Ring Kring : SR.
  Variable dom : idx -> list nat.
  Notation ksum := (ksum K zero add).
  Notation kprod := (kprod K one mul).
  Notation sum_over := (sum_over K zero add dom).

  Definition ext (f : env -> K) : Prop := forall r r', (forall x, r x = r' x) -> f r = f r'.

  Lemma ksum_ext {X} (f g : X -> K) l : (forall x, In x l -> f x = g x) -> ksum (map f l) = ksum (map g l).
  Proof.
    induction l as [|x l IH]; intros H; cbn; auto. rewrite (H x (or_introl eq_refl)), IH; auto. intros y Hy. apply H. right. exact Hy.
  Qed.
  Lemma ksum_add {X} (f g : X -> K) l : ksum (map (fun x => add (f x) (g x)) l) = add (ksum (map f l)) (ksum (map g l)).
  Proof. induction l as [|x l IH]; cbn; [ring|]. rewrite IH. ring. Qed.
  Lemma ksum_zero {X} (l : list X) : ksum (map (fun _ => zero) l) = zero.
  Proof. induction l as [|x l IH]; cbn; auto. rewrite IH. ring. Qed.
  Lemma ksum_swap {X Y} (f : X -> Y -> K) l m :
    ksum (map (fun x => ksum (map (fun y => f x y) m)) l) = ksum (map (fun y => ksum (map (fun x => f x y) l)) m).
  Proof.
    induction l as [|x l IH]; cbn; [symmetry; apply ksum_zero|]. rewrite IH.
    rewrite <- (ksum_add (fun y => f x y) (fun y => ksum (map (fun x => f x y) l))). reflexivity.
  Qed.
  Lemma ksum_mul_r {X} (f : X -> K) c l : ksum (map (fun x => mul (f x) c) l) = mul (ksum (map f l)) c.
  Proof. induction l as [|x l IH]; cbn; [ring|]. rewrite IH. ring. Qed.
  Lemma ksum_app l m : ksum (l ++ m) = add (ksum l) (ksum m).
  Proof. induction l as [|x l IH]; cbn; [ring|]. rewrite IH. ring. Qed.
  Lemma kprod_snoc l x : kprod (l ++ [x]) = mul (kprod l) x.
  Proof. induction l as [|y l IH]; cbn; [ring|]. rewrite IH. ring. Qed.

  Lemma set_ext r r' x v : (forall y, r y = r' y) -> forall y, set r x v y = set r' x v y.
  Proof. intros H y. unfold set. destruct (Nat.eqb y x); auto. Qed.
  Lemma set_swap r x y v w : x <> y -> forall z, set (set r x v) y w z = set (set r y w) x v z.
  Proof.
    intros H z. unfold set. destruct (Nat.eqb_spec z y); destruct (Nat.eqb_spec z x); auto. congruence.
  Qed.
  Lemma set_set r x v w : forall z, set (set r x v) x w z = set r x w z.
  Proof. intros z. unfold set. destruct (Nat.eqb z x); auto. Qed.

  Lemma sum_over_ext xs f g r : (forall r, f r = g r) -> sum_over xs f r = sum_over xs g r.
  Proof. intros H. revert r. induction xs as [|x xs IH]; intros r; cbn; auto. apply ksum_ext. intros v _. apply IH. Qed.
  Lemma sum_over_env xs f : ext f -> ext (sum_over xs f).
  Proof.
    intros H. induction xs as [|x xs IH]; [exact H|]. intros r r' E. cbn. apply ksum_ext. intros v _. apply IH. apply set_ext. exact E.
  Qed.
  Lemma sum_over_app xs ys f r : sum_over (xs ++ ys) f r = sum_over xs (sum_over ys f) r.
  Proof. revert r. induction xs as [|x xs IH]; intros r; cbn; auto. apply ksum_ext. intros v _. apply IH. Qed.
  Lemma sum_over_perm xs ys f : ext f -> Permutation xs ys -> forall r, sum_over xs f r = sum_over ys f r.
  Proof.
    intros HE. induction 1 as [|x xs ys P IH|x y xs|xs ys zs P1 IH1 P2 IH2]; intros r; cbn; auto.
    - apply ksum_ext. intros v _. apply IH.
    - destruct (Nat.eq_dec x y) as [->|NE]; [reflexivity|]. rewrite ksum_swap. apply ksum_ext. intros v _. apply ksum_ext. intros w _.
      apply sum_over_env; auto. apply set_swap. congruence.
    - rewrite IH1. apply IH2.
  Qed.
  Lemma sum_over_same xs ys f r : ext f -> NoDup xs -> NoDup ys -> (forall x, In x xs <-> In x ys) -> sum_over xs f r = sum_over ys f r.
  Proof. intros HE H1 H2 H. apply sum_over_perm; auto. apply NoDup_Permutation; auto. Qed.
  Lemma sum_over_mul_r xs f g r : (forall r x v, In x xs -> g (set r x v) = g r) ->
    sum_over xs (fun r => mul (f r) (g r)) r = mul (sum_over xs f r) (g r).
  Proof.
    revert r. induction xs as [|x xs IH]; intros r H; cbn; auto. rewrite <- ksum_mul_r. apply ksum_ext. intros v _.
    rewrite IH by (intros; apply H; right; assumption). rewrite (H r x v) by (left; reflexivity). reflexivity.
  Qed.
  Lemma sum_over_indep xs f x v r : ext f -> (forall r v, f (set r x v) = f r) -> sum_over xs f (set r x v) = sum_over xs f r.
  Proof.
    intros HE H. revert r. induction xs as [|y xs IH]; intros r; cbn; auto. apply ksum_ext. intros w _.
    destruct (Nat.eq_dec x y) as [->|NE].
    - apply sum_over_env; auto. apply set_set.
    - rewrite (sum_over_env xs f HE _ _ (set_swap r x y v w NE)). apply IH.
  Qed.
  Lemma sum_over_set xs f x v r : ext f -> In x xs -> sum_over xs f (set r x v) = sum_over xs f r.
  Proof.
    intros HE. revert r. induction xs as [|y xs IH]; intros r HI; [destruct HI|]. cbn. apply ksum_ext. intros w _.
    destruct (Nat.eq_dec x y) as [->|NE].
    - apply sum_over_env; auto. apply set_set.
    - rewrite (sum_over_env xs f HE _ _ (set_swap r x y v w NE)). apply IH. destruct HI; congruence.
  Qed.
End Sums.
