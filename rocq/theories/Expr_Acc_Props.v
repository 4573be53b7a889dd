(** C30: collecting like terms (HashingAccumulator, expr.cpp:489-567). *)
From Coq Require Import List Bool Arith ZArith Lia Permutation.
From Verif Require Import Wick_Spec Wick_Ring Expr_Model Expr_Spec Expr_Proofs1 Expr_Proofs2 Expr_Proofs3 Expr_Proofs5 Expr_Proofs6 Expr_Props.
Import ListNotations.

Section C30.
  Variable k : kops.
  Variable a : aops k.
  Variable i : interpretation k a.
  Notation E := (expr (K k) (A a)).
  (** two leaves that compare equal are the same leaf *)
  Hypothesis leaf_equality : forall x y, aeqb a x y = true <-> x = y.
  (** collect all of [xs], then read the elements of the set in some order [l] *)
  Definition collected (look : list E -> E -> option nat) (flat : bool) (xs l : list E) : Prop :=
    Permutation (fold_left (fun acc x => accumulate k a look flat x acc) xs []) l.

  (** Whatever the hash function does, the expression built has the value of the sum of the terms.
      Missing from the full property: at most one of the terms is a Constant, and they are in the
      form the constructors produce ([tidy]). Without the first the claim is false, see below. *)
  Theorem C30_value_partial look flat xs l : lookup_spec look ->
    Forall tidy (terms flat xs) -> count_const k a (terms flat xs) <= 1 -> collected look flat xs l ->
    exists e, make_expr k a l = Some e /\ ok e /\ value i e = rsum (map (value i) xs).
  Proof. intros Hl Ht Hn Hc. eapply collect_good; eauto. intros x y H. apply leaf_equality in H. now subst. Qed.

  (** If the hash function agrees with the equivalence, no two terms of the set are alike. *)
  Theorem C30_no_like_terms_partial look flat xs l : lookup_spec look -> lookup_complete look ->
    Forall tidy (terms flat xs) -> count_const k a (terms flat xs) <= 1 -> collected look flat xs l -> NoDup (map factors_of l).
  Proof.
    intros Hl Hlc Ht Hn Hc. eapply Permutation_NoDup; [apply Permutation_map; exact Hc|].
    apply (collect_keys k a i (fun x y H => f_equal (val i) (proj1 (leaf_equality x y) H)) leaf_equality look flat xs Hl Hlc [] (r0 _) 0); auto.
    split; [split; auto|constructor].
  Qed.
End C30.

Module AccExample.
  Import ExprExample.
  Local Open Scope Z_scope.
  (** a lookup that goes through the whole set, and one with the identity as hash function *)
  Fixpoint find_in (f : EX -> bool) (l : list EX) : option nat :=
    match l with [] => None | x :: l' => if f x then Some 0%nat else option_map S (find_in f l') end.
  Definition look_all (l : list EX) (x : EX) : option nat := find_in (fun y => proportional kz az y x) l.
  Definition bucket (x y : EX) : bool := match x, y with EConst z, EConst w => Z.eqb z w | _, _ => true end.
  Definition look_hash (l : list EX) (x : EX) : option nat := find_in (fun y => bucket y x && proportional kz az y x) l.
  Lemma find_in_some f l : forall j, find_in f l = Some j -> (j < length l)%nat /\ f (nth j l EErr) = true.
  Proof.
    induction l as [|x l IH]; intros j H; cbn in H; [discriminate|]. destruct (f x) eqn:Hf. - inversion H; subst. cbn. split; auto. lia.
    - destruct (find_in f l) as [j'|] eqn:Hj; cbn in H; [|discriminate]. inversion H; subst. destruct (IH j' eq_refl). cbn. split; auto. lia.
  Qed.
  Lemma look_all_spec : lookup_spec (k:=kz) (a:=az) look_all. Proof. intros acc x j H. apply find_in_some in H. exact H. Qed.
  Lemma look_hash_spec : lookup_spec (k:=kz) (a:=az) look_hash.
  Proof. intros acc x j H. apply find_in_some in H as [H1 H2]. apply andb_prop in H2 as [_ H2]. auto. Qed.
  Lemma look_all_complete : lookup_complete (k:=kz) (a:=az) look_all.
  Proof.
    intros acc x. unfold look_all. induction acc as [|y acc IH]; cbn [find_in]; intros H; constructor.
    - destruct (proportional kz az y x); [discriminate|auto]. - apply IH. destruct (proportional kz az y x); [discriminate|]. destruct (find_in _ acc); [discriminate|auto].
  Qed.
  Lemma leaf_eq x y : aeqb az x y = true <-> x = y.
  Proof.
    destruct x, y; cbn; split; intros H; try discriminate; auto. - apply andb_prop in H as [H1 H2]. apply Z.eqb_eq in H1. apply Nat.eqb_eq in H2. now subst.
    - inversion H; subst. now rewrite Z.eqb_refl, Nat.eqb_refl.
  Qed.
  (** u + 2 u + (u d + 3 - 3 u) + d: the terms in u cancel and are left out *)
  Definition xs1 : list EX := [u; pr 2 [u]; ESum (Some 1%nat) [pr 1 [u; d]; c 3; pr (-3) [u]]; d].
  Definition acc1 := fold_left (fun acc x => accumulate kz az look_all true x acc) xs1 [].
  Example xs1_hyps : Forall (tidy (k:=kz) (a:=az)) (terms (k:=kz) (a:=az) true xs1) /\ (count_const kz az (terms (k:=kz) (a:=az) true xs1) <= 1)%nat /\ collected kz az look_all true xs1 acc1.
  Proof. split; [repeat constructor|]. split; [vm_compute; auto|]. apply Permutation_refl. Qed.
  Example xs1_acc : acc1 = [pr 0 [u]; pr 1 [u; d]; c 3; d]. Proof. reflexivity. Qed.
  Example xs1_made : make_expr kz az acc1 = Some (ESum (Some 1%nat) [pr 1 [u; d]; c 3; d]). Proof. reflexivity. Qed.
  Example xs1_made_rev : make_expr kz az (rev acc1) = Some (ESum (Some 1%nat) [d; c 3; pr 1 [u; d]]). Proof. reflexivity. Qed.

  (** ** Counterexamples *)
  (** Two constants that fall in different buckets are both kept, and building the sum erases the
      second and then steps past the end: undefined behaviour. *)
  Theorem C30_two_constants_refuted : exists look xs l, lookup_spec look /\ collected kz az look true xs l /\ Forall (tidy (k:=kz) (a:=az)) xs /\ make_expr kz az l = None.
  Proof. exists look_hash, [c 2; c 3], [c 2; c 3]. split; [apply look_hash_spec|]. split; [apply Permutation_refl|]. split; [repeat constructor|]. reflexivity. Qed.
  (** Two constants that are found equivalent become twice the second. *)
  Theorem C30_merged_constants_refuted : exists look xs l e, lookup_spec look /\ collected kz az look true xs l /\ Forall (tidy (k:=kz) (a:=az)) xs /\
    make_expr kz az l = Some e /\ value int e <> rsum (map (value int) xs).
  Proof.
    exists look_all, [c 2; c 3], [pr 6 []], (pr 6 []). split; [apply look_all_spec|]. split; [apply Permutation_refl|]. split; [repeat constructor|].
    split; [reflexivity|]. vm_compute. discriminate.
  Qed.
  (** The constructor that takes a list of summands as it is, with a zero before a constant,
      records a wrong position for the constant; a later append then fails. *)
  Theorem C30_move_only_refuted : exists l st, Forall (tidy (k:=kz) (a:=az)) l /\ move_only kz az 9 l None 0 0 = Some st /\ ~ ok (k:=kz) (a:=az) (ESum (fst st) (snd st)).
  Proof.
    exists [c 0; u; c 2], (Some 0%nat, [u; c 2]). split; [repeat constructor|]. split; [reflexivity|]. intros [(z & Hz) _]. discriminate Hz.
  Qed.
End AccExample.

Print Assumptions C30_value_partial.
Print Assumptions C30_no_like_terms_partial.
