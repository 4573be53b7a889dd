(** * Properties of the strategies of an export context *)
From Coq Require Import List Arith Bool.
From Verif Require Import Ecx_Model Ecx_Spec.
Import ListNotations.

Section EcxProps.
  Context {X : Type} (xeqb : X -> X -> bool) (xeqb_spec : forall x y, xeqb x y = true <-> x = y) (global : nat).
  Notation run := (run xeqb global).
  Notation make := (make global).
  Notation scope := (scope global).

  Lemma invariant m ks :
    current (run (make m) ks) = current_in (rev ks) /\
    forall n x, option_map load (strategies (run (make m) ks) n x) = load_in xeqb global m n x (rev ks) /\
                option_map zero (strategies (run (make m) ks) n x) = zero_in xeqb global m n x (rev ks).
  Proof.
    induction ks as [|k ks (IC & IH)] using rev_ind.
    - split; [reflexivity|]. intros n x. unfold load_in, zero_in. cbn. destruct (n =? global); [destruct (m x)|]; split; reflexivity.
    - unfold Ecx_Model.run in *. rewrite fold_left_app, rev_app_distr. cbn [fold_left rev app]. set (c := fold_left _ ks _) in *.
      assert (SC : forall id, resolve global c id = scope id (rev ks)).
      { intros [n|]; [reflexivity|]. unfold resolve, Ecx_Spec.scope. rewrite IC. reflexivity. }
      destruct k as [y l id|y z id|id]; cbn [step].
      + split; [exact IC|]. intros n x. unfold setLoadStrategy. rewrite SC. set (s := scope id (rev ks)).
        unfold put. cbn [strategies]. unfold load_in, zero_in. cbn [last_load last_zero]. fold s. rewrite (Nat.eqb_sym s n).
        destruct ((n =? s) && xeqb y x) eqn:E; [|apply IH].
        apply andb_true_iff in E. destruct E as (E1 & E2). apply Nat.eqb_eq in E1. apply xeqb_spec in E2. subst n y.
        destruct (IH s x) as (H1 & H2). unfold load_in, zero_in in H1, H2.
        destruct (strategies c s x) as [p|]; cbn [option_map load zero pair_of_load] in *; (split; [reflexivity|]);
          destruct (last_zero xeqb global s x (rev ks)), (if s =? global then m x else None), (last_load xeqb global s x (rev ks)); cbn in *; congruence.
      + split; [exact IC|]. intros n x. unfold setZeroStrategy. rewrite SC. set (s := scope id (rev ks)).
        unfold put. cbn [strategies]. unfold load_in, zero_in. cbn [last_load last_zero]. fold s. rewrite (Nat.eqb_sym s n).
        destruct ((n =? s) && xeqb y x) eqn:E; [|apply IH].
        apply andb_true_iff in E. destruct E as (E1 & E2). apply Nat.eqb_eq in E1. apply xeqb_spec in E2. subst n y.
        destruct (IH s x) as (H1 & H2). unfold load_in, zero_in in H1, H2.
        destruct (strategies c s x) as [p|]; cbn [option_map load zero pair_of_zero] in *; (split; [|reflexivity]);
          destruct (last_zero xeqb global s x (rev ks)), (if s =? global then m x else None), (last_load xeqb global s x (rev ks)); cbn in *; congruence.
      + split; [reflexivity|]. intros n x. apply IH.
  Qed.

  (** C155: after any history of calls, the strategies are those set last for all expressions, or else those
      set last for the current one, or else the defaults. *)
  Theorem C155_load m ks x :
    loadStrategy global (run (make m) ks) x = choose global (fun n => load_in xeqb global m n x (rev ks)) (current_in (rev ks)) Create.
  Proof.
    destruct (invariant m ks) as (IC & IH). unfold loadStrategy, entry, choose. rewrite <- IC.
    rewrite <- (proj1 (IH global x)). destruct (strategies _ global x); [reflexivity|]. cbn [option_map].
    destruct (current _) as [n|]; [|reflexivity]. rewrite <- (proj1 (IH n x)). destruct (strategies _ n x); reflexivity.
  Qed.
  Theorem C155_zero m ks x :
    zeroStrategy global (run (make m) ks) x = choose global (fun n => zero_in xeqb global m n x (rev ks)) (current_in (rev ks)) ZeroOnCreate.
  Proof.
    destruct (invariant m ks) as (IC & IH). unfold zeroStrategy, entry, choose. rewrite <- IC.
    rewrite <- (proj2 (IH global x)). destruct (strategies _ global x); [reflexivity|]. cbn [option_map].
    destruct (current _) as [n|]; [|reflexivity]. rewrite <- (proj2 (IH n x)). destruct (strategies _ n x); reflexivity.
  Qed.

  (** C156: a call in a scope that counts has its effect, and leaves the other strategy and other objects alone:
      the scope counts if it is that of all expressions and [x] is in it already, or if there is nothing about [x]
      in that of all expressions and it is the current one. *)
  Definition counts (c : context X) (x : X) (n : nat) : Prop :=
    (n = global /\ (strategies c global x <> None \/ entry global c x = None)) \/
    (strategies c global x = None /\ current c = Some n).
  Theorem C156_set_load_partial c x l id : counts c x (resolve global c id) ->
    let c' := setLoadStrategy xeqb global c x l id in
    loadStrategy global c' x = l /\ zeroStrategy global c' x = zeroStrategy global c x /\
    forall y, y <> x -> loadStrategy global c' y = loadStrategy global c y /\ zeroStrategy global c' y = zeroStrategy global c y.
  Proof.
    intros C. cbn zeta. unfold setLoadStrategy. set (n := resolve global c id) in *.
    assert (R : xeqb x x = true) by (apply xeqb_spec; reflexivity).
    split; [|split].
    - unfold loadStrategy, entry, put. cbn [strategies current]. rewrite R, !andb_true_r.
      destruct C as [(-> & _)|(G & Cu)]; [rewrite Nat.eqb_refl; destruct (strategies c global x); reflexivity|].
      rewrite G, Cu, Nat.eqb_refl. destruct (global =? n); destruct (strategies c n x); reflexivity.
    - unfold zeroStrategy, put. unfold entry at 1. cbn [strategies current]. rewrite R, !andb_true_r.
      destruct C as [(E & D)|(G & Cu)].
      + rewrite E, Nat.eqb_refl. destruct D as [D|D].
        * unfold entry. destruct (strategies c global x); [reflexivity|exfalso; apply D; reflexivity].
        * rewrite D. unfold entry in D. destruct (strategies c global x); [discriminate|reflexivity].
      + unfold entry. rewrite G, Cu, Nat.eqb_refl. destruct (Nat.eqb_spec global n) as [<-|N]; [rewrite G; reflexivity|].
        destruct (strategies c n x); reflexivity.
    - intros y N. assert (F : xeqb x y = false) by (destruct (xeqb x y) eqn:E; [apply xeqb_spec in E; congruence|reflexivity]).
      unfold loadStrategy, zeroStrategy, entry, put. cbn [strategies current]. rewrite F, andb_false_r.
      destruct (strategies c global y); [split; reflexivity|]. destruct (current c) as [k|]; [|split; reflexivity].
      rewrite andb_false_r. split; reflexivity.
  Qed.
  Theorem C156_set_zero_partial c x z id : counts c x (resolve global c id) ->
    let c' := setZeroStrategy xeqb global c x z id in
    zeroStrategy global c' x = z /\ loadStrategy global c' x = loadStrategy global c x /\
    forall y, y <> x -> loadStrategy global c' y = loadStrategy global c y /\ zeroStrategy global c' y = zeroStrategy global c y.
  Proof.
    intros C. cbn zeta. unfold setZeroStrategy. set (n := resolve global c id) in *.
    assert (R : xeqb x x = true) by (apply xeqb_spec; reflexivity).
    split; [|split].
    - unfold zeroStrategy, entry, put. cbn [strategies current]. rewrite R, !andb_true_r.
      destruct C as [(-> & _)|(G & Cu)]; [rewrite Nat.eqb_refl; destruct (strategies c global x); reflexivity|].
      rewrite G, Cu, Nat.eqb_refl. destruct (global =? n); destruct (strategies c n x); reflexivity.
    - unfold loadStrategy, put. unfold entry at 1. cbn [strategies current]. rewrite R, !andb_true_r.
      destruct C as [(E & D)|(G & Cu)].
      + rewrite E, Nat.eqb_refl. destruct D as [D|D].
        * unfold entry. destruct (strategies c global x); [reflexivity|exfalso; apply D; reflexivity].
        * rewrite D. unfold entry in D. destruct (strategies c global x); [discriminate|reflexivity].
      + unfold entry. rewrite G, Cu, Nat.eqb_refl. destruct (Nat.eqb_spec global n) as [<-|N]; [rewrite G; reflexivity|].
        destruct (strategies c n x); reflexivity.
    - intros y N. assert (F : xeqb x y = false) by (destruct (xeqb x y) eqn:E; [apply xeqb_spec in E; congruence|reflexivity]).
      unfold loadStrategy, zeroStrategy, entry, put. cbn [strategies current]. rewrite F, andb_false_r.
      destruct (strategies c global y); [split; reflexivity|]. destruct (current c) as [k|]; [|split; reflexivity].
      rewrite andb_false_r. split; reflexivity.
  Qed.
End EcxProps.

Module EcxExamples.
  Definition g := 99.
  Definition none : nat -> option pair := fun _ => None.
  Notation runN := (run Nat.eqb g).

  (** A context that meets the hypothesis of [C156_set_load_partial], both ways. *)
  Theorem counts_met : counts g (runN (make g none) [SetCurrent (Some 1); SetZero 5 NeverZero None]) 5 1 /\
    counts g (runN (make g none) [SetLoad 5 Load None]) 5 g.
  Proof. split; [right; split; reflexivity|left; split; [reflexivity|left; discriminate]]. Qed.

  (** Setting when to zero for all expressions resets how to load: the object was to be loaded in expression 1. *)
  Theorem C156_other_strategy_refuted :
    let c := runN (make g none) [SetCurrent (Some 1); SetLoad 5 Load None] in
    loadStrategy g c 5 = Load /\ loadStrategy g (setZeroStrategy Nat.eqb g c 5 NeverZero (Some g)) 5 = Create.
  Proof. split; reflexivity. Qed.

  (** A map given to the constructor that says when to zero only makes later settings of how to load, made while
      an expression is current, have no effect. *)
  Theorem C156_constructor_refuted :
    let c := make g (fun x => if x =? 5 then Some (pair_of_zero NeverZero) else None) in
    loadStrategy g (runN c [SetCurrent (Some 1); SetLoad 5 Load None]) 5 = Create.
  Proof. reflexivity. Qed.
End EcxExamples.
