(** bubble_sort. *)
From Coq Require Import ZArith List Arith Bool Permutation Sorted Lia.
From Verif Require Import Alg_Model Alg_Spec.
Import ListNotations.

Lemma filter_perm_len {A} (f : A -> bool) l l' :
  Permutation l l' -> length (filter f l) = length (filter f l').
Proof.
  intros P. induction P; cbn; auto; try lia.
  - destruct (f x); cbn; lia.
  - destruct (f x), (f y); cbn; lia.
Qed.

Lemma filter_len_le {A} (f : A -> bool) l : length (filter f l) <= length l.
Proof. induction l as [|x l IH]; cbn; auto. destruct (f x); cbn; lia. Qed.

Lemma inversions_bound {A} (lt : A -> A -> bool) l : inversions lt l <= length l * length l.
Proof.
  induction l as [|x l IH]; cbn; auto.
  assert (length (filter (fun y => lt y x) l) <= length l) by apply filter_len_le.
  nia.
Qed.

Section Bubble.
  Context {A : Type}.
  Variable comp : A -> A -> bool.
  Hypothesis SW : strict_weak comp.

  Lemma sw_asym x y : comp x y = true -> comp y x = false.
  Proof.
    destruct SW as (I & T & _). intros H. destruct (comp y x) eqn:E; auto.
    specialize (T _ _ _ H E). rewrite I in T. discriminate.
  Qed.

  Lemma pass_ok l : forall x r k, bubble_pass comp x l = (r, k) ->
    Permutation (x :: l) r /\
    inversions comp r + k = inversions comp (x :: l) /\
    (forall e, filter (equiv comp e) r = filter (equiv comp e) (x :: l)) /\
    (k = 0 -> r = x :: l /\ Sorted (fun a b => comp b a = false) r).
  Proof.
    induction l as [|y l IH]; intros x r k H; cbn in H.
    - injection H as <- <-. cbn. repeat split; auto.
    - destruct (comp y x) eqn:C.
      + destruct (bubble_pass comp x l) as (r', k') eqn:E. injection H as <- <-.
        destruct (IH _ _ _ E) as (P & I & F & _). repeat split; try (intros; lia).
        * rewrite perm_swap. constructor. auto.
        * cbn [inversions filter length]. rewrite C.
          rewrite <- (filter_perm_len (fun z => comp z y) _ _ P). cbn [filter].
          rewrite (sw_asym _ _ C). cbn [inversions length] in *. lia.
        * intros e. cbn [filter]. rewrite F. cbn [filter].
          destruct (equiv comp e y) eqn:E1, (equiv comp e x) eqn:E2; auto.
          exfalso. unfold equiv in *. apply andb_true_iff in E1, E2.
          rewrite !negb_true_iff in E1, E2. destruct SW as (_ & _ & N).
          rewrite (N y e x) in C; [discriminate| |]; tauto.
      + destruct (bubble_pass comp y l) as (r', k') eqn:E. injection H as <- <-.
        destruct (IH _ _ _ E) as (P & I & F & Z0). repeat split.
        * constructor. auto.
        * cbn [inversions filter length] in *. rewrite C.
          rewrite <- (filter_perm_len (fun z => comp z x) _ _ P). cbn [filter]. rewrite C. lia.
        * intros e. cbn [filter]. rewrite F. reflexivity.
        * destruct (Z0 H) as (-> & _). reflexivity.
        * destruct (Z0 H) as (-> & S). constructor; auto.
  Qed.

  Lemma loop_ok fuel : forall l, inversions comp l < fuel ->
    exists r, bubble_loop comp fuel l = Some (r, inversions comp l) /\
      Permutation l r /\ in_sorted_order comp r /\ same_order_of_equals comp l r.
  Proof.
    induction fuel as [|f IH]; intros l H; [lia|]. cbn.
    destruct l as [|x l].
    - exists []. repeat split; auto. constructor. 
    - destruct (bubble_pass comp x l) as (r, k) eqn:E.
      destruct (pass_ok _ _ _ _ E) as (P & I & F & Z0).
      destruct (Nat.eqb_spec k 0) as [->|Hk].
      + destruct (Z0 eq_refl) as (-> & S).
        assert (SS : in_sorted_order comp (x :: l)).
        { apply Sorted_StronglySorted; auto. intros a b c Hab Hbc. destruct SW as (_ & _ & N). eapply N; eauto. }
        assert (I0 : forall m, in_sorted_order comp m -> inversions comp m = 0).
        { clear. induction m as [|a m IHm]; intros SS; auto. cbn. inversion SS as [|? ? S1 S2]; subst.
          rewrite (IHm S1). clear - S2. induction S2 as [|b m Hb S2 IHS]; auto. cbn. rewrite Hb. auto. }
        exists (x :: l). rewrite (I0 _ SS). repeat split; auto.
      + destruct (IH r) as (r2 & E2 & P2 & S2 & F2); [lia|].
        exists r2. rewrite E2. cbn [option_map fst snd]. repeat split; auto.
        * do 2 f_equal. lia.
        * etransitivity; eauto.
        * intros e. rewrite <- F2. symmetry. apply F.
  Qed.

  Lemma bubble_ok l : exists r, bubble_sort comp l = Some (r, inversions comp l) /\
      Permutation l r /\ in_sorted_order comp r /\ same_order_of_equals comp l r.
  Proof. apply loop_ok. pose proof (inversions_bound comp l). lia. Qed.
End Bubble.

Lemma composite_lex {A} (comp : A -> A -> bool) a b :
  composite_compare comp a b = lex_pair comp a b.
Proof.
  unfold composite_compare, lex_pair, equiv. destruct (comp (fst a) (fst b)); cbn; auto.
Qed.

Lemma composite_sw {A} (comp : A -> A -> bool) : strict_weak comp -> strict_weak (composite_compare comp).
Proof.
  intros (I & T & N). unfold composite_compare.
  assert (As : forall x y, comp x y = true -> comp y x = false).
  { intros x y H. destruct (comp y x) eqn:E; auto. specialize (T _ _ _ H E). rewrite I in T. discriminate. }
  repeat split.
  - intros (a, b). cbn. rewrite I. cbn. apply I.
  - intros (a, b) (c, d) (e, f). cbn.
    destruct (comp a c) eqn:E1, (comp c a) eqn:E2, (comp c e) eqn:E3, (comp e c) eqn:E4; cbn;
      try discriminate; intros H1 H2;
      try (rewrite (As _ _ E1) in E2; discriminate); try (rewrite (As _ _ E3) in E4; discriminate).
    + rewrite (T a c e); auto.
    + destruct (comp a e) eqn:E5; auto. exfalso. rewrite (N a e c) in E1; auto; discriminate.
    + destruct (comp a e) eqn:E5; auto. exfalso. rewrite (N c a e) in E3; auto; discriminate.
    + destruct (comp a e) eqn:E5; auto. rewrite (N e c a); auto. cbn. eapply T; eauto.
  - intros (a, b) (c, d) (e, f). cbn.
    destruct (comp a c) eqn:E1, (comp c a) eqn:E2, (comp c e) eqn:E3, (comp e c) eqn:E4; cbn;
      try discriminate; intros H1 H2;
      try (rewrite (As _ _ E1) in E2; discriminate); try (rewrite (As _ _ E3) in E4; discriminate).
    + rewrite (N a c e); auto. rewrite (T e c a); auto.
    + rewrite (N a c e); auto.
      destruct (comp e a) eqn:E5; cbn; auto. exfalso. rewrite (N c e a) in E2; auto; discriminate.
    + rewrite (N a c e); auto.
      destruct (comp e a) eqn:E5; cbn; auto. exfalso. rewrite (N e a c) in E4; auto; discriminate.
    + rewrite (N a c e); auto. rewrite (N e c a); auto. cbn. eapply N; eauto.
Qed.

(** A comparison that is not strict: two equal elements are swapped for ever. *)
Lemma nonstrict_diverges fuel : bubble_loop Nat.leb fuel [1; 1] = None.
Proof. induction fuel as [|f IH]; auto. cbn [bubble_loop bubble_pass Nat.leb Nat.eqb]. rewrite IH. reflexivity. Qed.
