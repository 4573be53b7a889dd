(** * Einsum letters *)
From Coq Require Import List Bool Arith Lia Ascii String.
From Verif Require Import Num_Model Ein_Model Ein_Spec.
Import ListNotations.

Lemma used_spec : forall m c, used m c = true <-> In c (map snd m).
Proof.
  intros m c. unfold used. rewrite existsb_exists. split.
  - intros (d & H & E). apply Ascii.eqb_eq in E. now subst.
  - intros H. exists c. split; [exact H|apply Ascii.eqb_refl].
Qed.

Definition wf (m : imap) : Prop := NoDup (map fst m) /\ NoDup (map snd m).
Definition extends (m m' : imap) : Prop := forall l c, find_char m l = Some c -> find_char m' l = Some c.

Lemma find_char_in : forall m l c, find_char m l = Some c -> In (l, c) m.
Proof.
  induction m as [|[k d] m IH]; cbn; intros l c E; [discriminate|].
  destruct (String.eqb_spec k l) as [->|]; [injection E as ->; now left|right; auto].
Qed.
Lemma find_char_none : forall m l, find_char m l = None -> ~ In l (map fst m).
Proof.
  induction m as [|[k d] m IH]; cbn; intros l E; [tauto|].
  destruct (String.eqb_spec k l) as [->|N]; [discriminate|]. intros [->|H]; [congruence|]. now apply (IH l).
Qed.

Lemma get_spec : forall chars l m c m', wf m -> get_einsum_index chars l m = Some (c, m') ->
  wf m' /\ extends m m' /\ find_char m' l = Some c /\ (forall k, In k (map fst m') <-> In k (map fst m) \/ k = l) /\
  (forall d, In d (map snd m') -> In d (map snd m) \/ In d chars \/ d = base_char l).
Proof.
  intros chars l m c m' [W1 W2] E. unfold get_einsum_index in E. destruct (find_char m l) as [d|] eqn:F.
  - injection E as -> ->. split; [now split|]. split; [now intros ? ?|]. split; [exact F|]. split; [|auto].
    intros k. split; [auto|]. intros [H| ->]; [exact H|]. apply find_char_in in F. apply (in_map fst) in F. exact F.
  - assert (G : exists d, (c, m') = (d, (l, d) :: m) /\ ~ In d (map snd m) /\ (In d chars \/ d = base_char l)).
    { destruct (used m (base_char l)) eqn:U.
      - destruct (find _ chars) as [d|] eqn:FD; [|discriminate]. injection E as <- <-. exists d.
        apply find_some in FD. destruct FD as [FD1 FD2]. apply negb_true_iff in FD2.
        split; [reflexivity|]. split; [|auto]. intros H. apply used_spec in H. congruence.
      - injection E as <- <-. exists (base_char l). split; [reflexivity|]. split; [|auto].
        intros H. apply used_spec in H. congruence. }
    destruct G as (d & E2 & ND & IC). injection E2 as -> ->. split.
    { split; cbn; constructor; auto. now apply find_char_none. }
    split.
    { intros k e H. cbn. destruct (String.eqb_spec l k) as [->|]; [congruence|exact H]. }
    split; [cbn; now rewrite String.eqb_refl|]. split.
    + intros k. cbn. split; [intros [<-|H]; auto|intros [H| ->]; auto].
    + intros e. cbn. intros [<-|H]; [|now left]. destruct IC; auto.
Qed.

Lemma subscript_spec : forall chars ls m cs m', wf m -> subscript chars ls m = Some (cs, m') ->
  wf m' /\ extends m m' /\ Forall2 (fun l c => find_char m' l = Some c) ls cs /\
  (forall k, In k (map fst m') <-> In k (map fst m) \/ In k ls) /\
  (forall d, In d (map snd m') -> In d (map snd m) \/ In d chars \/ exists l, In l ls /\ d = base_char l).
Proof.
  intros chars. induction ls as [|l ls IH]; intros m cs m' W E; cbn in E.
  - injection E as <- <-. split; [exact W|]. split; [now intros ? ?|]. split; [constructor|]. split; [|auto].
    intros k. cbn. tauto.
  - destruct (get_einsum_index chars l m) as [[c m1]|] eqn:G; [|discriminate].
    destruct (subscript chars ls m1) as [[cs' m2]|] eqn:S; [|discriminate]. injection E as <- <-.
    destruct (get_spec _ _ _ _ _ W G) as (W1 & X1 & F1 & K1 & L1).
    destruct (IH _ _ _ W1 S) as (W2 & X2 & F2 & K2 & L2).
    split; [exact W2|]. split; [intros k d H; auto|]. split; [constructor; auto|]. split.
    + intros k. rewrite K2, K1. cbn. intuition auto.
    + intros d H. destruct (L2 d H) as [H1|[H1|(k & H1 & H2)]]; [|auto|].
      * destruct (L1 d H1) as [H2|[H2|H2]]; auto. right. right. exists l. split; [now left|exact H2].
      * right. right. exists k. split; [now right|exact H2].
Qed.

Lemma find_char_inj : forall m, wf m -> forall k l c, find_char m k = Some c -> find_char m l = Some c -> k = l.
Proof.
  intros m [_ W] k l c A B. apply find_char_in in A, B.
  induction m as [|[k' d] m IH]; [destruct A|]. cbn in W. inversion W as [|? ? N W']; subst.
  destruct A as [A|A], B as [B|B].
  - congruence.
  - injection A as -> ->. exfalso. apply N. apply (in_map snd) in B. exact B.
  - injection B as -> ->. exfalso. apply N. apply (in_map snd) in A. exact A.
  - auto.
Qed.

(** Failure: all letters are taken. *)
Lemma get_none : forall chars l m, wf m -> NoDup chars -> get_einsum_index chars l m = None ->
  List.length chars <= List.length m /\ ~ In l (map fst m).
Proof.
  intros chars l m [W1 W2] ND E. unfold get_einsum_index in E. destruct (find_char m l) eqn:F; [discriminate|].
  destruct (used m (base_char l)); [|discriminate]. destruct (find _ chars) eqn:FD; [discriminate|].
  split; [|now apply find_char_none].
  rewrite <- (map_length snd m). apply NoDup_incl_length; [exact ND|]. intros c H.
  pose proof (find_none _ _ FD c H) as U. apply negb_false_iff in U. now apply used_spec.
Qed.

Lemma subscript_none : forall chars ls m, wf m -> NoDup chars -> subscript chars ls m = None ->
  exists ds, NoDup ds /\ List.length chars < List.length ds /\ forall d, In d ds -> In d (map fst m) \/ In d ls.
Proof.
  intros chars. induction ls as [|l ls IH]; intros m W ND E; cbn in E; [discriminate|].
  destruct (get_einsum_index chars l m) as [[c m1]|] eqn:G.
  - destruct (get_spec _ _ _ _ _ W G) as (W1 & X1 & F1 & K1 & L1).
    destruct (subscript chars ls m1) as [[cs m2]|] eqn:S; [discriminate|].
    destruct (IH _ W1 ND S) as (ds & A & B & C). exists ds. split; [exact A|]. split; [exact B|].
    intros d H. destruct (C d H) as [H1|H1]; [|cbn; auto]. apply K1 in H1. cbn. intuition auto.
  - destruct (get_none _ _ _ W ND G) as [A B]. exists (l :: map fst m). split; [constructor; [exact B|apply W]|].
    split; [cbn; rewrite map_length; lia|]. intros d [<-|H]; cbn; auto.
Qed.

Lemma wf_nil : wf []. Proof. split; constructor. Qed.
