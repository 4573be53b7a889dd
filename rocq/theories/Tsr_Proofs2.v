(** The comparers of the canonicalizers. *)
From Coq Require Import ZArith List Arith Bool Permutation Lia.
From Verif Require Import Tsr_Model Tsr_Spec Tsr_Proofs1 Alg_Spec Alg_Model Alg_Proofs2.
Import ListNotations.

Definition zof (c : comparison) : Z := match c with Lt => (-1)%Z | Eq => 0%Z | Gt => 1%Z end.
Lemma zof_0 c : (zof c =? 0)%Z = match c with Eq => true | _ => false end.
Proof. destruct c; auto. Qed.
Lemma zof_neg c : (zof c <? 0)%Z = match c with Lt => true | _ => false end.
Proof. destruct c; auto. Qed.

Lemma compare_spaces_unfold s o t ps s' o' t' ps' : compare_spaces (Idx s o t ps) (Idx s' o' t' ps') =
  if negb (space_eqb s s') then (if space_ltb s s' then (-1)%Z else 1%Z)
  else match ps, ps' with
       | [], _ :: _ => 1%Z
       | _ :: _, [] => (-1)%Z
       | _, _ =>
           if negb (length ps =? length ps') then (if length ps <? length ps' then (-1)%Z else 1%Z)
           else (fix go (l l' : list index) {struct l} : Z :=
                   match l, l' with
                   | x :: m, y :: m' => if (compare_spaces x y =? 0)%Z then go m m' else compare_spaces x y
                   | _, _ => 0%Z
                   end) ps ps'
       end.
Proof. reflexivity. Qed.

Lemma compare_spaces_key S : one_registry S -> forall i j, over S i -> over S j ->
  compare_spaces i j = zof (hcmp (shape i) (shape j)).
Proof.
  intros R. induction i as [s o t ps F] using index_ind'. intros [s' o' t' ps'] O O'.
  rewrite compare_spaces_unfold. cbn [shape]. rewrite hcmp_unfold. cbn [ocmp].
  rewrite space_eqb_scmp, (space_ltb_reg S s s'); auto; try (exact (over_space _ _ _ _ _ O)); try (exact (over_space _ _ _ _ _ O')).
  destruct (scmp s s'); cbn [negb cthen zof]; auto. rewrite !map_length.
  pose proof (over_proto _ _ _ _ _ O) as OP. pose proof (over_proto _ _ _ _ _ O') as OP'. clear O O'.
  assert (G : length ps = length ps' ->
    (fix go (l l' : list index) {struct l} : Z :=
                   match l, l' with
                   | x :: m, y :: m' => if (compare_spaces x y =? 0)%Z then go m m' else compare_spaces x y
                   | _, _ => 0%Z
                   end) ps ps' = zof (lcmp hcmp (map shape ps) (map shape ps') >> Eq >> Eq)).
  { clear - F OP OP'. revert ps' OP'. induction F as [|x l Hx F IH]; intros [|y m] OP' L; cbn; auto; try discriminate.
    inversion OP; inversion OP'; subst. rewrite Hx; auto. rewrite zof_0.
    destruct (hcmp (shape x) (shape y)); cbn; auto. }
  destruct ps as [|x l]; [destruct ps' as [|y m]; auto|]. destruct ps' as [|y m]; auto.
  destruct (Nat.eqb_spec (length (x :: l)) (length (y :: m))) as [E|E].
  - rewrite (G E), E. rewrite (TO_refl _ _ TO_ncmp). auto.
  - cbn [negb]. cbn [length] in *. cbn [ncmp]. rewrite Nat.ltb_compare. cbn [Nat.compare].
    destruct (Nat.compare_spec (length l) (length m)); auto. lia.
Qed.

Lemma compare_tags_key i j : (ix_tag i = None <-> ix_tag j = None) ->
  compare_tags i j = zof (ocmp Z.compare (ix_tag i) (ix_tag j)).
Proof.
  unfold compare_tags. intros T. destruct (ix_tag i) as [a|], (ix_tag j) as [b|]; cbn; auto.
  - rewrite (zif a b Z). destruct (Z.compare a b); auto.
  - destruct T as (_ & T). specialize (T eq_refl). discriminate.
  - destruct T as (T & _). specialize (T eq_refl). discriminate.
Qed.

Definition bkey (i : index) := (shape i, ix_tag i).
Definition bcmp := pcmp hcmp (ocmp Z.compare).
Lemma TO_bcmp : TO bcmp.
Proof. apply TO_pair; [apply TO_hcmp|apply TO_opt, TO_Z]. Qed.
Definition bkey2 (p : index * index) := (shape (fst p), (shape (snd p), (ix_tag (fst p), ix_tag (snd p)))).
Definition bcmp2 := pcmp hcmp (pcmp hcmp (pcmp (ocmp Z.compare) (ocmp Z.compare))).
Lemma TO_bcmp2 : TO bcmp2.
Proof. repeat apply TO_pair; try apply TO_hcmp; apply TO_opt, TO_Z. Qed.

(** either both tagged or both not *)
Definition same_style (i j : index) : Prop := ix_tag i = None <-> ix_tag j = None.

Lemma block_compare_key S i j : one_registry S -> over S i -> over S j -> same_style i j ->
  block_compare i j = zof (bcmp (bkey i) (bkey j)).
Proof.
  intros R O O' T. unfold block_compare, bcmp, bkey, pcmp. cbn [fst snd].
  rewrite (compare_spaces_key S); auto. rewrite zof_0. destruct (hcmp (shape i) (shape j)); cbn [cthen]; auto.
  apply compare_tags_key; auto.
Qed.
Lemma block_compare_pair_key S p q : one_registry S -> over S (fst p) -> over S (fst q) -> over S (snd p) -> over S (snd q) ->
  same_style (fst p) (fst q) -> same_style (snd p) (snd q) ->
  block_compare_pair p q = zof (bcmp2 (bkey2 p) (bkey2 q)).
Proof.
  intros R O1 O2 O3 O4 T1 T2. unfold block_compare_pair, bcmp2, bkey2, pcmp. cbn [fst snd].
  rewrite !(compare_spaces_key S), !compare_tags_key; auto. rewrite !zof_0.
  destruct (hcmp (shape (fst p)) (shape (fst q))); cbn [negb cthen]; auto.
  destruct (hcmp (shape (snd p)) (shape (snd q))); cbn [negb cthen]; auto.
  destruct (ocmp Z.compare (ix_tag (fst p)) (ix_tag (fst q))); cbn [negb cthen]; auto.
Qed.

Definition tkey (i : index) := (bkey i, i).
Definition tcmp' := pcmp bcmp tcmp.
Lemma TO_tcmp' : TO tcmp'.
Proof. apply TO_pair; [apply TO_bcmp|apply TO_tcmp]. Qed.
Definition tkey2 (p : index * index) := (bkey2 p, p).
Definition tcmp2' := pcmp bcmp2 (pcmp tcmp tcmp).
Lemma TO_tcmp2' : TO tcmp2'.
Proof. apply TO_pair; [apply TO_bcmp2|apply TO_pair; apply TO_tcmp]. Qed.

(** uniformly tagged or uniformly not tagged *)
Definition uniform (i j : index) : Prop := (untagged i /\ untagged j) \/ (tagged i /\ tagged j).
Lemma uniform_style i j : uniform i j -> same_style i j.
Proof.
  intros [(U & U')|(((a & A) & _) & ((b & B) & _))]; unfold same_style.
  - rewrite (U _ (part_self _)), (U' _ (part_self _)). tauto.
  - rewrite A, B. split; discriminate.
Qed.
Lemma uniform_cmp S i j : one_registry S -> over S i -> over S j -> uniform i j -> ix_cmp i j = tcmp i j.
Proof. intros R O O' [(U & U')|(U & U')]; [apply (ix_cmp_untagged S)|apply (ix_cmp_tagged S)]; auto. Qed.
Lemma uniform_eq i j : uniform i j -> ix_tag i = ix_tag j -> (ix_eqb i j = true <-> i = j).
Proof.
  intros U T. rewrite ix_eqb_spec. split; [|intros ->; auto].
  destruct i as [s o t ps], j as [s' o' t' ps']. cbn in *. subst t'. intros [= -> -> E].
  assert (P : Forall untagged ps /\ Forall untagged ps').
  { destruct U as [(U & U')|((_ & U) & (_ & U'))].
    - split; eapply untagged_proto; eauto.
    - split; apply Forall_forall; auto. }
  rewrite !identity_map in E; try tauto. congruence.
Qed.

Lemma tensor_less_key S i j : one_registry S -> over S i -> over S j -> uniform i j ->
  tensor_less i j = key_less tcmp' tkey i j.
Proof.
  intros R O O' U. pose proof (uniform_style _ _ U) as T.
  unfold tensor_less, key_less, tcmp', tkey, pcmp. cbn [fst snd].
  rewrite (block_compare_key S); auto. rewrite zof_0, zof_neg. unfold ix_ltb. rewrite (uniform_cmp S); auto.
  destruct (bcmp (bkey i) (bkey j)); auto.
Qed.

Lemma tensor_less_pair_key S p q : one_registry S -> over S (fst p) -> over S (fst q) -> over S (snd p) -> over S (snd q) ->
  uniform (fst p) (fst q) -> uniform (snd p) (snd q) ->
  tensor_less_pair p q = key_less tcmp2' tkey2 p q.
Proof.
  intros R O1 O2 O3 O4 U1 U2. pose proof (uniform_style _ _ U1) as T1. pose proof (uniform_style _ _ U2) as T2.
  unfold tensor_less_pair, key_less, tcmp2', tkey2. unfold pcmp at 1. cbn [fst snd].
  rewrite (block_compare_pair_key S); auto. rewrite zof_0, zof_neg. unfold ix_ltb. rewrite !(uniform_cmp S); auto.
  destruct (bcmp2 (bkey2 p) (bkey2 q)) eqn:B; auto. cbn [negb cthen]. unfold pcmp.
  apply TO_bcmp2 in B. injection B as _ _ B1 B2.
  pose proof (uniform_eq _ _ U1 B1) as E.
  destruct (ix_eqb (fst p) (fst q)) eqn:X.
  - cbn. rewrite (proj1 E eq_refl), (TO_refl _ _ TO_tcmp). auto.
  - cbn. destruct (tcmp (fst p) (fst q)) eqn:C; auto. apply TO_tcmp in C. apply E in C. discriminate.
Qed.

Lemma block_less_key S i j : one_registry S -> over S i -> over S j -> same_style i j ->
  block_less i j = key_less bcmp bkey i j.
Proof. intros R O O' T. unfold block_less. rewrite (block_compare_key S); auto. rewrite zof_neg. auto. Qed.
Lemma block_less_pair_key S p q : one_registry S -> over S (fst p) -> over S (fst q) -> over S (snd p) -> over S (snd q) ->
  same_style (fst p) (fst q) -> same_style (snd p) (snd q) ->
  block_less_pair p q = key_less bcmp2 bkey2 p q.
Proof. intros. unfold block_less_pair. rewrite (block_compare_pair_key S); auto. rewrite zof_neg. auto. Qed.

(* ---------- from keys to orders on a set ---------- *)

Lemma on_set {A B} (U : A -> Prop) (c : B -> B -> comparison) (f : A -> B) (lt : A -> A -> bool) :
  TO c -> (forall x y, U x -> U y -> lt x y = key_less c f x y) ->
  strict_weak_on U lt (fun x y => f x = f y).
Proof.
  intros C H. destruct (key_strict_weak c f C) as (I & T & N & E). split; [|split; [|split]].
  - intros x X. rewrite H; auto.
  - intros x y z X Y Z. rewrite !H; auto. apply T; auto.
  - intros x y z X Y Z. rewrite !H; auto. apply N; auto.
  - intros x y X Y. rewrite !H; auto.
Qed.

(* ---------- bubble sort only looks at what is in the range ---------- *)

Lemma bubble_pass_ext {A} (c d : A -> A -> bool) l : forall x,
  (forall u v, In u (x :: l) -> In v (x :: l) -> c u v = d u v) -> bubble_pass c x l = bubble_pass d x l.
Proof.
  induction l as [|y l IH]; intros x H; cbn; auto.
  rewrite (H y x); [|right; left; auto|left; auto]. destruct (d y x).
  - rewrite IH; auto. intros u v Hu Hv. apply H; cbn in *; tauto.
  - rewrite IH; auto. intros u v Hu Hv. apply H; cbn in *; tauto.
Qed.
Lemma bubble_pass_swaps {A} (c : A -> A -> bool) l : forall x r k, bubble_pass c x l = (r, k) -> exchanges k (x :: l) r.
Proof.
  induction l as [|y l IH]; intros x r k; cbn.
  - intros [= <- <-]. constructor.
  - destruct (c y x).
    + destruct (bubble_pass c x l) as (r', k') eqn:E. intros [= <- <-]. apply (ex_swap k' [] x [] y l). cbn.
      pose proof (Verif.Alg_Proofs2.exchanges_ctx _ _ _ [y] [] (IH _ _ _ E)) as X. cbn in X. rewrite !app_nil_r in X. exact X.
    + destruct (bubble_pass c y l) as (r', k') eqn:E. intros [= <- <-].
      pose proof (Verif.Alg_Proofs2.exchanges_ctx _ _ _ [x] [] (IH _ _ _ E)) as X. cbn in X. rewrite !app_nil_r in X. exact X.
Qed.
Lemma bubble_swaps {A} (c : A -> A -> bool) l r k : bubble_sort c l = Some (r, k) -> exchanges k l r.
Proof.
  unfold bubble_sort. generalize (S (length l * length l)). intros n. revert l r k.
  induction n as [|n IH]; intros l r k; cbn; [discriminate|].
  destruct l as [|x l]; [intros [= <- <-]; constructor|].
  destruct (bubble_pass c x l) as (r', k') eqn:E. pose proof (bubble_pass_swaps _ _ _ _ _ E) as X.
  destruct (Nat.eqb_spec k' 0) as [->|N].
  - intros [= <- <-]. exact X.
  - destruct (bubble_loop c n r') as [(r2, k2)|] eqn:L; cbn; [|discriminate]. intros [= <- <-].
    eapply Verif.Alg_Proofs2.exchanges_trans; [exact X|apply IH; auto].
Qed.
Lemma bubble_ext {A} (c d : A -> A -> bool) l :
  (forall u v, In u l -> In v l -> c u v = d u v) -> bubble_sort c l = bubble_sort d l.
Proof.
  unfold bubble_sort. generalize (S (length l * length l)). intros n. revert l.
  induction n as [|n IH]; intros l H; cbn; auto. destruct l as [|x l]; auto.
  rewrite (bubble_pass_ext c d); auto. destruct (bubble_pass d x l) as (r, k) eqn:E.
  destruct (k =? 0); auto. rewrite IH; auto.
  pose proof (Verif.Alg_Proofs2.exchanges_perm _ _ _ (bubble_pass_swaps _ _ _ _ _ E)) as P.
  intros u v Hu Hv. apply H; (eapply Permutation_in; [apply Permutation_sym; exact P|auto]).
Qed.
