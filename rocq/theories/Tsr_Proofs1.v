(** Comparisons of indices. *)
From Coq Require Import ZArith List Arith Bool Permutation Lia.
From Verif Require Import Tsr_Model Tsr_Spec Alg_Spec Alg_Model.
Import ListNotations.

Fixpoint index_ind' (P : index -> Prop)
    (f : forall s o t ps, Forall P ps -> P (Idx s o t ps)) (i : index) : P i :=
  match i with
  | Idx s o t ps =>
      f s o t ps ((fix all l : Forall P l :=
                     match l with [] => Forall_nil _ | x :: m => Forall_cons _ (index_ind' P f x) (all m) end) ps)
  end.

(* ---------- total comparisons ---------- *)

Definition TO {A} (c : A -> A -> comparison) : Prop :=
  (forall x y, c x y = Eq <-> x = y) /\
  (forall x y, c y x = CompOpp (c x y)) /\
  (forall x y z, c x y = Lt -> c y z = Lt -> c x z = Lt).

Definition cthen (c d : comparison) : comparison := match c with Eq => d | Lt => Lt | Gt => Gt end.
Notation "c >> d" := (cthen c d) (at level 60, right associativity).

Lemma TO_refl {A} (c : A -> A -> comparison) x : TO c -> c x x = Eq.
Proof. intros (E & _). apply E. auto. Qed.

Lemma TO_Z : TO Z.compare.
Proof.
  split; [|split].
  - intros x y. apply Z.compare_eq_iff.
  - intros x y. apply Z.compare_antisym.
  - intros x y z. rewrite !Z.compare_lt_iff. lia.
Qed.
Lemma TO_nat : TO Nat.compare.
Proof.
  split; [|split].
  - intros x y. apply Nat.compare_eq_iff.
  - intros x y. apply Nat.compare_antisym.
  - intros x y z. rewrite !Nat.compare_lt_iff. lia.
Qed.

Definition ocmp {A} (c : A -> A -> comparison) (a b : option A) : comparison :=
  match a, b with
  | None, None => Eq | None, Some _ => Lt | Some _, None => Gt | Some x, Some y => c x y
  end.
Lemma TO_opt {A} (c : A -> A -> comparison) : TO c -> TO (ocmp c).
Proof.
  intros (E & S & T). split; [|split].
  - intros [x|] [y|]; cbn; split; intros H; try discriminate; auto.
    + f_equal. apply E; auto.
    + injection H as ->. apply E; auto.
  - intros [x|] [y|]; cbn; auto.
  - intros [x|] [y|] [z|]; cbn; intros H1 H2; try discriminate; auto. eauto.
Qed.

Definition pcmp {A B} (c : A -> A -> comparison) (d : B -> B -> comparison) (p q : A * B) : comparison :=
  c (fst p) (fst q) >> d (snd p) (snd q).
Lemma TO_pair {A B} (c : A -> A -> comparison) (d : B -> B -> comparison) : TO c -> TO d -> TO (pcmp c d).
Proof.
  intros (E & S & T) (E' & S' & T'). unfold pcmp. split; [|split].
  - intros (x, x') (y, y'). cbn. destruct (c x y) eqn:X; cbn.
    + apply E in X. subst y. rewrite E'. split; [intros ->; auto|intros [= ->]; auto].
    + split; [discriminate|]. intros [= -> ->]. rewrite (proj2 (E y y) eq_refl) in X. discriminate.
    + split; [discriminate|]. intros [= -> ->]. rewrite (proj2 (E y y) eq_refl) in X. discriminate.
  - intros (x, x') (y, y'). cbn. rewrite (S x y), (S' x' y'). destruct (c x y); auto.
  - intros (x, x') (y, y') (z, z'). cbn.
    destruct (c x y) eqn:X; cbn; try discriminate.
    + apply E in X. subst y. destruct (c x z); cbn; try discriminate; auto. apply T'.
    + intros _. destruct (c y z) eqn:Y; cbn; try discriminate.
      * apply E in Y. subst z. rewrite X. auto.
      * rewrite (T _ _ _ X Y). auto.
Qed.

Section Lcmp.
Context {A : Type} (c : A -> A -> comparison).
Fixpoint lcmp (l m : list A) {struct l} : comparison :=
  match l, m with
  | [], [] => Eq
  | [], _ :: _ => Lt
  | _ :: _, [] => Gt
  | x :: l', y :: m' => c x y >> lcmp l' m'
  end.
End Lcmp.

Lemma lcmp_eq {A} (c : A -> A -> comparison) l :
  Forall (fun x => forall y, c x y = Eq <-> x = y) l -> forall m, lcmp c l m = Eq <-> l = m.
Proof.
  intros F. induction F as [|x l Hx F IH]; intros [|y m]; cbn; split; intros H; try discriminate; auto.
  - destruct (c x y) eqn:E; cbn in H; try discriminate. apply Hx in E. apply IH in H. congruence.
  - injection H as -> ->. rewrite (proj2 (Hx y) eq_refl). cbn. apply IH. auto.
Qed.
Lemma lcmp_antisym {A} (c : A -> A -> comparison) l :
  Forall (fun x => forall y, c y x = CompOpp (c x y)) l -> forall m, lcmp c m l = CompOpp (lcmp c l m).
Proof.
  intros F. induction F as [|x l Hx F IH]; intros [|y m]; cbn; auto.
  rewrite Hx, IH. destruct (c x y); auto.
Qed.
Lemma lcmp_trans {A} (c : A -> A -> comparison) (E : forall x y, c x y = Eq <-> x = y) l :
  Forall (fun x => forall y z, c x y = Lt -> c y z = Lt -> c x z = Lt) l ->
  forall m n, lcmp c l m = Lt -> lcmp c m n = Lt -> lcmp c l n = Lt.
Proof.
  intros F. induction F as [|x l Hx F IH]; intros [|y m] [|z n]; cbn; intros H1 H2; try discriminate; auto.
  destruct (c x y) eqn:X; cbn in H1; try discriminate.
  - apply E in X. subst y. destruct (c x z); cbn in *; auto. eapply IH; eauto.
  - destruct (c y z) eqn:Y; cbn in H2; try discriminate.
    + apply E in Y. subst z. rewrite X. auto.
    + rewrite (Hx _ _ X Y). auto.
Qed.
Lemma TO_list {A} (c : A -> A -> comparison) : TO c -> TO (lcmp c).
Proof.
  intros (E & S & T). split; [|split].
  - intros l m. apply lcmp_eq. apply Forall_forall. auto.
  - intros l m. apply lcmp_antisym. apply Forall_forall. auto.
  - intros l m n. apply lcmp_trans; auto. apply Forall_forall. intros x _. apply T.
Qed.

Lemma TO_inj {A B} (c : B -> B -> comparison) (f : A -> B) :
  (forall x y, f x = f y -> x = y) -> TO c -> TO (fun x y => c (f x) (f y)).
Proof.
  intros F (E & S & T). split; [|split]; eauto.
  intros x y. rewrite E. split; [apply F|intros ->; auto].
Qed.

(* ---------- the two orders of indices ---------- *)

Definition scmp (a b : space) : comparison :=
  Z.compare (sp_qns a) (sp_qns b) >> Z.compare (sp_type a) (sp_type b) >> Z.compare (sp_key a) (sp_key b).
Lemma TO_space : TO scmp.
Proof.
  pose proof (TO_inj (pcmp Z.compare (pcmp Z.compare Z.compare)) (fun s => (sp_qns s, (sp_type s, sp_key s)))) as H.
  apply H.
  - intros [a b c] [x y z]. cbn. congruence.
  - repeat apply TO_pair; apply TO_Z.
Qed.

(** by quantum numbers, tag, space, ordinal, proto-indices *)
Fixpoint tcmp (i j : index) {struct i} : comparison :=
  match i, j with
  | Idx s o t ps, Idx s' o' t' ps' =>
      Z.compare (sp_qns s) (sp_qns s') >> ocmp Z.compare t t' >> scmp s s' >> ocmp Nat.compare o o' >>
      (fix lex (l l' : list index) {struct l} : comparison :=
         match l, l' with
         | [], [] => Eq
         | [], _ :: _ => Lt
         | _ :: _, [] => Gt
         | x :: m, y :: m' => tcmp x y >> lex m m'
         end) ps ps'
  end.
Lemma tcmp_unfold s o t ps s' o' t' ps' : tcmp (Idx s o t ps) (Idx s' o' t' ps') =
  Z.compare (sp_qns s) (sp_qns s') >> ocmp Z.compare t t' >> scmp s s' >> ocmp Nat.compare o o' >> lcmp tcmp ps ps'.
Proof. reflexivity. Qed.

(** by space, number of proto-indices (none is last), proto-indices, then the rest *)
Definition ncmp (n m : nat) : comparison :=
  match n, m with
  | 0, 0 => Eq | 0, S _ => Gt | S _, 0 => Lt | S a, S b => Nat.compare a b
  end.
Lemma TO_ncmp : TO ncmp.
Proof.
  destruct TO_nat as (E & S & T). split; [|split].
  - intros [|x] [|y]; cbn; split; intros H; try discriminate; auto.
    + f_equal. apply E. auto.
    + apply E. congruence.
  - intros [|x] [|y]; cbn; auto.
  - intros [|x] [|y] [|z]; cbn; intros H1 H2; try discriminate; auto. eauto.
Qed.
Fixpoint hcmp (i j : index) {struct i} : comparison :=
  match i, j with
  | Idx s o t ps, Idx s' o' t' ps' =>
      scmp s s' >> ncmp (length ps) (length ps') >>
      (fix lex (l l' : list index) {struct l} : comparison :=
         match l, l' with
         | [], [] => Eq
         | [], _ :: _ => Lt
         | _ :: _, [] => Gt
         | x :: m, y :: m' => hcmp x y >> lex m m'
         end) ps ps' >> ocmp Nat.compare o o' >> ocmp Z.compare t t'
  end.
Lemma hcmp_unfold s o t ps s' o' t' ps' : hcmp (Idx s o t ps) (Idx s' o' t' ps') =
  scmp s s' >> ncmp (length ps) (length ps') >> lcmp hcmp ps ps' >> ocmp Nat.compare o o' >> ocmp Z.compare t t'.
Proof. reflexivity. Qed.

(** lexicographic comparison of tuples, with the last component(s) known on one side only *)
Lemma cthen_eq c d : c >> d = Eq <-> c = Eq /\ d = Eq.
Proof. destruct c; cbn; split; try tauto; try discriminate; intros (H & _); discriminate. Qed.
Lemma cthen_opp c d : CompOpp (c >> d) = CompOpp c >> CompOpp d.
Proof. destruct c; auto. Qed.
Lemma cthen_trans {A} (c : A -> A -> comparison) (C : TO c) a b e d1 d2 d3 :
  (d1 = Lt -> d2 = Lt -> d3 = Lt) -> c a b >> d1 = Lt -> c b e >> d2 = Lt -> c a e >> d3 = Lt.
Proof.
  intros D. destruct C as (E & S & T).
  destruct (c a b) eqn:X; cbn; try discriminate.
  - apply E in X. subst b. destruct (c a e); cbn; try discriminate; auto.
  - intros _. destruct (c b e) eqn:Y; cbn; try discriminate.
    + apply E in Y. subst e. rewrite X. auto.
    + rewrite (T _ _ _ X Y). auto.
Qed.

Lemma TO_tcmp : TO tcmp.
Proof.
  assert (E : forall x y, tcmp x y = Eq <-> x = y).
  { induction x as [s o t ps F] using index_ind'. intros [s' o' t' ps']. rewrite tcmp_unfold, !cthen_eq.
    rewrite (proj1 TO_Z), (proj1 (TO_opt _ TO_Z)), (proj1 TO_space), (proj1 (TO_opt _ TO_nat)), (lcmp_eq _ _ F).
    split; [intros (_ & -> & -> & -> & ->); auto|]. intros [= -> -> -> ->]. tauto. }
  split; [|split]; auto.
  - induction x as [s o t ps F] using index_ind'. intros [s' o' t' ps']. rewrite !tcmp_unfold, !cthen_opp.
    rewrite (proj1 (proj2 TO_Z) (sp_qns s)), (proj1 (proj2 (TO_opt _ TO_Z)) t), (proj1 (proj2 TO_space) s),
            (proj1 (proj2 (TO_opt _ TO_nat)) o), (lcmp_antisym _ _ F). auto.
  - induction x as [s o t ps F] using index_ind'. intros [s' o' t' ps'] [s'' o'' t'' ps'']. rewrite !tcmp_unfold.
    apply (cthen_trans _ TO_Z). apply (cthen_trans _ (TO_opt _ TO_Z)). apply (cthen_trans _ TO_space).
    apply (cthen_trans _ (TO_opt _ TO_nat)). apply lcmp_trans; auto.
Qed.

Lemma TO_hcmp : TO hcmp.
Proof.
  assert (E : forall x y, hcmp x y = Eq <-> x = y).
  { induction x as [s o t ps F] using index_ind'. intros [s' o' t' ps']. rewrite hcmp_unfold, !cthen_eq.
    rewrite (proj1 TO_space), (proj1 TO_ncmp), (lcmp_eq _ _ F), (proj1 (TO_opt _ TO_nat)), (proj1 (TO_opt _ TO_Z)).
    split; [intros (-> & _ & -> & -> & ->); auto|]. intros [= -> -> -> ->]. tauto. }
  split; [|split]; auto.
  - induction x as [s o t ps F] using index_ind'. intros [s' o' t' ps']. rewrite !hcmp_unfold, !cthen_opp.
    rewrite (proj1 (proj2 TO_space) s), (proj1 (proj2 TO_ncmp) (length ps)), (lcmp_antisym _ _ F),
            (proj1 (proj2 (TO_opt _ TO_nat)) o), (proj1 (proj2 (TO_opt _ TO_Z)) t). auto.
  - induction x as [s o t ps F] using index_ind'. intros [s' o' t' ps'] [s'' o'' t'' ps'']. rewrite !hcmp_unfold.
    apply (cthen_trans _ TO_space). apply (cthen_trans _ TO_ncmp).
    intros H1 H2.
    assert (TL : forall d1 d2 d3, (d1 = Lt -> d2 = Lt -> d3 = Lt) ->
              lcmp hcmp ps ps' >> d1 = Lt -> lcmp hcmp ps' ps'' >> d2 = Lt -> lcmp hcmp ps ps'' >> d3 = Lt).
    { intros d1 d2 d3 D A B. assert (EL : forall l m, lcmp hcmp l m = Eq <-> l = m) by (intros l; apply lcmp_eq; apply Forall_forall; auto).
      destruct (lcmp hcmp ps ps') eqn:X; cbn in A; try discriminate.
      - apply EL in X. subst ps'. destruct (lcmp hcmp ps ps''); cbn in *; auto.
      - destruct (lcmp hcmp ps' ps'') eqn:Y; cbn in B; try discriminate.
        + apply EL in Y. subst ps''. rewrite X. auto.
        + rewrite (lcmp_trans _ E _ F _ _ X Y). auto. }
    revert H1 H2. apply TL. apply (cthen_trans _ (TO_opt _ TO_nat)). apply TO_opt, TO_Z.
Qed.

(* ---------- parts ---------- *)

Lemma over_space S s o t ps : over S (Idx s o t ps) -> S s.
Proof. intros H. apply (H _ (part_self _)). Qed.
Lemma over_proto S s o t ps : over S (Idx s o t ps) -> Forall (over S) ps.
Proof. intros H. apply Forall_forall. intros p Hp x Hx. apply H. eapply part_proto; eauto. Qed.
Lemma untagged_tag s o t ps : untagged (Idx s o t ps) -> t = None.
Proof. intros H. apply (H _ (part_self _)). Qed.
Lemma untagged_proto s o t ps : untagged (Idx s o t ps) -> Forall untagged ps.
Proof. intros H. apply Forall_forall. intros p Hp x Hx. apply H. eapply part_proto; eauto. Qed.
Lemma over_intro (S : space -> Prop) s o t ps : S s -> Forall (over S) ps -> over S (Idx s o t ps).
Proof.
  intros H F x Hx. rewrite Forall_forall in F. inversion Hx as [|i p Hp Hq E]; subst; auto. apply (F p Hp). auto.
Qed.
Lemma untagged_intro s o ps : Forall untagged ps -> untagged (Idx s o None ps).
Proof.
  intros F x Hx. rewrite Forall_forall in F. inversion Hx as [|i p Hp Hq E]; subst; auto. apply (F p Hp). auto.
Qed.

(* ---------- equality ---------- *)

Lemma ix_eqb_unfold s o t ps s' o' t' ps' : ix_eqb (Idx s o t ps) (Idx s' o' t' ps') =
  space_eqb s s' && (negb (attr_reserved s) || (sp_key s =? sp_key s')%Z) && opt_eqb o o' && list_eqb ps ps'.
Proof. reflexivity. Qed.
Lemma space_eqb_spec s s' : space_eqb s s' = true <-> s = s'.
Proof.
  unfold space_eqb, attr_eqb. rewrite !andb_true_iff, !Z.eqb_eq. destruct s, s'. cbn.
  split; [intros ((-> & ->) & ->); auto|intros [= -> -> ->]; auto].
Qed.
Lemma opt_eqb_spec o o' : opt_eqb o o' = true <-> o = o'.
Proof.
  destruct o as [x|], o' as [y|]; cbn; split; intros H; try discriminate; auto.
  - apply Nat.eqb_eq in H. congruence.
  - injection H as ->. apply Nat.eqb_refl.
Qed.
Lemma ix_eqb_spec i : forall j, ix_eqb i j = true <-> identity i = identity j.
Proof.
  induction i as [s o t ps F] using index_ind'. intros [s' o' t' ps'].
  rewrite ix_eqb_unfold, !andb_true_iff, orb_true_iff, space_eqb_spec, opt_eqb_spec.
  assert (L : list_eqb ps ps' = true <-> map identity ps = map identity ps').
  { clear - F. revert ps'. induction F as [|x l Hx F IH]; intros [|y m]; cbn; split; intros H; try discriminate; auto.
    - apply andb_true_iff in H. destruct H as (H1 & H2). apply Hx in H1. apply IH in H2. congruence.
    - injection H as H1 H2. apply andb_true_iff. split; [apply Hx|apply IH]; auto. }
  rewrite L. cbn. split.
  - intros (((-> & _) & ->) & ->). auto.
  - intros [= -> -> ->]. split; auto. split; auto. split; auto. right. apply Z.eqb_refl.
Qed.
Lemma list_eqb_spec l : forall m, list_eqb l m = true <-> map identity l = map identity m.
Proof.
  induction l as [|x l IH]; intros [|y m]; cbn; split; intros H; try discriminate; auto.
  - apply andb_true_iff in H. destruct H as (H1 & H2). apply ix_eqb_spec in H1. apply IH in H2. congruence.
  - injection H as H1 H2. apply andb_true_iff. split; [apply ix_eqb_spec|apply IH]; auto.
Qed.
Lemma identity_untagged i : untagged i -> identity i = i.
Proof.
  induction i as [s o t ps F] using index_ind'. intros H. cbn.
  rewrite (untagged_tag _ _ _ _ H) in *. f_equal.
  apply untagged_proto in H. clear - F H. induction F as [|x l Hx F IH]; cbn; auto.
  inversion H; subst. f_equal; auto.
Qed.
Lemma identity_map l : Forall untagged l -> map identity l = l.
Proof. induction 1 as [|x l H F IH]; cbn; auto. rewrite IH, identity_untagged; auto. Qed.

(* ---------- operator<=> ---------- *)

Lemma opt_ltb_cmp o o' : opt_ltb o o' = match ocmp Nat.compare o o' with Lt => true | _ => false end.
Proof. destruct o as [x|], o' as [y|]; cbn -[Nat.ltb]; auto. rewrite Nat.ltb_compare. auto. Qed.
Lemma zif (a b : Z) (X : Type) (x y z : X) :
  (if (a =? b)%Z then x else if (a <? b)%Z then y else z) = match Z.compare a b with Eq => x | Lt => y | Gt => z end.
Proof. destruct (Z.compare_spec a b) as [H|H|H]; destruct (Z.eqb_spec a b), (Z.ltb_spec a b); try lia; auto. Qed.
Lemma oif o o' (X : Type) (x y z : X) :
  (if negb (opt_eqb o o') then (if opt_ltb o o' then y else z) else x) =
  match ocmp Nat.compare o o' with Eq => x | Lt => y | Gt => z end.
Proof.
  rewrite opt_ltb_cmp. destruct (opt_eqb o o') eqn:E.
  - apply opt_eqb_spec in E. subst. rewrite (TO_refl _ _ (TO_opt _ TO_nat)). auto.
  - cbn. destruct (ocmp Nat.compare o o') eqn:C; auto. apply (TO_opt _ TO_nat) in C. subst.
    rewrite (proj2 (opt_eqb_spec o' o') eq_refl) in E. discriminate.
Qed.

Lemma space_cmp_reg (S : space -> Prop) s s' : one_registry S -> S s -> S s' -> space_cmp s s' = scmp s s'.
Proof.
  intros R H H'. unfold space_cmp, scmp, attr_eqb, attr_ltb.
  destruct (Z.compare_spec (sp_qns s) (sp_qns s')) as [Q|Q|Q]; cbn.
  - rewrite (proj2 (Z.eqb_eq _ _) Q), andb_true_r.
    destruct (Z.compare_spec (sp_type s) (sp_type s')) as [T|T|T]; cbn.
    + rewrite (proj2 (Z.eqb_eq _ _) T). cbn. rewrite (R _ _ H H' Q T).
      rewrite Z.eqb_refl, andb_false_r, Z.compare_refl. auto.
    + destruct (Z.eqb_spec (sp_type s) (sp_type s')); [lia|]. cbn. rewrite (proj2 (Z.ltb_lt _ _) T). auto.
    + destruct (Z.eqb_spec (sp_type s) (sp_type s')); [lia|]. cbn. destruct (Z.ltb_spec (sp_type s) (sp_type s')); [lia|auto].
  - destruct (Z.eqb_spec (sp_qns s) (sp_qns s')); [lia|]. rewrite andb_false_r. cbn. rewrite (proj2 (Z.ltb_lt _ _) Q). auto.
  - destruct (Z.eqb_spec (sp_qns s) (sp_qns s')); [lia|]. rewrite andb_false_r. cbn.
    destruct (Z.ltb_spec (sp_qns s) (sp_qns s')); [lia|auto].
Qed.
Lemma space_ltb_reg (S : space -> Prop) s s' : one_registry S -> S s -> S s' ->
  space_ltb s s' = match scmp s s' with Lt => true | _ => false end.
Proof. intros R H H'. unfold space_ltb. rewrite (space_cmp_reg S); auto. Qed.
Lemma space_eqb_scmp s s' : space_eqb s s' = match scmp s s' with Eq => true | _ => false end.
Proof.
  destruct (scmp s s') eqn:C.
  - apply TO_space in C. subst. apply space_eqb_spec. auto.
  - destruct (space_eqb s s') eqn:E; auto. apply space_eqb_spec in E. subst. rewrite (TO_refl _ _ TO_space) in C. discriminate.
  - destruct (space_eqb s s') eqn:E; auto. apply space_eqb_spec in E. subst. rewrite (TO_refl _ _ TO_space) in C. discriminate.
Qed.

Lemma ix_cmp_unfold s o t ps s' o' t' ps' : ix_cmp (Idx s o t ps) (Idx s' o' t' ps') =
  let sans_tag :=
    match space_cmp s s' with
    | Eq => if negb (opt_eqb o o') then (if opt_ltb o o' then Lt else Gt)
            else if list_eqb ps ps' then Eq else match lcmp ix_cmp ps ps' with Lt => Lt | _ => Gt end
    | c => c
    end in
  if (sp_qns s =? sp_qns s')%Z then
    match t, t' with
    | Some a, Some b => if (a =? b)%Z then sans_tag else if (a <? b)%Z then Lt else Gt
    | _, _ => sans_tag
    end
  else if (sp_qns s <? sp_qns s')%Z then Lt else Gt.
Proof. reflexivity. Qed.

Lemma ix_cmp_step S s o t ps s' o' t' ps' :
  one_registry S -> over S (Idx s o t ps) -> over S (Idx s' o' t' ps') ->
  Forall untagged ps -> Forall untagged ps' -> (t = None <-> t' = None) ->
  lcmp ix_cmp ps ps' = lcmp tcmp ps ps' ->
  ix_cmp (Idx s o t ps) (Idx s' o' t' ps') = tcmp (Idx s o t ps) (Idx s' o' t' ps').
Proof.
  intros R O O' U U' T L. rewrite ix_cmp_unfold, tcmp_unfold. cbv zeta.
  pose proof (over_space _ _ _ _ _ O) as Ss. pose proof (over_space _ _ _ _ _ O') as Ss'.
  assert (ST : match space_cmp s s' with
    | Eq => if negb (opt_eqb o o') then (if opt_ltb o o' then Lt else Gt)
            else if list_eqb ps ps' then Eq else match lcmp ix_cmp ps ps' with Lt => Lt | _ => Gt end
    | c => c
    end = scmp s s' >> ocmp Nat.compare o o' >> lcmp tcmp ps ps').
  { rewrite (space_cmp_reg S); auto. destruct (scmp s s'); cbn; auto. rewrite oif.
    destruct (ocmp Nat.compare o o'); cbn; auto. rewrite L.
    destruct (list_eqb ps ps') eqn:E.
    - apply list_eqb_spec in E. rewrite !identity_map in E; auto. subst. symmetry. apply (TO_refl _ _ (TO_list _ TO_tcmp)).
    - destruct (lcmp tcmp ps ps') eqn:C; auto. apply (TO_list _ TO_tcmp) in C. subst.
      rewrite (proj2 (list_eqb_spec ps' ps') eq_refl) in E. discriminate. }
  rewrite ST. rewrite zif. destruct (Z.compare (sp_qns s) (sp_qns s')); cbn; auto.
  destruct t as [a|], t' as [b|]; cbn; auto.
  - rewrite zif. destruct (Z.compare a b); auto.
  - destruct T as (_ & T). specialize (T eq_refl). discriminate.
  - destruct T as (T & _). specialize (T eq_refl). discriminate.
Qed.

Lemma ix_cmp_untagged S : one_registry S -> forall i j, over S i -> over S j -> untagged i -> untagged j ->
  ix_cmp i j = tcmp i j.
Proof.
  intros R. induction i as [s o t ps F] using index_ind'. intros [s' o' t' ps'] O O' U U'.
  pose proof (untagged_proto _ _ _ _ U) as UP. pose proof (untagged_proto _ _ _ _ U') as UP'.
  pose proof (over_proto _ _ _ _ _ O) as OP. pose proof (over_proto _ _ _ _ _ O') as OP'.
  apply (ix_cmp_step S); auto.
  - rewrite (untagged_tag _ _ _ _ U), (untagged_tag _ _ _ _ U'). tauto.
  - clear - F UP UP' OP OP'. revert ps' UP' OP'. induction F as [|x l Hx F IH]; intros [|y m] UP' OP'; cbn; auto.
    inversion UP; inversion UP'; inversion OP; inversion OP'; subst. rewrite Hx; auto. rewrite IH; auto.
Qed.
Lemma ix_cmp_tagged S : one_registry S -> forall i j, over S i -> over S j -> tagged i -> tagged j ->
  ix_cmp i j = tcmp i j.
Proof.
  intros R [s o t ps] [s' o' t' ps'] O O' ((a & A) & U) ((b & B) & U'). cbn in A, B, U, U'. subst.
  pose proof (over_proto _ _ _ _ _ O) as OP. pose proof (over_proto _ _ _ _ _ O') as OP'.
  apply (ix_cmp_step S); auto; try (apply Forall_forall; auto).
  - split; discriminate.
  - clear - R U U' OP OP'. revert ps' U' OP'. induction ps as [|x l IH]; intros [|y m] U' OP'; cbn; auto.
    inversion OP; inversion OP'; subst. rewrite (ix_cmp_untagged S); auto; [|apply U; left; auto|apply U'; left; auto].
    rewrite IH; auto; intros p Hp; [apply U|apply U']; right; auto.
Qed.

(* ---------- full labels ---------- *)

Definition key_less {A B} (c : B -> B -> comparison) (f : A -> B) (x y : A) : bool :=
  match c (f x) (f y) with Lt => true | _ => false end.

Lemma key_strict_weak {A B} (c : B -> B -> comparison) (f : A -> B) : TO c ->
  strict_weak_on (fun _ => True) (key_less c f) (fun x y => f x = f y).
Proof.
  intros C. destruct C as (E & S & T). unfold key_less. split; [|split; [|split]].
  - intros x _. rewrite (proj2 (E _ _) eq_refl). auto.
  - intros x y z _ _ _. destruct (c (f x) (f y)) eqn:X; try discriminate. destruct (c (f y) (f z)) eqn:Y; try discriminate.
    rewrite (T _ _ _ X Y). auto.
  - intros x y z _ _ _ H1 H2.
    assert (N : forall u v, match c u v with Lt => true | _ => false end = false -> c v u = Lt \/ u = v).
    { intros u v H. rewrite (S u v). destruct (c u v) eqn:X; try discriminate; auto. right. apply E; auto. }
    destruct (N _ _ H1) as [N1|N1], (N _ _ H2) as [N2|N2].
    + rewrite (S (f z) (f x)), (T _ _ _ N2 N1). auto.
    + rewrite <- N2, (S (f y) (f x)), N1. auto.
    + rewrite N1, (S (f z) (f y)), N2. auto.
    + rewrite N1, N2, (proj2 (E _ _) eq_refl). auto.
  - intros x y _ _. rewrite (S (f x) (f y)). rewrite <- E. destruct (c (f x) (f y)); cbn; split; try tauto; try discriminate;
    intros (H & H'); discriminate.
Qed.
Lemma key_sw {A B} (c : B -> B -> comparison) (f : A -> B) : TO c -> strict_weak (key_less c f).
Proof. intros C. destruct (key_strict_weak c f C) as (I & T & N & _). repeat split; eauto. Qed.

Lemma flip_less2 i : forall j, full_label_less2 j i = (snd (full_label_less2 i j), fst (full_label_less2 i j)).
Proof.
  induction i as [s o t ps F] using index_ind'. intros [s' o' t' ps']. cbn [full_label_less2].
  assert (E : space_eqb s' s = space_eqb s s').
  { unfold space_eqb, attr_eqb. rewrite (Z.eqb_sym (sp_type s')), (Z.eqb_sym (sp_qns s')), (Z.eqb_sym (sp_key s')). auto. }
  rewrite E. destruct (space_eqb s s'); cbn [negb]; auto.
  assert (E' : opt_eqb o' o = opt_eqb o o').
  { destruct o as [x|], o' as [y|]; cbn; auto. apply Nat.eqb_sym. }
  rewrite E'. destruct (opt_eqb o o'); cbn [negb]; auto.
  clear - F. revert ps'. induction F as [|x l Hx F IH]; intros [|y m]; auto.
  rewrite (Hx y). specialize (IH m). rewrite IH. destruct (full_label_less2 x y) as (a, b). cbn. destruct a, b; auto.
Qed.

Lemma full_label_recursion i j : full_label_less i j =
  if negb (space_eqb (ix_space i) (ix_space j)) then space_ltb (ix_space i) (ix_space j)
  else if negb (opt_eqb (ix_ord i) (ix_ord j)) then opt_ltb (ix_ord i) (ix_ord j)
  else lex_less full_label_less (ix_protos i) (ix_protos j).
Proof.
  destruct i as [s o t ps], j as [s' o' t' ps']. unfold full_label_less at 1. cbn.
  destruct (space_eqb s s'); cbn; auto. destruct (opt_eqb o o'); cbn; auto.
  revert ps'. induction ps as [|x l IH]; intros [|y m]; cbn; auto.
  rewrite <- IH. unfold full_label_less. rewrite (flip_less2 x y). destruct (full_label_less2 x y) as (a, b). cbn.
  destruct a, b; auto.
Qed.

Lemma lex_less_lcmp {A} (c : A -> A -> comparison) (lt : A -> A -> bool) (C : forall x y, c y x = CompOpp (c x y)) l m :
  (forall x y, In x l -> In y m -> lt x y = match c x y with Lt => true | _ => false end /\
                                   lt y x = match c y x with Lt => true | _ => false end) ->
  lex_less lt l m = match lcmp c l m with Lt => true | _ => false end.
Proof.
  revert m. induction l as [|x l IH]; intros [|y m] H; cbn; auto.
  destruct (H x y) as (H1 & H2); [left; auto|left; auto|]. rewrite H1, H2, (C x y).
  destruct (c x y); cbn; auto. apply IH. intros u v Hu Hv. apply H; right; auto.
Qed.

(** by quantum numbers, type, key, ordinal, proto-indices: [tcmp] of the identities *)
Lemma key_less_unfold s o t ps s' o' t' ps' :
  key_less tcmp identity (Idx s o t ps) (Idx s' o' t' ps') =
  match scmp s s' >> ocmp Nat.compare o o' >> lcmp (fun x y => tcmp (identity x) (identity y)) ps ps' with Lt => true | _ => false end.
Proof.
  unfold key_less. cbn [identity]. rewrite tcmp_unfold. cbn [ocmp].
  assert (M : lcmp tcmp (map identity ps) (map identity ps') = lcmp (fun x y => tcmp (identity x) (identity y)) ps ps').
  { revert ps'. induction ps as [|x l IH]; intros [|y m]; cbn; auto. rewrite IH. auto. }
  rewrite M. unfold scmp. destruct (Z.compare (sp_qns s) (sp_qns s')); auto.
Qed.

Lemma full_label_key2 S : one_registry S -> forall i j, over S i -> over S j ->
  full_label_less2 i j = (key_less tcmp identity i j, key_less tcmp identity j i).
Proof.
  intros R. induction i as [s o t ps F] using index_ind'. intros [s' o' t' ps'] O O'.
  rewrite !key_less_unfold. cbn [full_label_less2].
  rewrite space_eqb_scmp, (space_ltb_reg S s s'), (space_ltb_reg S s' s); auto;
    try (exact (over_space _ _ _ _ _ O)); try (exact (over_space _ _ _ _ _ O')).
  rewrite (proj1 (proj2 TO_space) s s'). destruct (scmp s s'); cbn; auto.
  destruct (opt_eqb o o') eqn:EO.
  - apply opt_eqb_spec in EO. subst. rewrite (TO_refl _ _ (TO_opt _ TO_nat)). cbn.
    pose proof (over_proto _ _ _ _ _ O) as OP. pose proof (over_proto _ _ _ _ _ O') as OP'.
    clear - F OP OP'. revert ps' OP'. induction F as [|x l Hx F IH]; intros [|y m] OP'; cbn; auto.
    inversion OP; inversion OP'; subst. rewrite Hx; auto. rewrite IH; auto. unfold key_less.
    rewrite (proj1 (proj2 TO_tcmp) (identity x) (identity y)). destruct (tcmp (identity x) (identity y)); cbn; auto.
  - cbn. rewrite !opt_ltb_cmp. rewrite (proj1 (proj2 (TO_opt _ TO_nat)) o o').
    destruct (ocmp Nat.compare o o') eqn:C; cbn; auto.
    apply (TO_opt _ TO_nat) in C. subst. rewrite (proj2 (opt_eqb_spec o' o') eq_refl) in EO. discriminate.
Qed.
Lemma full_label_key S : one_registry S -> forall i j, over S i -> over S j ->
  full_label_less i j = key_less tcmp identity i j.
Proof. intros R i j O O'. unfold full_label_less. rewrite (full_label_key2 S); auto. Qed.
