(** * The einsum statement computes the contraction *)
From Coq Require Import List Bool Arith Lia ZArith QArith Qcanon Ascii String.
From Verif Require Import Num_Model Num_Proofs1 Ein_Model Ein_Spec Ein_Proofs1 Ein_Proofs2.
Import ListNotations.
Local Open Scope nat_scope.

Section ExprInd.
  Variable P : expr -> Prop.
  Hypothesis H1 : forall t, P (ETensor t).
  Hypothesis H2 : forall s, P (ELeaf s).
  Hypothesis H3 : forall c fs, Forall P fs -> P (EProduct c fs).
  Hypothesis H4 : forall fs, Forall P fs -> P (ESum fs).
  Fixpoint expr_ind' (e : expr) : P e :=
    match e with
    | ETensor t => H1 t
    | ELeaf s => H2 s
    | EProduct c fs => H3 c fs ((fix go fs : Forall P fs :=
        match fs with [] => Forall_nil _ | f :: fs' => Forall_cons _ (expr_ind' f) (go fs') end) fs)
    | ESum fs => H4 fs ((fix go fs : Forall P fs :=
        match fs with [] => Forall_nil _ | f :: fs' => Forall_cons _ (expr_ind' f) (go fs') end) fs)
    end.
End ExprInd.

Fixpoint extract_list (chars : list ascii) (fs : list expr) (s : state) : option state :=
  match fs with
  | [] => Some s
  | f :: fs' => match extract chars f s with None => None | Some s' => extract_list chars fs' s' end
  end.
Lemma extract_product : forall chars c fs s, extract chars (EProduct c fs) s =
  extract_list chars fs (if c_is_identity c then s else mkS (s_ops s) (add_factor (s_scalar s) (print_const c)) (s_map s)).
Proof.
  intros chars c fs s. cbn [extract]. generalize (if c_is_identity c then s else mkS (s_ops s) (add_factor (s_scalar s) (print_const c)) (s_map s)).
  induction fs as [|f fs IH]; intros s'; [reflexivity|]. cbn. destruct (extract chars f s'); [apply IH|reflexivity].
Qed.

Lemma in_flat : forall {A B} (f : A -> list B) l b, In b (flat_map f l) <-> exists a, In a l /\ In b (f a).
Proof. intros. apply in_flat_map. Qed.

Lemma indices_tensors : forall e, indices e = flat_map t_idx (tensors e).
Proof.
  induction e as [t|s|c fs IH|fs IH] using expr_ind'; cbn; [now rewrite app_nil_r|reflexivity| |].
  - induction IH as [|f fs H _ IH]; [reflexivity|]. cbn. now rewrite flat_map_app, <- H, IH.
  - induction IH as [|f fs H _ IH]; [reflexivity|]. cbn. now rewrite flat_map_app, <- H, IH.
Qed.

Definition lettered (m : imap) (o : list ascii * tensor) : Prop :=
  Forall2 (fun l c => find_char m l = Some c) (t_idx (snd o)) (fst o).
Lemma lettered_ext : forall m m' o, extends m m' -> lettered m o -> lettered m' o.
Proof. intros m m' o X L. unfold lettered in *. induction L; constructor; auto. Qed.

(** ** Letters of an expression *)
Definition letters_ok (e : expr) (s s' : state) : Prop :=
  wf (s_map s') /\ extends (s_map s) (s_map s') /\
  (exists os, s_ops s' = s_ops s ++ os /\ map snd os = tensors e /\ Forall (lettered (s_map s')) os) /\
  (forall k, In k (map fst (s_map s')) <-> In k (map fst (s_map s)) \/ In k (indices e)).

Lemma extract_letters : forall chars e s s', wf (s_map s) -> extract chars e s = Some s' -> letters_ok e s s'.
Proof.
  intros chars. induction e as [t|x|c fs IH|fs IH] using expr_ind'; intros s s' W E.
  - cbn in E. destruct (subscript chars (t_idx t) (s_map s)) as [[cs m]|] eqn:S; [|discriminate]. injection E as <-.
    destruct (subscript_spec _ _ _ _ _ W S) as (W1 & X & F & K & _). unfold letters_ok. cbn.
    split; [exact W1|]. split; [exact X|]. split; [|exact K].
    exists [(cs, t)]. split; [reflexivity|]. split; [reflexivity|]. constructor; [exact F|constructor].
  - cbn in E. injection E as <-. unfold letters_ok. cbn. split; [exact W|]. split; [now intros ? ?|]. split; [|tauto].
    exists []. split; [now rewrite app_nil_r|]. split; [reflexivity|constructor].
  - rewrite extract_product in E.
    set (s1 := if c_is_identity c then s else mkS (s_ops s) (add_factor (s_scalar s) (print_const c)) (s_map s)) in *.
    assert (M : s_map s1 = s_map s /\ s_ops s1 = s_ops s) by (subst s1; destruct (c_is_identity c); split; reflexivity).
    assert (G : wf (s_map s1) -> wf (s_map s') /\ extends (s_map s1) (s_map s') /\
      (exists os, s_ops s' = s_ops s1 ++ os /\ map snd os = flat_map tensors fs /\ Forall (lettered (s_map s')) os) /\
      (forall k, In k (map fst (s_map s')) <-> In k (map fst (s_map s1)) \/ In k (flat_map indices fs))).
    { clear M W. clearbody s1. revert s1 E. induction IH as [|f fs H _ IHl]; intros s1 E W; cbn in E.
      - injection E as <-. split; [exact W|]. split; [now intros ? ?|]. split; [|cbn; tauto].
        exists []. split; [now rewrite app_nil_r|]. split; [reflexivity|constructor].
      - destruct (extract chars f s1) as [s2|] eqn:E2; [|discriminate].
        destruct (H _ _ W E2) as (W2 & X2 & (os2 & O2 & T2 & L2) & K2).
        destruct (IHl _ E W2) as (W3 & X3 & (os3 & O3 & T3 & L3) & K3).
        split; [exact W3|]. split; [intros l d F; auto|]. split.
        + exists (os2 ++ os3). split; [rewrite O3, O2; now rewrite app_assoc|]. split; [rewrite map_app, T2, T3; reflexivity|].
          apply Forall_app. split; [|exact L3]. apply Forall_forall. intros o I. apply (lettered_ext (s_map s2)); [exact X3|].
          exact (proj1 (Forall_forall _ _) L2 o I).
        + intros k. rewrite K3, K2. cbn [flat_map]. rewrite in_app_iff. tauto. }
    destruct M as [M1 M2]. rewrite M1, M2 in G. exact (G W).
  - cbn in E. discriminate.
Qed.

(** ** Failure *)
Lemma extract_fail : forall chars e s, NoDup chars -> wf (s_map s) -> no_sum e -> extract chars e s = None ->
  exists ds, NoDup ds /\ List.length chars < List.length ds /\ forall d, In d ds -> In d (map fst (s_map s)) \/ In d (indices e).
Proof.
  intros chars e s ND. revert s. induction e as [t|x|c fs IH|fs IH] using expr_ind'; intros s W N E.
  - cbn in E. destruct (subscript chars (t_idx t) (s_map s)) as [[cs m]|] eqn:S; [discriminate|].
    exact (subscript_none _ _ _ W ND S).
  - discriminate.
  - rewrite extract_product in E.
    set (s1 := if c_is_identity c then s else mkS (s_ops s) (add_factor (s_scalar s) (print_const c)) (s_map s)) in *.
    assert (M : s_map s1 = s_map s) by (subst s1; destruct (c_is_identity c); reflexivity).
    rewrite <- M in *. clear M. clearbody s1. cbn [no_sum] in N. cbn [indices]. revert s1 W E.
    induction IH as [|f fs H _ IHl]; intros s1 W E; cbn in E; [discriminate|]. cbn in N. destruct N as [N1 N2].
    destruct (extract chars f s1) as [s2|] eqn:E2.
    + destruct (extract_letters _ _ _ _ W E2) as (W2 & X2 & _ & K2).
      destruct (IHl N2 _ W2 E) as (ds & A & B & C). exists ds. split; [exact A|]. split; [exact B|].
      intros d I. cbn [flat_map]. rewrite in_app_iff. specialize (C d I). rewrite K2 in C. tauto.
    + destruct (H _ W N1 E2) as (ds & A & B & C). exists ds. split; [exact A|]. split; [exact B|].
      intros d I. cbn [flat_map]. rewrite in_app_iff. specialize (C d I). tauto.
  - destruct N.
Qed.

(** ** The scalar factor *)
Section Scal.
  Variable var : nat -> cplx.
  Fixpoint scal (e : expr) : cplx :=
    match e with
    | ETensor _ => c1
    | ELeaf s => leaf_value var s
    | EProduct c fs => c_mul c (prod (map scal fs))
    | ESum _ => c1
    end.

  Lemma print_rat_nonempty : forall l q, print_rat l q <> [].
  Proof. intros l q. unfold print_rat. destruct (Z.ltb _ 0), (N.eqb _ 1); discriminate. Qed.
  Lemma print_const_nonempty : forall c, print_const c <> [].
  Proof. intros c. unfold print_const. destruct (qeqb _ _); [apply print_rat_nonempty|discriminate]. Qed.

  Variable calls : call -> option cplx.
  Lemma extract_scal : forall chars e s s' v, plain e -> extract chars e s = Some s' ->
    text_value var calls (s_scalar s) v -> text_value var calls (s_scalar s') (c_mul v (scal e)).
  Proof.
    intros chars. induction e as [t|x|c fs IH|fs IH] using expr_ind'; intros s s' v P E T.
    - cbn in E. destruct (subscript chars (t_idx t) (s_map s)) as [[cs m]|]; [|discriminate]. injection E as <-. cbn.
      replace (c_mul v c1) with v by ring. exact T.
    - cbn in E. injection E as <-. cbn [s_scalar scal]. destruct x as [c|y b]; cbn [print_leaf leaf_value plain] in *.
      + destruct (const_factor var calls c P) as [F1 F2]. apply add_factor_value; auto. apply print_const_nonempty.
      + subst b. destruct (name_factor var calls y) as [F1 F2]. apply add_factor_value; auto. discriminate.
    - rewrite extract_product in E. cbn [plain] in P. destruct P as [P1 P2].
      set (s1 := if c_is_identity c then s else mkS (s_ops s) (add_factor (s_scalar s) (print_const c)) (s_map s)) in *.
      assert (T1 : text_value var calls (s_scalar s1) (c_mul v c)).
      { subst s1. destruct (c_is_identity c) eqn:I.
        - unfold c_is_identity, c_eqb, qeqb in I. 
          assert (C : c = c1).
          { apply c_eq; cbn; destruct (Qc_eq_dec (re c) _), (Qc_eq_dec (im c) _); cbn in I; congruence. }
          subst c. replace (c_mul v c1) with v by ring. exact T.
        - cbn [s_scalar]. destruct (const_factor var calls c P1) as [F1 F2]. apply add_factor_value; auto. apply print_const_nonempty. }
      cbn [scal]. replace (c_mul v (c_mul c (prod (map scal fs)))) with (c_mul (c_mul v c) (prod (map scal fs))) by ring.
      clearbody s1. generalize (c_mul v c) as w, T1. clear T T1. revert s1 E.
      induction IH as [|f fs H _ IHl]; intros s1 E w T; cbn in E.
      + injection E as <-. cbn. replace (c_mul w c1) with w by ring. exact T.
      + destruct (extract chars f s1) as [s2|] eqn:E2; [|discriminate]. cbn in P2. destruct P2 as [P3 P4].
        pose proof (IHl P4 _ E _ (H _ _ _ P3 E2 T)) as R. cbn [map prod fold_right].
        replace (c_mul w (c_mul (scal f) (fold_right c_mul c1 (map scal fs)))) with (c_mul (c_mul w (scal f)) (prod (map scal fs)))
          by (unfold prod; ring). exact R.
    - discriminate.
  Qed.

  Variable array : nat -> list nat -> cplx.
  Definition elem (v : env) (t : tensor) : cplx := array (t_name t) (map (value_of String.eqb v) (t_idx t)).
  Lemma prod_app : forall a b, prod (a ++ b) = c_mul (prod a) (prod b).
  Proof. induction a as [|x a IH]; intros b; cbn [app prod fold_right]; [unfold prod; ring|]. unfold prod in *. rewrite IH. ring. Qed.
  Lemma at_env_split : forall e v, no_sum e -> at_env array var e v = c_mul (scal e) (prod (map (elem v) (tensors e))).
  Proof.
    induction e as [t|x|c fs IH|fs IH] using expr_ind'; intros v N; cbn [at_env scal tensors].
    - cbn. fold (elem v t). ring.
    - cbn. ring.
    - cbn [no_sum] in N.
      assert (X : prod (map (fun f => at_env array var f v) fs) = c_mul (prod (map scal fs)) (prod (map (elem v) (flat_map tensors fs)))).
      { induction IH as [|f fs H _ IHl]; [cbn; ring|]. cbn in N. destruct N as [N1 N2].
        cbn [map flat_map]. rewrite map_app, prod_app. cbn [prod fold_right]. fold prod. rewrite (H v N1).
        change (fold_right c_mul c1) with prod. rewrite (IHl N2). ring. }
      rewrite X. ring.
    - destruct N.
  Qed.
End Scal.

Lemma extract_no_sum : forall chars e s s', extract chars e s = Some s' -> no_sum e.
Proof.
  intros chars. induction e as [t|x|c fs IH|fs IH] using expr_ind'; intros s s' E; cbn [no_sum]; auto.
  - rewrite extract_product in E. revert E. generalize (if c_is_identity c then s else mkS (s_ops s) (add_factor (s_scalar s) (print_const c)) (s_map s)).
    induction IH as [|f fs H _ IHl]; intros s1 E; cbn; [exact Logic.I|]. cbn in E.
    destruct (extract chars f s1) as [s2|] eqn:E2; [|discriminate]. split; [eapply H; eauto|eapply IHl; eauto].
  - discriminate.
Qed.

(** ** Renaming the labels of a contraction *)
Lemma memb_in : forall A (eqb : A -> A -> bool) (R : forall a b, reflect (a = b) (eqb a b)) a l, memb eqb a l = true <-> In a l.
Proof.
  intros A eqb R a l. unfold memb. rewrite existsb_exists. split.
  - intros (b & I & E). destruct (R a b); [now subst|discriminate].
  - intros I. exists a. split; [exact I|]. destruct (R a a); congruence.
Qed.
Lemma distinct_in : forall A (eqb : A -> A -> bool) (R : forall a b, reflect (a = b) (eqb a b)) l a, In a (distinct eqb l) <-> In a l.
Proof.
  intros A eqb R. induction l as [|b l IH]; intros a; cbn; [tauto|]. rewrite filter_In, IH.
  destruct (R b a) as [->|N]; cbn; intuition congruence.
Qed.
Lemma distinct_nodup : forall A (eqb : A -> A -> bool) (R : forall a b, reflect (a = b) (eqb a b)) l, NoDup l -> distinct eqb l = l.
Proof.
  intros A eqb R. induction 1 as [|a l N ND IH]; [reflexivity|]. cbn. rewrite IH. f_equal.
  clear IH ND. induction l as [|b l IH]; [reflexivity|]. cbn. destruct (R a b) as [->|]; [exfalso; apply N; now left|]. cbn. f_equal.
  apply IH. intros H. apply N. now right.
Qed.

Section Rename.
  Context {A B : Type} (eqa : A -> A -> bool) (eqbb : B -> B -> bool).
  Hypothesis RA : forall a b, reflect (a = b) (eqa a b).
  Hypothesis RB : forall a b, reflect (a = b) (eqbb a b).
  Variable f : A -> B.
  Variable D : A -> Prop.
  Hypothesis inj : forall a b, D a -> D b -> f a = f b -> a = b.

  Lemma eqb_rename : forall a b, D a -> D b -> eqbb (f a) (f b) = eqa a b.
  Proof. intros a b Ha Hb. destruct (RA a b) as [->|N].
    - now destruct (RB (f b) (f b)).
    - destruct (RB (f a) (f b)) as [E|]; [|reflexivity]. exfalso. auto. Qed.

  Definition renv (e : @env A) : @env B := map (fun p => (f (fst p), snd p)) e.
  Lemma value_of_rename : forall e a, Forall (fun p => D (fst p)) e -> D a -> value_of eqbb (renv e) (f a) = value_of eqa e a.
  Proof.
    induction 1 as [|[b i] e H _ IH]; intros Da; [reflexivity|]. cbn in *. rewrite eqb_rename by assumption.
    destruct (eqa b a); auto.
  Qed.
  Lemma memb_rename : forall l a, Forall D l -> D a -> memb eqbb (f a) (map f l) = memb eqa a l.
  Proof. unfold memb. induction 1 as [|b l H _ IH]; intros Da; [reflexivity|]. cbn. rewrite eqb_rename by assumption. now rewrite IH. Qed.
  Lemma filter_rename : forall (p : B -> bool) (q : A -> bool) l, Forall (fun a => p (f a) = q a) l -> filter p (map f l) = map f (filter q l).
  Proof. intros p q. induction 1 as [|a l H _ IH]; [reflexivity|]. cbn. rewrite H. destruct (q a); cbn; now rewrite IH. Qed.
  Lemma distinct_rename : forall l, Forall D l -> distinct eqbb (map f l) = map f (distinct eqa l).
  Proof.
    induction 1 as [|a l H HF IH]; [reflexivity|]. cbn. rewrite IH. f_equal. apply filter_rename.
    apply Forall_forall. intros b I. apply (proj1 (distinct_in _ _ RA _ _)) in I. rewrite eqb_rename; auto.
    exact (proj1 (Forall_forall _ _) HF b I).
  Qed.
  Lemma sum_range_ext : forall n g h, (forall i, g i = h i) -> sum_range n g = sum_range n h.
  Proof. intros n g h E. unfold sum_range. f_equal. apply map_ext. exact E. Qed.
  Lemma sum_rename : forall dimA dimB (bodyA : @env A -> cplx) (bodyB : @env B -> cplx) ls e,
    (forall a, In a ls -> dimB (f a) = dimA a) -> Forall D ls -> Forall (fun p => D (fst p)) e ->
    (forall e', Forall (fun p => D (fst p)) e' -> bodyB (renv e') = bodyA e') ->
    sum_labels dimB (map f ls) (renv e) bodyB = sum_labels dimA ls e bodyA.
  Proof.
    intros dimA dimB bodyA bodyB. induction ls as [|a ls IH]; intros e HD HL HE HB; cbn; [auto|].
    inversion HL as [|? ? Da HL']; subst. rewrite (HD a (or_introl eq_refl)). apply sum_range_ext. intros i.
    apply (IH ((a, i) :: e)); auto. intros b I. apply HD. now right.
  Qed.
End Rename.

Lemma sum_range_scale : forall n c g, sum_range n (fun i => c_mul c (g i)) = c_mul c (sum_range n g).
Proof.
  intros n c g. unfold sum_range. generalize (seq 0 n). induction l as [|i l IH]; cbn [map fold_right]; [|rewrite IH]; ring.
Qed.
Lemma sum_scale : forall A (dim : A -> nat) c ls e body, sum_labels dim ls e (fun v => c_mul c (body v)) = c_mul c (sum_labels dim ls e body).
Proof.
  intros A dim c. induction ls as [|a ls IH]; intros e body; cbn; [reflexivity|].
  rewrite <- sum_range_scale. apply sum_range_ext. intros i. apply IH.
Qed.
Lemma sum_ext : forall A (dim : A -> nat) ls e f g, (forall v, f v = g v) -> sum_labels dim ls e f = sum_labels dim ls e g.
Proof. intros A dim. induction ls as [|a ls IH]; intros e f g E; cbn; [auto|]. apply sum_range_ext. intros i. now apply IH. Qed.

Definition letter (m : imap) (l : index) : ascii := match find_char m l with Some c => c | None => "i"%char end.
Lemma lettered_map : forall m ls cs, Forall2 (fun l c => find_char m l = Some c) ls cs -> cs = map (letter m) ls.
Proof. intros m ls cs H. induction H as [|l c ls cs E _ IH]; [reflexivity|]. cbn. unfold letter at 1. now rewrite E, IH. Qed.
Lemma find_char_key : forall m l, In l (map fst m) -> exists c, find_char m l = Some c.
Proof.
  intros m l I. destruct (find_char m l) as [c|] eqn:E; [now exists c|]. apply find_char_none in E. contradiction.
Qed.
Lemma letter_inj : forall m, wf m -> forall a b, In a (map fst m) -> In b (map fst m) -> letter m a = letter m b -> a = b.
Proof.
  intros m W a b A B E. destruct (find_char_key _ _ A) as [c EA], (find_char_key _ _ B) as [d EB].
  unfold letter in E. rewrite EA, EB in E. subst d. exact (find_char_inj m W a b c EA EB).
Qed.

Lemma combine_rename : forall m (ls : list index) (ns : list nat), combine (map (letter m) ls) ns = renv (letter m) (combine ls ns).
Proof. intros m. induction ls as [|l ls IH]; intros [|n ns]; cbn; try reflexivity. now rewrite IH. Qed.

Lemma combine_map_self : forall A B C (f : A -> B) (g : A -> C) l, combine (map f l) (map g l) = map (fun a => (f a, g a)) l.
Proof. induction l; cbn; congruence. Qed.

Section Main.
  Variable dim : index -> nat.
  Variable shape : tensor -> list nat.
  Variable array : nat -> list nat -> cplx.
  Variable var : nat -> cplx.

  Lemma einsum_value : forall m ops result at_, wf m -> Forall (lettered m) ops ->
    (forall l, In l (flat_map t_idx (map snd ops)) -> In l (map fst m)) ->
    (forall l, In l result -> In l (flat_map t_idx (map snd ops))) -> NoDup result ->
    (forall t, In t (map snd ops) -> shape t = map dim (t_idx t)) ->
    einsum shape array (mkCall ops (map (letter m) result)) at_ =
    Some (sum_labels dim (filter (fun i => negb (memb String.eqb i result)) (distinct String.eqb (flat_map t_idx (map snd ops))))
            (combine result at_) (fun e => prod (map (elem array e) (map snd ops)))).
  Proof.
    intros m ops result at_ W L K R ND SH.
    set (all := flat_map t_idx (map snd ops)) in *.
    set (D := fun l => In l (map fst m)).
    assert (INJ : forall a b, D a -> D b -> letter m a = letter m b -> a = b) by (intros a b; apply letter_inj; exact W).
    assert (LE : letters ops = map (letter m) all).
    { unfold letters, all. clear -L. induction L as [|o ops H _ IH]; [reflexivity|]. cbn [map List.concat flat_map].
      rewrite map_app, <- IH. f_equal. now apply lettered_map. }
    assert (DA : Forall D all) by (apply Forall_forall; exact K).
    assert (DR : Forall D result) by (apply Forall_forall; intros l I; apply K; now apply R).
    unfold einsum. cbn [c_ops c_out]. rewrite LE.
    assert (C1 : forallb (fun c => memb Ascii.eqb c (map (letter m) all)) (map (letter m) result) = true).
    { apply forallb_forall. intros c I. apply (memb_in _ _ Ascii.eqb_spec). apply in_map_iff in I. destruct I as (l & <- & I). apply in_map. now apply R. }
    assert (C2 : distinct Ascii.eqb (map (letter m) result) = map (letter m) result).
    { rewrite (distinct_rename String.eqb Ascii.eqb String.eqb_spec Ascii.eqb_spec (letter m) D INJ) by exact DR.
      now rewrite (distinct_nodup _ _ String.eqb_spec). }
    rewrite C1, C2, Nat.eqb_refl. cbn [andb]. f_equal.
    rewrite (distinct_rename String.eqb Ascii.eqb String.eqb_spec Ascii.eqb_spec (letter m) D INJ) by exact DA.
    assert (DD : Forall D (distinct String.eqb all)).
    { apply Forall_forall. intros l I. apply (proj1 (distinct_in _ _ String.eqb_spec _ _)) in I. now apply K. }
    rewrite (filter_rename (letter m) _ (fun i => negb (memb String.eqb i result))).
    2:{ apply Forall_forall. intros l I.
        rewrite (memb_rename String.eqb Ascii.eqb String.eqb_spec Ascii.eqb_spec (letter m) D INJ); auto.
        exact (proj1 (Forall_forall _ _) DD l I). }
    rewrite combine_rename.
    apply (sum_rename (letter m) D).
    - intros l I. apply filter_In in I. destruct I as [I _]. apply (proj1 (distinct_in _ _ String.eqb_spec _ _)) in I.
      unfold letter_dim.
      assert (X : List.concat (map (fun o => combine (fst o) (shape (snd o))) ops) = renv (letter m) (map (fun k => (k, dim k)) all)).
      { unfold all. clear -L SH. induction L as [|o ops H _ IH]; [reflexivity|]. cbn [map List.concat flat_map].
        rewrite IH by (intros t I; apply SH; now right). rewrite map_app. unfold renv at 2. rewrite map_app. f_equal.
        rewrite (lettered_map _ _ _ H). rewrite (SH (snd o)) by (now left).
        rewrite combine_map_self. rewrite map_map. reflexivity. }
      rewrite X. rewrite (value_of_rename String.eqb Ascii.eqb String.eqb_spec Ascii.eqb_spec (letter m) D INJ).
      + clear -I. induction all as [|k ks IH]; [destruct I|]. cbn. destruct (String.eqb_spec k l) as [->|N]; [reflexivity|].
        destruct I; [congruence|auto].
      + apply Forall_forall. intros p I'. apply in_map_iff in I'. destruct I' as (k & <- & I'). now apply K.
      + now apply K.
    - apply Forall_forall. intros l I. apply filter_In in I. exact (proj1 (Forall_forall _ _) DD l (proj1 I)).
    - apply Forall_forall. intros [k i] I. apply in_combine_l in I. exact (proj1 (Forall_forall _ _) DR k I).
    - intros e HE. f_equal. rewrite map_map. apply map_ext_in. intros o I. unfold elem. f_equal.
      rewrite (lettered_map _ _ _ (proj1 (Forall_forall _ _) L o I)), map_map. apply map_ext_in. intros l Il.
      apply (value_of_rename String.eqb Ascii.eqb String.eqb_spec Ascii.eqb_spec (letter m) D INJ); [exact HE|].
      apply K. unfold all. apply in_flat_map. exists (snd o). split; [now apply in_map|exact Il].
  Qed.

  Theorem statement_value : forall chars e result at_ ts,
    to_einsum_expr chars e result = Some ts -> plain e -> NoDup result -> (forall l, In l result -> In l (indices e)) ->
    (forall t, In t (tensors e) -> shape t = map dim (t_idx t)) ->
    py_value var (fun k => einsum shape array k at_) ts (expr_value dim array var e result at_).
  Proof.
    intros chars e result at_ ts E P ND R SH. unfold to_einsum_expr in E.
    destruct (extract chars e (mkS [] [] [])) as [s|] eqn:X; [|discriminate].
    destruct (subscript chars result (s_map s)) as [[out m]|] eqn:Su; [|discriminate].
    pose proof (extract_no_sum _ _ _ _ X) as NS.
    destruct (extract_letters _ _ (mkS [] [] []) _ wf_nil X) as (W & _ & (os & O & T & L) & K). cbn [s_ops s_map app map] in *.
    destruct (subscript_spec _ _ _ _ _ W Su) as (W2 & X2 & F2 & K2 & _).
    assert (V : forall calls, text_value var calls (s_scalar s) (scal var e)).
    { intros calls. replace (scal var e) with (c_mul c1 (scal var e)) by ring.
      apply (extract_scal var calls chars e (mkS [] [] []) s c1 P X). left. now split. }
    assert (EV : expr_value dim array var e result at_ = c_mul (scal var e)
       (sum_labels dim (filter (fun i => negb (memb String.eqb i result)) (distinct String.eqb (flat_map t_idx (map snd os))))
            (combine result at_) (fun v => prod (map (elem array v) (map snd os))))).
    { unfold expr_value. rewrite indices_tensors, <- T. rewrite <- sum_scale. apply sum_ext. intros v.
      rewrite (at_env_split var array e v NS), <- T. reflexivity. }
    rewrite EV. clear EV. rewrite O in E.
    assert (CV : einsum shape array (mkCall os out) at_ = Some
       (sum_labels dim (filter (fun i => negb (memb String.eqb i result)) (distinct String.eqb (flat_map t_idx (map snd os))))
            (combine result at_) (fun v => prod (map (elem array v) (map snd os))))).
    { rewrite (lettered_map _ _ _ F2). apply einsum_value; auto.
      - apply Forall_forall. intros o I. apply (lettered_ext (s_map s)); [exact X2|]. exact (proj1 (Forall_forall _ _) L o I).
      - intros l I. rewrite T, <- indices_tensors in I. apply K2. left. apply K. now right.
      - intros l I. rewrite T, <- indices_tensors. now apply R.
      - intros t I. apply SH. now rewrite <- T. }
    set (SV := sum_labels _ _ _ _) in *. set (calls := fun k => einsum shape array k at_). specialize (V calls).
    destruct (call_factor var calls (mkCall os out) SV CV) as [F1 Fl].
    destruct os as [|o os].
    - (* no tensors *)
      assert (SV1 : SV = c1).
      { subst SV. cbn in T. assert (RN : result = []).
        { destruct result as [|l r]; [reflexivity|]. exfalso. pose proof (R l (or_introl eq_refl)) as I.
          rewrite indices_tensors, <- T in I. destruct I. }
        subst result. reflexivity. }
      rewrite SV1. replace (c_mul (scal var e) c1) with (scal var e) by ring.
      destruct V as [[EN V1]|[NE V]].
      + rewrite EN in E. injection E as <-. rewrite V1. exists 4. intros n Ln. destruct n as [|[|[|[|n]]]]; try lia. reflexivity.
      + destruct (s_scalar s) as [|t0 f0] eqn:Es; [congruence|]. injection E as <-. apply first_value. exact V.
    - destruct V as [[EN V1]|[NE V]].
      + rewrite EN in E. injection E as <-. rewrite V1. replace (c_mul c1 SV) with SV by ring. apply first_value. exact F1.
      + destruct (s_scalar s) as [|t0 f0] eqn:Es; [congruence|]. destruct (is_one (t0 :: f0)) eqn:IO.
        * injection E as <-. assert (F : t0 :: f0 = [TInt 1%N]).
          { unfold is_one in IO. destruct t0 as [[|[p|p|]]| | | | | | | | |]; try discriminate. destruct f0; [reflexivity|discriminate]. }
          rewrite F in V. assert (S1 : scal var e = c1).
          { destruct V as (k & V). specialize (V 12 [] ltac:(lia)). rewrite term_done in V by lia.
            replace (k + 12) with (S (S (k + 10))) in V by lia. rewrite term_S in V. cbn [app] in V. rewrite unary_S, term_done in V by lia.
            injection V as <-. apply c_eq; apply Qc_is_canon; reflexivity. }
          rewrite S1. replace (c_mul c1 SV) with SV by ring. apply first_value. exact F1.
        * injection E as <-.
          assert (TV : text_value var calls (add_factor (t0 :: f0) [TCall (mkCall (o :: os) out)]) (c_mul (scal var e) SV)).
          { apply add_factor_value; auto; [right; split; [discriminate|exact V]|discriminate]. }
          destruct TV as [[TV _]|[_ TV]]; [discriminate|]. apply first_value. exact TV.
  Qed.
End Main.
