(** The visitor that makes the calls: proofs for trees that have been preprocessed. *)
From Coq Require Import List Arith Bool Lia.
From Verif Require Import Gen_Model Gen_Spec Exp_Model Exp_Spec.
Import ListNotations.
Local Arguments Nat.eqb : simpl never.
Local Arguments Nat.ltb : simpl never.
Local Arguments Nat.leb : simpl never.

Lemma assign_same : forall A (f : obj -> A) o a, assign f o a o = a.
Proof. intros. unfold assign. rewrite Nat.eqb_refl. reflexivity. Qed.
Lemma assign_other : forall A (f : obj -> A) o a o', o' <> o -> assign f o a o' = f o'.
Proof. intros. unfold assign. destruct (Nat.eqb_spec o' o); congruence. Qed.
Lemma assign_is : forall A (f : obj -> A) o a o', (o' = o /\ assign f o a o' = a) \/ (o' <> o /\ assign f o a o' = f o').
Proof. intros. unfold assign. destruct (Nat.eqb_spec o' o); auto. Qed.

(** the description of an expression determines it *)
Lemma operands_of_code : forall l, operands_of (concat (map operand_code l)) = l.
Proof. induction l as [|[c|i] l IH]; cbn; [reflexivity| |]; rewrite IH; reflexivity. Qed.
Lemma expression_of_code : forall e, expression_of (code e) = e.
Proof.
  intros [r k f o]. unfold code, expression_of. cbn [c_result c_product c_factors c_operands].
  rewrite operands_of_code, firstn_app, Nat.sub_diag, firstn_all, firstn_O, app_nil_r.
  rewrite skipn_app, Nat.sub_diag, skipn_all, skipn_O. destruct k; reflexivity.
Qed.

Definition rf := obj -> option nat.
Definition cnt (u : rf) (o : obj) : nat := count_of (u o).
Definition inc (o : obj) (u : rf) : rf := assign u o (Some (S (cnt u o))).
Definition dec (o : obj) (u : rf) : rf := assign u o (Some (pred (cnt u o))).
Definition on (f : obj -> rf -> rf) (o : option obj) (u : rf) : rf := match o with None => u | Some o => f o u end.
Definition here (o : option obj) (x : obj) : nat := match o with None => 0 | Some o => if Nat.eqb o x then 1 else 0 end.
Lemma cnt_inc : forall o u x, cnt (inc o u) x = cnt u x + here (Some o) x.
Proof.
  intros. unfold inc, cnt, here. destruct (assign_is _ u o (Some (S (count_of (u o)))) x) as [[-> ->]|[H ->]].
  - rewrite Nat.eqb_refl. cbn. lia.
  - destruct (Nat.eqb_spec o x); [congruence|lia].
Qed.
Lemma cnt_dec : forall o u x, cnt (dec o u) x = cnt u x - here (Some o) x.
Proof.
  intros. unfold dec, cnt, here. destruct (assign_is _ u o (Some (pred (count_of (u o)))) x) as [[-> ->]|[H ->]].
  - rewrite Nat.eqb_refl. cbn. lia.
  - destruct (Nat.eqb_spec o x); [congruence|lia].
Qed.
Lemma cnt_on_dec : forall o u x, cnt (on dec o u) x = cnt u x - here o x.
Proof. intros [o|] u x; cbn [on]; [apply cnt_dec|cbn; lia]. Qed.
Lemma here_other : forall o x, o <> Some x -> here o x = 0.
Proof. intros [o|] x H; cbn; [|reflexivity]. destruct (Nat.eqb_spec o x); congruence. Qed.
Lemma here_same : forall x, here (Some x) x = 1.
Proof. intros. cbn. rewrite Nat.eqb_refl. reflexivity. Qed.

Section Proofs.
Context {V W : Type}.
Variables (rd : nat -> V -> W) (wr : nat -> W -> V).
Variable cst : nat -> W.
Variable con : nat -> W -> W -> W.
Variables (plus sc : W -> W -> W).
Variable given : obj -> V.
Variable zero : V.
Variable add : V -> V -> V.
Variable garbage : obj -> V.
Hypothesis add_zero : forall v, add zero v = v.
Hypothesis add_comm : forall v w, add v w = add w v.
Hypothesis add_assoc : forall u v w, add (add u v) w = add u (add v w).
Hypothesis wr_plus : forall i a b, wr i (plus a b) = add (wr i a) (wr i b).
Variable scal : leaf -> Prop.
Hypothesis sc_plus : forall s a b, scal s ->
  sc (leaf_value rd cst given s) (plus a b) = plus (sc (leaf_value rd cst given s) a) (sc (leaf_value rd cst given s) b).

Notation value := (value rd cst con plus sc given).
Notation leaf_value := (leaf_value rd cst given).
Notation scale := (scale rd cst sc given).
Notation evaluate := (evaluate rd wr cst con sc).
Notation run := (run zero add evaluate garbage).
Notation step := (step zero add evaluate garbage).
Notation machine := (@machine V).

Definition runs (p : list op) (m m' : machine) : Prop := exists t, run p m = Some (m', t).
Lemma runs_nil : forall m, runs [] m m.
Proof. intros. eexists. reflexivity. Qed.
Lemma runs_app : forall p q m m1 m2, runs p m m1 -> runs q m1 m2 -> runs (p ++ q) m m2.
Proof.
  induction p as [|x p IH]; intros q m m1 m2 [t H] Hq; cbn in *.
  - inversion H; subst. exact Hq.
  - destruct (step x m) as [[m0 t0]|] eqn:E; [|discriminate].
    destruct (run p m0) as [[m' t']|] eqn:Er; [|discriminate]. inversion H; subst.
    destruct (IH q m0 m1 m2) as [t2 H2]; [eexists; exact Er|exact Hq|].
    unfold runs. cbn. rewrite E, H2. eauto.
Qed.
Lemma runs_one : forall x m m' t, step x m = Some (m', t) -> runs [x] m m'.
Proof. intros. unfold runs. cbn. rewrite H. eauto. Qed.

(** the value of an operand in memory *)
Definition mem_value (f : obj -> option V) (a : leaf) (w : W) : Prop :=
  match a with Const c => w = cst c | Ref _ x => exists v, f (ob x) = Some v /\ w = rd (ix x) v end.
Lemma values_app : forall (f : obj -> option V) l1 l2 v1 v2, values f l1 = Some v1 -> values f l2 = Some v2 ->
  values f (l1 ++ l2) = Some (v1 ++ v2).
Proof.
  induction l1 as [|o l1 IH]; intros l2 v1 v2 H1 H2; cbn in *.
  - inversion H1. exact H2.
  - destruct (f o) as [v|]; [|discriminate]. destruct (values f l1) as [vs|] eqn:E; [|discriminate].
    inversion H1; subst. rewrite (IH l2 vs v2 eq_refl H2). reflexivity.
Qed.
Lemma read_leaves : forall f l ws, Forall2 (mem_value f) l ws ->
  exists vs, values f (concat (map leaf_args l)) = Some vs /\ read rd cst (map leaf_operand l) vs = ws.
Proof.
  induction 1 as [|a w l ws Ha _ (vs & E & R)].
  - exists []. split; reflexivity.
  - destruct a as [c|s x]; cbn in *.
    + subst w. exists vs. rewrite R. auto.
    + destruct Ha as (v & Ev & ->). exists (v :: vs). rewrite Ev, E. cbn. rewrite R. auto.
Qed.
Lemma step_compute : forall m x k fs ops wf wo v, memory m (ob x) = Some v ->
  Forall2 (mem_value (memory m)) fs wf -> Forall2 (mem_value (memory m)) ops wo ->
  exists m' t, step (compute_call x k fs ops) m = Some (m', t) /\
    stack m' = stack m /\ (forall o, store m' o = store m o) /\
    memory m' (ob x) = Some (add v (wr (ix x) (fold_right sc (match k, wo with
           | Some n, [a; b] => con n a b
           | _, a :: _ => a
           | _, [] => cst 0
           end) wf))) /\
    (forall o, o <> ob x -> memory m' o = memory m o).
Proof.
  intros m x k fs ops wf wo v Hv Hf Ho. unfold compute_call.
  pose proof (Forall2_app Hf Ho) as Ha.
  apply read_leaves in Ha. destruct Ha as (vs & Ev & Er).
  cbn [Gen_Spec.step]. rewrite Hv. rewrite map_app, concat_app in Ev. rewrite Ev.
  eexists. eexists. split; [reflexivity|]. cbn [stack store memory].
  assert (L : length fs = length wf) by (clear - Hf; induction Hf; cbn; congruence).
  split; [reflexivity|]. split; [reflexivity|]. split.
  - unfold update. rewrite Nat.eqb_refl. do 2 f_equal. unfold Exp_Spec.evaluate.
    rewrite expression_of_code. cbn [c_result c_product c_factors c_operands].
    rewrite <- map_app, Er, map_length, L.
    rewrite firstn_app, Nat.sub_diag, firstn_all, firstn_O, app_nil_r.
    rewrite skipn_app, Nat.sub_diag, skipn_all, skipn_O. reflexivity.
  - intros o Ho'. unfold update. destruct (Nat.eqb_spec o (ob x)); congruence.
Qed.

(** * The trees that the preprocessing produces *)
Variable leafobj : obj -> Prop.
Variable X : occ.            (* the result of the root *)
Variable fz : obj -> zstrategy.
Variable fl : obj -> lstrategy.
Notation R := (ob X).

Definition eqi (r r' : rf) : Prop := forall o, ~ leafobj o -> r o = r' o.
Definition leaf_ok (a : leaf) : Prop :=
  match a with Const _ => True | Ref _ x => leafobj (ob x) /\ fz (ob x) = NeverZero end.
Definition factor_ok (a : leaf) : Prop :=
  scal a /\ match a with Const _ => True | Ref _ x => leafobj (ob x) end.
Definition flat (k : kind) (sel : bool * bool) (l r : tree) : Prop :=
  k = KSum -> is_leaf l = true /\ is_leaf r = true /\ sel = (true, true).

Inductive wt : tree -> rf -> rf -> Prop :=
| wt_leaf : forall a r r', leaf_ok a -> eqi r' r -> wt (Leaf a) r r'
| wt_node : forall k sel fs x l r ra r1 r2 r3 r4,
    ~ leafobj (ob x) ->
    ra (ob x) = None \/ (ra (ob x) = Some 0 /\ fz (ob x) = AlwaysZero) ->
    on_create (fz (ob x)) = true -> fl (ob x) = SCreate ->
    Forall factor_ok fs -> flat k sel l r ->
    rd (ix x) (wr (ix x) (value (Node k sel fs x l r))) = value (Node k sel fs x l r) ->
    eqi r1 (inc (ob x) ra) -> wt l r1 r2 -> wt r r2 r3 ->
    eqi r4 (on dec (top_obj l) (on dec (top_obj r) r3)) ->
    wt (Node k sel fs x l r) ra r4.

Lemma wt_cnt : forall t r r', wt t r r' -> forall o, ~ leafobj o -> cnt r' o = cnt r o + here (top_obj t) o.
Proof.
  induction 1 as [a r r' Ha He|k sel fs x l r ra r1 r2 r3 r4 Hx Hr Hc Hl Hf Hflat Hfit E1 _ IHl _ IHr E4]; intros o Ho.
  - unfold cnt. rewrite (He o Ho). destruct a as [c|s x]; cbn [top_obj]; [cbn; lia|].
    rewrite here_other; [lia|]. destruct Ha as [Ha _]. intros Hq. injection Hq as Hq. subst o. contradiction.
  - unfold cnt at 1. rewrite (E4 o Ho). fold (cnt (on dec (top_obj l) (on dec (top_obj r) r3)) o).
    rewrite !cnt_on_dec, (IHr o Ho), (IHl o Ho).
    unfold cnt at 1. rewrite (E1 o Ho). fold (cnt (inc (ob x) ra) o). rewrite cnt_inc. cbn [top_obj]. lia.
Qed.

Definition agree (u r : rf) : Prop := forall o, ~ leafobj o -> o <> R -> u o = r o.
Record Inv (u : rf) (m : machine) : Prop := mkInv {
  inv_mem : forall o, memory m o = None <-> cnt u o = 0;
  inv_leaf : forall o v, leafobj o -> memory m o = Some v -> v = given o;
  inv_store : forall o, leafobj o -> store m o = Some (given o)
}.
Lemma inv_value : forall u m o, Inv u m -> leafobj o -> 0 < cnt u o -> memory m o = Some (given o).
Proof.
  intros u m o I Hl Hc. destruct (memory m o) as [v|] eqn:E.
  - rewrite (inv_leaf _ _ I o v Hl E). reflexivity.
  - apply (inv_mem _ _ I) in E. lia.
Qed.
Definition pushes (o : option obj) (u : rf) : list obj :=
  match o with None => [] | Some o => if Nat.eqb (cnt u o) 0 then [o] else [] end.
Lemma pushes_in : forall o u x, In x (pushes o u) -> o = Some x /\ cnt u x = 0.
Proof.
  intros [o|] u x H; cbn in H; [|destruct H]. destruct (Nat.eqb_spec (cnt u o) 0); [|destruct H].
  destruct H as [->|[]]. auto.
Qed.

(** an object (or none) is brought into memory *)
Record Acq (o : option obj) (u : rf) (m : machine) (u' : rf) (m' : machine) : Prop := mkAcq {
  acq_cnt : forall x, cnt u' x = cnt u x + here o x;
  acq_stack : stack m' = pushes o u ++ stack m;
  acq_mem : forall x, ~ In x (pushes o u) -> memory m' x = memory m x;
  acq_new : forall x, In x (pushes o u) -> memory m' x <> None;
  acq_store : forall x, store m' x = store m x
}.
(** nothing has changed, except for the value of [q] *)
Record Like (q : obj) (u : rf) (m : machine) (u' : rf) (m' : machine) : Prop := mkLike {
  like_cnt : forall x, cnt u' x = cnt u x;
  like_stack : stack m' = stack m;
  like_mem : forall x, x <> q -> memory m' x = memory m x;
  like_store : forall x, store m' x = store m x
}.
Lemma acq_inv : forall o u m u' m', Acq o u m u' m' -> Inv u m ->
  (forall x v, In x (pushes o u) -> leafobj x -> memory m' x = Some v -> v = given x) -> Inv u' m'.
Proof.
  intros o u m u' m' A I H. constructor.
  - intros x. rewrite (acq_cnt _ _ _ _ _ A).
    destruct (in_dec Nat.eq_dec x (pushes o u)) as [Hin|Hin].
    + pose proof (acq_new _ _ _ _ _ A x Hin). apply pushes_in in Hin. destruct Hin as [-> _]. rewrite here_same.
      split; [contradiction|lia].
    + rewrite (acq_mem _ _ _ _ _ A x Hin), (inv_mem _ _ I).
      destruct o as [o|]; cbn [here]; [|split; lia]. destruct (Nat.eqb_spec o x) as [->|]; [|split; lia].
      split; [|lia]. intros Hz. exfalso. apply Hin. cbn. destruct (Nat.eqb_spec (cnt u x) 0); [left; reflexivity|contradiction].
  - intros x v Hl Hv. destruct (in_dec Nat.eq_dec x (pushes o u)) as [Hin|Hin]; [eauto|].
    rewrite (acq_mem _ _ _ _ _ A x Hin) in Hv. eapply inv_leaf; eauto.
  - intros x Hl. rewrite (acq_store _ _ _ _ _ A). eapply inv_store; eauto.
Qed.
Lemma acq_old : forall o u m u' m' x, Acq o u m u' m' -> 0 < cnt u x -> memory m' x = memory m x.
Proof. intros. eapply acq_mem; eauto. intros Hi. apply pushes_in in Hi. lia. Qed.

Lemma drop_back : forall q o u m u1 m1 u2 m2, Inv u m -> Acq o u m u1 m1 -> Like q u1 m1 u2 m2 -> 0 < cnt u q ->
  exists p u3 m3, drop o u2 = Some (p, u3) /\ runs p m2 m3 /\ Like q u m u3 m3 /\ memory m3 q = memory m2 q /\
    u3 = on dec o u2.
Proof.
  intros q o u m u1 m1 u2 m2 I A L Hq. destruct o as [o|].
  - cbn [drop on]. pose proof (acq_cnt _ _ _ _ _ A o) as C. rewrite here_same in C.
    pose proof (like_cnt _ _ _ _ _ L o) as C2. unfold cnt in C2 at 1.
    destruct (u2 o) as [[|n]|] eqn:Eu; cbn in C2; try lia.
    assert (Hd : assign u2 o (Some n) = dec o u2). { unfold dec, cnt. rewrite Eu. reflexivity. }
    rewrite Hd. destruct (Nat.eqb_spec n 0) as [->|Hn].
    + assert (Hz : cnt u o = 0) by lia.
      pose proof (acq_stack _ _ _ _ _ A) as S1. cbn [pushes] in S1. rewrite Hz, Nat.eqb_refl in S1.
      pose proof (like_stack _ _ _ _ _ L) as S2. rewrite S1 in S2. cbn [app] in S2.
      exists [Unload o], (dec o u2), (mkMachine (stack m) (update (memory m2) o None) (store m2)).
      split; [reflexivity|]. split.
      { apply (runs_one _ _ _ []). cbn. unfold deallocate. rewrite S2, Nat.eqb_refl. reflexivity. }
      assert (Ho : o <> q) by (intros ->; lia).
      split; [constructor|split; [|reflexivity]].
      * intros x. rewrite cnt_dec, (like_cnt _ _ _ _ _ L), (acq_cnt _ _ _ _ _ A). lia.
      * reflexivity.
      * intros x Hx. cbn. unfold update. destruct (Nat.eqb_spec x o) as [->|Hxo].
        -- symmetry. apply (inv_mem _ _ I). exact Hz.
        -- rewrite (like_mem _ _ _ _ _ L x Hx). eapply acq_mem; [exact A|]. cbn. rewrite Hz, Nat.eqb_refl.
           intros [->|[]]; congruence.
      * intros x. cbn. rewrite (like_store _ _ _ _ _ L), (acq_store _ _ _ _ _ A). reflexivity.
      * cbn. unfold update. destruct (Nat.eqb_spec q o); congruence.
    + assert (Hz : cnt u o <> 0) by lia.
      exists [], (dec o u2), m2. split; [reflexivity|]. split; [apply runs_nil|].
      split; [constructor|split; reflexivity].
      * intros x. rewrite cnt_dec, (like_cnt _ _ _ _ _ L), (acq_cnt _ _ _ _ _ A). lia.
      * rewrite (like_stack _ _ _ _ _ L), (acq_stack _ _ _ _ _ A). cbn. destruct (Nat.eqb_spec (cnt u o) 0); [contradiction|reflexivity].
      * intros x Hx. rewrite (like_mem _ _ _ _ _ L x Hx). eapply acq_mem; [exact A|]. cbn.
        destruct (Nat.eqb_spec (cnt u o) 0); [contradiction|auto].
      * intros x. rewrite (like_store _ _ _ _ _ L), (acq_store _ _ _ _ _ A). reflexivity.
  - exists [], u2, m2. cbn [drop on]. split; [reflexivity|]. split; [apply runs_nil|].
    split; [constructor|split; reflexivity].
    + intros x. rewrite (like_cnt _ _ _ _ _ L), (acq_cnt _ _ _ _ _ A). cbn. lia.
    + rewrite (like_stack _ _ _ _ _ L), (acq_stack _ _ _ _ _ A). reflexivity.
    + intros x Hx. rewrite (like_mem _ _ _ _ _ L x Hx). eapply acq_mem; [exact A|]. auto.
    + intros x. rewrite (like_store _ _ _ _ _ L), (acq_store _ _ _ _ _ A). reflexivity.
Qed.

(** loading an input *)
Lemma acq_input : forall o u m, Inv u m -> leafobj o ->
  exists m', runs (if Nat.eqb (cnt u o) 0 then [Load o] else []) m m' /\ Acq (Some o) u m (inc o u) m' /\ Inv (inc o u) m'.
Proof.
  intros o u m I Hl. destruct (Nat.eqb_spec (cnt u o) 0) as [Hz|Hz].
  - pose proof (inv_store _ _ I o Hl) as Hs. assert (Hm : memory m o = None) by (apply (inv_mem _ _ I); exact Hz).
    set (m1 := mkMachine (o :: stack m) (update (memory m) o (Some (given o))) (store m)).
    assert (A : Acq (Some o) u m (inc o u) m1).
    { constructor; cbn [pushes]; rewrite ?Hz, ?Nat.eqb_refl; cbn.
      - intros x. rewrite cnt_inc. reflexivity.
      - reflexivity.
      - intros x Hx. unfold update. destruct (Nat.eqb_spec x o); [subst; tauto|reflexivity].
      - intros x [->|[]]. unfold update. rewrite Nat.eqb_refl. discriminate.
      - reflexivity. }
    exists m1. split; [|split; [exact A|]].
    + apply (runs_one _ _ _ []). cbn. unfold allocate. rewrite Hm, Hs. reflexivity.
    + eapply acq_inv; eauto. intros x v Hi _ Hv. apply pushes_in in Hi. destruct Hi as [[= ->] _].
      cbn in Hv. unfold update in Hv. rewrite Nat.eqb_refl in Hv. congruence.
  - exists m. assert (A : Acq (Some o) u m (inc o u) m).
    { constructor; cbn [pushes]; destruct (Nat.eqb_spec (cnt u o) 0); try contradiction; cbn; auto.
      intros x. rewrite cnt_inc. reflexivity. }
    split; [apply runs_nil|]. split; [exact A|]. eapply acq_inv; eauto.
    intros x v Hi. apply pushes_in in Hi. destruct Hi as [[= ->] Hi]. contradiction.
Qed.
Lemma acq_none : forall u m, Acq None u m u m.
Proof. intros. constructor; cbn; auto. Qed.

Lemma acquire_leaf : forall a u m, Inv u m -> leaf_ok a ->
  exists p u' m', acquire fz fl (Leaf a) u = (p, u') /\ runs p m m' /\ Acq (top_obj (Leaf a)) u m u' m' /\ Inv u' m' /\
    eqi u' u.
Proof.
  intros [c|s x] u m I H.
  - exists [], u, m. split; [reflexivity|]. split; [apply runs_nil|]. split; [apply acq_none|]. split; [exact I|intros o _; reflexivity].
  - destruct H as [Hl Hz]. destruct (acq_input (ob x) u m I Hl) as (m' & Hr & A & I').
    eexists. eexists. exists m'. split; [reflexivity|]. cbn [is_leaf]. rewrite Hz. cbn [negb andb NeverZero on_load on_reuse].
    replace (Nat.ltb 0 (count_of (u (ob x)))) with (negb (Nat.eqb (cnt u (ob x)) 0)).
    2:{ unfold cnt. destruct (count_of (u (ob x))); reflexivity. }
    split; [|split; [exact A|split; [exact I'|]]].
    + destruct (Nat.eqb (cnt u (ob x)) 0); cbn; exact Hr.
    + intros o Ho. fold (cnt u (ob x)). fold (inc (ob x) u). unfold inc. apply assign_other. intros ->. contradiction.
Qed.

(** the scalar factors *)
Lemma factors_ok : forall fs, Forall factor_ok fs -> forall u m, Inv u m ->
  exists p u' m', load_factors fs u = (p, u') /\ runs p m m' /\ Inv u' m' /\ eqi u' u /\
    (forall x, 0 < cnt u x -> memory m' x = memory m x) /\ (forall x, cnt u x <= cnt u' x) /\
    Forall2 (mem_value (memory m')) fs (map leaf_value fs) /\
    (forall q u1 m1, 0 < cnt u q -> Like q u' m' u1 m1 ->
       exists p1 u2 m2, drop_all (rev (map (fun a => top_obj (Leaf a)) fs)) u1 = Some (p1, u2) /\ runs p1 m1 m2 /\
         Like q u m u2 m2 /\ memory m2 q = memory m1 q /\ eqi u2 u1).
Proof.
  induction 1 as [|a fs Ha _ IH]; intros u m I.
  - exists [], u, m. cbn. repeat split; auto using runs_nil; try apply I; try (intros ? ?; reflexivity).
    intros q u1 m1 Hq L. exists [], u1, m1. split; [reflexivity|]. split; [apply runs_nil|]. split; [exact L|].
    split; [reflexivity|intros o _; reflexivity].
  - assert (Hd : forall l1 l2 u, drop_all (l1 ++ l2) u =
        match drop_all l1 u with None => None | Some (p1, u1) =>
        match drop_all l2 u1 with None => None | Some (p2, u2) => Some (p1 ++ p2, u2) end end).
    { clear. induction l1 as [|o l1 IH]; intros l2 u; cbn.
      - destruct (drop_all l2 u) as [[? ?]|]; reflexivity.
      - destruct (drop o u) as [[p1 u1]|]; [|reflexivity]. rewrite IH.
        destruct (drop_all l1 u1) as [[p2 u2]|]; [|reflexivity].
        destruct (drop_all l2 u2) as [[p3 u3]|]; [|reflexivity]. rewrite app_assoc. reflexivity. }
    destruct a as [c|s x].
    + destruct (IH u m I) as (p & u' & m' & Hp & Hr & I' & He & Hm & Hle & Hv & Hb).
      exists p, u', m'. cbn [load_factors map]. repeat (split; [assumption|]).
      split; [constructor; [reflexivity|exact Hv]|].
      intros q u1 m1 Hq L. destruct (Hb q u1 m1 Hq L) as (p1 & u2 & m2 & D & Hr1 & L1 & Hq1 & He1).
      exists (p1 ++ []), u2, m2. cbn [rev]. rewrite Hd, D. cbn. split; [reflexivity|]. rewrite app_nil_r. auto.
    + destruct Ha as [_ Hl]. destruct (acq_input (ob x) u m I Hl) as (m0 & Hr0 & A & I0).
      destruct (IH (inc (ob x) u) m0 I0) as (p & u' & m' & Hp & Hr & I' & He & Hm & Hle & Hv & Hb).
      exists ((if Nat.eqb (cnt u (ob x)) 0 then [Load (ob x)] else []) ++ p), u', m'.
      cbn [load_factors]. fold (cnt u (ob x)). fold (inc (ob x) u). rewrite Hp.
      split; [reflexivity|]. split; [eapply runs_app; eauto|]. split; [exact I'|]. split.
      { intros o Ho. rewrite (He o Ho). unfold inc. apply assign_other. intros ->. contradiction. }
      split. { intros y Hy. rewrite Hm; [eapply acq_old; eauto|]. rewrite cnt_inc. lia. }
      split. { intros y. specialize (Hle y). rewrite cnt_inc in Hle. lia. }
      split.
      { cbn [map]. constructor; [|exact Hv]. cbn [mem_value]. exists (given (ob x)). split; [|reflexivity].
        eapply inv_value; eauto. specialize (Hle (ob x)). rewrite cnt_inc, here_same in Hle. lia. }
      intros q u1 m1 Hq L. destruct (Hb q u1 m1) as (p1 & u2 & m2 & D & Hr1 & L1 & Hq1 & He1); [rewrite cnt_inc; lia|exact L|].
      destruct (drop_back q (Some (ob x)) u m (inc (ob x) u) m0 u2 m2 I A L1 Hq) as (p2 & u3 & m3 & D2 & Hr2 & L2 & Hq2 & Hu).
      exists (p1 ++ p2 ++ []), u3, m3. cbn [rev map]. rewrite Hd, D. cbn [drop_all top_obj]. rewrite D2.
      split; [reflexivity|]. rewrite app_nil_r. split; [eapply runs_app; eauto|]. split; [exact L2|].
      split; [congruence|]. intros o Ho. rewrite Hu. cbn [on]. unfold dec. rewrite assign_other; [apply He1; exact Ho|].
      intros ->. contradiction.
Qed.

(** * A node *)
Lemma mem_value_old : forall f f' a w, mem_value f a w -> (forall s x, a = Ref s x -> f' (ob x) = f (ob x)) -> mem_value f' a w.
Proof.
  intros f f' [c|s x] w H Hf; cbn in *; [exact H|]. destruct H as (v & Hv & ->). exists v.
  rewrite (Hf s x eq_refl). auto.
Qed.
Lemma mem_value_some : forall f s x w, mem_value f (Ref s x) w -> f (ob x) <> None.
Proof. intros f s x w (v & Hv & _). congruence. Qed.
Lemma agree_dec : forall o u r, agree u r -> agree (on dec o u) (on dec o r).
Proof.
  intros [o|] u r H x Hx HR; cbn [on]; [|apply H; assumption].
  unfold dec. destruct (Nat.eq_dec x o) as [->|Hne].
  - rewrite !assign_same. unfold cnt. rewrite (H o Hx HR). reflexivity.
  - rewrite !assign_other by assumption. apply H; assumption.
Qed.
Lemma top_leaf : forall t o, top_obj t = Some o -> exists s x, node_leaf t = Ref s x /\ ob x = o.
Proof.
  intros [[c|s x]|k sel fs x l r] o H; cbn in *; try discriminate; injection H as <-; eauto.
Qed.
Lemma leaf_top : forall t s x, node_leaf t = Ref s x -> top_obj t = Some (ob x).
Proof. intros [[c|s' x']|k sel fs x' l r] s x H; cbn in *; try discriminate; injection H as; subst; reflexivity. Qed.
Lemma scale_plus : forall fs a b, Forall factor_ok fs -> scale fs (plus a b) = plus (scale fs a) (scale fs b).
Proof.
  induction 1 as [|s fs [Hs _] _ IH]; cbn; [reflexivity|]. fold (scale fs (plus a b)) (scale fs a) (scale fs b).
  rewrite IH. apply sc_plus. exact Hs.
Qed.
Lemma fold_scale : forall fs w, fold_right sc w (map leaf_value fs) = scale fs w.
Proof. induction fs; intros; cbn; [reflexivity|]. rewrite IHfs. reflexivity. Qed.
Lemma runs_cons : forall x p m m1 m2, runs [x] m m1 -> runs p m1 m2 -> runs (x :: p) m m2.
Proof. intros. change (x :: p) with ([x] ++ p). eapply runs_app; eauto. Qed.
Lemma drop_all_app : forall l1 l2 u, drop_all (l1 ++ l2) u =
  match drop_all l1 u with None => None | Some (p1, u1) =>
  match drop_all l2 u1 with None => None | Some (p2, u2) => Some (p1 ++ p2, u2) end end.
Proof.
  induction l1 as [|o l1 IH]; intros l2 u; cbn.
  - destruct (drop_all l2 u) as [[? ?]|]; reflexivity.
  - destruct (drop o u) as [[p1 u1]|]; [|reflexivity]. rewrite IH.
    destruct (drop_all l1 u1) as [[p2 u2]|]; [|reflexivity].
    destruct (drop_all l2 u2) as [[p3 u3]|]; [|reflexivity]. rewrite app_assoc. reflexivity.
Qed.

Definition good (t : tree) (r r' : rf) : Prop := forall u m,
  agree u r -> 0 < cnt r R -> 0 < cnt u R -> Inv u m ->
  exists p u' m', generate fz fl t u = Some (p, u') /\ runs p m m' /\ Acq (top_obj t) u m u' m' /\ Inv u' m' /\
    agree u' r' /\ mem_value (memory m') (node_leaf t) (value t).

(** the computations of a node, with its operands and factors in memory *)
Lemma comp_ok : forall k sel fs x l r m v, Forall factor_ok fs -> flat k sel l r -> memory m (ob x) = Some v ->
  Forall2 (mem_value (memory m)) fs (map leaf_value fs) ->
  mem_value (memory m) (node_leaf l) (value l) -> mem_value (memory m) (node_leaf r) (value r) ->
  (forall a, In a (node_leaf l :: node_leaf r :: fs) -> forall s y, a = Ref s y -> k = KSum -> ob y <> ob x) ->
  exists p m', computations k sel fs x l r = Some p /\ runs p m m' /\ stack m' = stack m /\
    (forall o, store m' o = store m o) /\ (forall o, o <> ob x -> memory m' o = memory m o) /\
    memory m' (ob x) = Some (add v (wr (ix x) (value (Node k sel fs x l r)))).
Proof.
  intros k sel fs x l r m v Hf Hflat Hv Hfs Hl Hr Hne. destruct k as [n|].
  - destruct (step_compute m x (Some n) fs [node_leaf l; node_leaf r] _ _ v Hv Hfs
               (Forall2_cons _ _ Hl (Forall2_cons _ _ Hr (Forall2_nil _)))) as (m' & t & E & Es & Est & Em & Eo).
    exists [compute_call x (Some n) fs [node_leaf l; node_leaf r]], m'. split; [reflexivity|].
    split; [eapply runs_one; exact E|]. split; [exact Es|]. split; [exact Est|]. split; [exact Eo|].
    rewrite Em, fold_scale. reflexivity.
  - destruct (Hflat eq_refl) as (L1 & L2 & ->). cbn [computations].
    destruct (step_compute m x None fs [node_leaf l] _ _ v Hv Hfs (Forall2_cons _ _ Hl (Forall2_nil _)))
      as (m1 & t1 & E & Es & Est & Em & Eo).
    assert (K : forall a w, In a (node_leaf l :: node_leaf r :: fs) -> mem_value (memory m) a w -> mem_value (memory m1) a w).
    { intros a w Ha Hw. eapply mem_value_old; [exact Hw|]. intros s y E1. apply Eo. eapply Hne; eauto. }
    destruct (step_compute m1 x None fs [node_leaf r] (map leaf_value fs) [value r] _ Em)
      as (m2 & t2 & E2 & Es2 & Est2 & Em2 & Eo2).
    { assert (Hin : incl fs (node_leaf l :: node_leaf r :: fs)) by (intros a Ha; right; right; exact Ha).
      remember (node_leaf l :: node_leaf r :: fs) as big eqn:Eb. clear - Hfs K Hin.
      induction Hfs as [|a w fs' ws Ha _ IH]; [constructor|].
      constructor; [apply K; [apply Hin; left; reflexivity|exact Ha]|].
      apply IH. intros b Hb. apply Hin. right. exact Hb. }
    { constructor; [|constructor]. apply K; [right; left; reflexivity|exact Hr]. }
    eexists. exists m2. split; [reflexivity|]. split.
    { eapply runs_cons; eapply runs_one; eauto. }
    split; [congruence|]. split; [intros; congruence|]. split.
    { intros o Ho. rewrite Eo2, Eo; auto. }
    rewrite Em2, !fold_scale. cbn [Exp_Spec.value]. rewrite scale_plus by exact Hf. rewrite wr_plus, add_assoc. reflexivity.
Qed.

Lemma body : forall k sel fs x l r r1 r2 r3, ~ leafobj (ob x) -> Forall factor_ok fs -> flat k sel l r ->
  wt l r1 r2 -> wt r r2 r3 -> good l r1 r2 -> good r r2 r3 ->
  forall u1 m1 v, agree u1 r1 -> 0 < cnt r1 R -> 0 < cnt u1 R -> ~ leafobj R -> Inv u1 m1 -> memory m1 (ob x) = Some v ->
  exists pl u2 pr u3 pc u4 m4, generate fz fl l u1 = Some (pl, u2) /\ generate fz fl r u2 = Some (pr, u3) /\
    process_computation k sel fs x l r u3 = Some (pc, u4) /\ runs (pl ++ pr ++ pc) m1 m4 /\
    Like (ob x) u1 m1 u4 m4 /\ memory m4 (ob x) = Some (add v (wr (ix x) (value (Node k sel fs x l r)))) /\
    agree u4 (on dec (top_obj l) (on dec (top_obj r) r3)).
Proof.
  intros k sel fs x l r r1 r2 r3 Hx Hf Hflat Wl Wr Gl Gr u1 m1 v Ag Hr Hu HR I Hv.
  assert (Hq : 0 < cnt u1 (ob x)).
  { destruct (cnt u1 (ob x)) eqn:E; [|lia]. apply (inv_mem _ _ I) in E. congruence. }
  destruct (Gl u1 m1 Ag Hr Hu I) as (pl & u2 & m2 & Gl1 & Rl & Al & Il & Agl & Vl).
  destruct (Gr u2 m2 Agl) as (pr & u3 & m3 & Gr1 & Rr & Ar & Ir & Agr & Vr).
  { rewrite (wt_cnt _ _ _ Wl R HR). lia. } { rewrite (acq_cnt _ _ _ _ _ Al). lia. } { exact Il. }
  destruct (factors_ok fs Hf u3 m3 Ir) as (pf & uf & mf & Lf & Rf & If & Ef & Mf & Cf & Vf & Bf).
  assert (C2 : forall o, cnt u1 o <= cnt u2 o) by (intros; rewrite (acq_cnt _ _ _ _ _ Al); lia).
  assert (C3 : forall o, cnt u2 o <= cnt u3 o) by (intros; rewrite (acq_cnt _ _ _ _ _ Ar); lia).
  assert (Hvf : memory mf (ob x) = Some v).
  { rewrite Mf, (acq_old _ _ _ _ _ _ Ar), (acq_old _ _ _ _ _ _ Al); auto; [specialize (C2 (ob x)); lia|].
    specialize (C2 (ob x)). specialize (C3 (ob x)). lia. }
  assert (Pl : forall s y, node_leaf l = Ref s y -> 0 < cnt u2 (ob y)).
  { intros s y E. rewrite E in Vl. apply mem_value_some in Vl. destruct (cnt u2 (ob y)) eqn:E0; [|lia].
    apply (inv_mem _ _ Il) in E0. contradiction. }
  assert (Pr : forall s y, node_leaf r = Ref s y -> 0 < cnt u3 (ob y)).
  { intros s y E. rewrite E in Vr. apply mem_value_some in Vr. destruct (cnt u3 (ob y)) eqn:E0; [|lia].
    apply (inv_mem _ _ Ir) in E0. contradiction. }
  destruct (comp_ok k sel fs x l r mf v Hf Hflat Hvf Vf) as (pc & mc & Cc & Rc & Sc & Stc & Mc & Vc).
  { eapply mem_value_old; [exact Vl|]. intros s y E. pose proof (Pl s y E). specialize (C3 (ob y)).
    rewrite Mf by lia. eapply acq_old; eauto. }
  { eapply mem_value_old; [exact Vr|]. intros s y E. pose proof (Pr s y E). rewrite Mf by lia. reflexivity. }
  { intros a Ha s y E Ek. destruct (Hflat Ek) as (L1 & L2 & _).
    assert (Hle : forall t r r', wt t r r' -> is_leaf t = true -> forall s y, node_leaf t = Ref s y -> leafobj (ob y)).
    { clear. intros t r r' Wt Ht s y E. destruct Wt; [|discriminate]. cbn in E. subst a. apply H. }
    assert (leafobj (ob y)); [|intros Hc; rewrite Hc in *; contradiction].
    destruct Ha as [Ha|[Ha|Ha]].
    - subst a. eapply (Hle l); eauto.
    - subst a. eapply (Hle r); eauto.
    - rewrite Forall_forall in Hf. destruct (Hf _ Ha) as [_ Hf1]. rewrite E in Hf1. exact Hf1. }
  assert (Lc : Like (ob x) uf mf uf mc) by (constructor; auto).
  assert (Hq3 : 0 < cnt u3 (ob x)). { specialize (C2 (ob x)). specialize (C3 (ob x)). lia. }
  assert (Hq2 : 0 < cnt u2 (ob x)). { specialize (C2 (ob x)). lia. }
  destruct (Bf (ob x) uf mc Hq3 Lc) as (pd & u5 & m5 & D5 & R5 & L5 & Q5 & E5).
  destruct (drop_back (ob x) (top_obj r) u2 m2 u3 m3 u5 m5 Il Ar L5 Hq2) as (p6 & u6 & m6 & D6 & R6 & L6 & Q6 & E6).
  destruct (drop_back (ob x) (top_obj l) u1 m1 u2 m2 u6 m6 I Al L6 Hq) as (p7 & u7 & m7 & D7 & R7 & L7 & Q7 & E7).
  exists pl, u2, pr, u3, (pf ++ pc ++ pd ++ p6 ++ p7 ++ []), u7, m7.
  split; [exact Gl1|]. split; [exact Gr1|]. split.
  { unfold process_computation. rewrite Cc, Lf, drop_all_app, D5. cbn [drop_all]. rewrite D6, D7. reflexivity. }
  rewrite app_nil_r. split; [repeat (eapply runs_app; eauto)|]. split; [exact L7|]. split; [congruence|].
  rewrite E7, E6. apply agree_dec, agree_dec. intros o Ho HoR. rewrite (E5 o Ho), (Ef o Ho). apply Agr; assumption.
Qed.

Lemma wt_good : ~ leafobj R -> forall t r r', wt t r r' -> good t r r'.
Proof.
  intros HR. induction 1 as [a r r' Ha He|k sel fs x l r ra r1 r2 r3 r4 Hx Hr Hc Hl Hf Hflat Hfit E1 Wl IHl Wr IHr E4];
    intros u m Ag Hcr Hcu I.
  - destruct (acquire_leaf a u m I Ha) as (p & u' & m' & E & Hp & A & I' & Eq).
    exists p, u', m'. cbn [generate]. rewrite E. split; [reflexivity|]. split; [exact Hp|]. split; [exact A|].
    split; [exact I'|]. split; [intros o Ho HoR; rewrite (Eq o Ho), (He o Ho); apply Ag; assumption|].
    destruct a as [c|s x]; cbn; [reflexivity|]. exists (given (ob x)). split; [|reflexivity].
    eapply inv_value; [exact I'|apply Ha|]. rewrite (acq_cnt _ _ _ _ _ A). cbn [top_obj]. rewrite here_same. lia.
  - assert (HxR : ob x <> R).
    { intros E. rewrite E in Hr. unfold cnt in Hcr. destruct Hr as [Hr|[Hr _]]; rewrite Hr in Hcr; cbn in Hcr; lia. }
    assert (Hux : u (ob x) = ra (ob x)) by (apply Ag; assumption).
    assert (Hz : cnt u (ob x) = 0). { unfold cnt. rewrite Hux. destruct Hr as [Hr|[Hr _]]; rewrite Hr; reflexivity. }
    assert (Hm : memory m (ob x) = None) by (apply (inv_mem _ _ I); exact Hz).
    set (m1 := mkMachine (ob x :: stack m) (update (memory m) (ob x) (Some zero)) (store m)).
    assert (Hacq : exists p, acquire fz fl (Node k sel fs x l r) u = (p, inc (ob x) u) /\ runs p m m1).
    { eexists. split; [reflexivity|]. cbn [is_leaf negb andb]. fold (cnt u (ob x)). rewrite Hz, Hux. cbn [Nat.ltb].
      rewrite Hl. destruct Hr as [Hr|[Hr Hz']]; rewrite Hr; cbn [negb andb].
      - rewrite Hc. apply (runs_one _ _ _ []). cbn. unfold allocate. rewrite Hm. reflexivity.
      - rewrite Hz'. cbn. apply (runs_one _ _ _ []). cbn. unfold allocate. rewrite Hm. reflexivity. }
    destruct Hacq as (p & Ea & Rp).
    assert (A1 : Acq (Some (ob x)) u m (inc (ob x) u) m1).
    { constructor; cbn [pushes]; rewrite ?Hz, ?Nat.eqb_refl; cbn.
      - intros y. rewrite cnt_inc. reflexivity.
      - reflexivity.
      - intros y Hy. unfold update. destruct (Nat.eqb_spec y (ob x)); [subst; tauto|reflexivity].
      - intros y [<-|[]]. unfold update. rewrite Nat.eqb_refl. discriminate.
      - reflexivity. }
    assert (I1 : Inv (inc (ob x) u) m1).
    { eapply acq_inv; eauto. intros y w Hi Hy. apply pushes_in in Hi. destruct Hi as [[= <-] _]. contradiction. }
    destruct (body k sel fs x l r r1 r2 r3 Hx Hf Hflat Wl Wr IHl IHr (inc (ob x) u) m1 zero)
      as (pl & u2 & pr & u3 & pc & u4 & m4 & Gl & Gr & Gp & Rn & Lk & Vn & Ag4); auto.
    { intros o Ho HoR. rewrite (E1 o Ho). unfold inc. destruct (Nat.eq_dec o (ob x)) as [->|Hne].
      - rewrite !assign_same. unfold cnt. rewrite Hux. reflexivity.
      - rewrite !assign_other by assumption. apply Ag; assumption. }
    { unfold cnt. rewrite (E1 R HR). fold (cnt (inc (ob x) ra) R). rewrite cnt_inc. lia. }
    { rewrite cnt_inc. lia. }
    { unfold m1. cbn. unfold update. rewrite Nat.eqb_refl. reflexivity. }
    exists (p ++ pl ++ pr ++ pc), u4, m4.
    cbn [generate]. rewrite Ea, Gl, Gr, Gp. split; [reflexivity|]. split; [eapply runs_app; eauto|].
    assert (A4 : Acq (Some (ob x)) u m u4 m4).
    { constructor.
      - intros y. rewrite (like_cnt _ _ _ _ _ Lk). apply (acq_cnt _ _ _ _ _ A1).
      - rewrite (like_stack _ _ _ _ _ Lk). apply (acq_stack _ _ _ _ _ A1).
      - intros y Hy. rewrite (like_mem _ _ _ _ _ Lk); [apply (acq_mem _ _ _ _ _ A1); exact Hy|].
        intros ->. apply Hy. cbn. rewrite Hz, Nat.eqb_refl. left. reflexivity.
      - intros y Hy. apply pushes_in in Hy. destruct Hy as [[= <-] _]. congruence.
      - intros y. rewrite (like_store _ _ _ _ _ Lk). apply (acq_store _ _ _ _ _ A1). }
    split; [exact A4|]. split.
    { eapply acq_inv; eauto. intros y w Hi Hy. apply pushes_in in Hi. destruct Hi as [[= <-] _]. contradiction. }
    split; [intros o Ho HoR; rewrite (E4 o Ho); apply Ag4; assumption|].
    cbn [node_leaf mem_value]. eexists. split; [exact Vn|]. rewrite add_zero. symmetry. exact Hfit.
Qed.

(** * Sums at the top of the tree: every term is added to the result directly *)
Definition eqr (r r' : rf) : Prop := forall o, ~ leafobj o -> o <> R -> r o = r' o.
Inductive wtop : tree -> rf -> rf -> Prop :=
| wtop_leaf : forall a r r', leaf_ok a -> eqi r' r -> wtop (Leaf a) r r'
| wtop_term : forall k sel fs l r ra r1 r2 r3 r4,
    Forall factor_ok fs -> flat k sel l r -> eqr r1 ra -> 0 < cnt r1 R -> wt l r1 r2 -> wt r r2 r3 ->
    eqr r4 (on dec (top_obj l) (on dec (top_obj r) r3)) -> 0 < cnt r4 R ->
    wtop (Node k sel fs X l r) ra r4
| wtop_sum : forall l r ra r1 r2 r3 r4,
    (is_leaf l = true -> is_leaf r = true) -> eqr r1 ra -> 0 < cnt r1 R -> wtop l r1 r2 -> wtop r r2 r3 ->
    eqr r4 (on dec (top_obj l) (on dec (top_obj r) r3)) -> 0 < cnt r4 R ->
    wtop (Node KSum (is_leaf l, is_leaf r) [] X l r) ra r4.
Lemma wtop_R : ~ leafobj R -> forall t r r', wtop t r r' -> 0 < cnt r R -> 0 < cnt r' R.
Proof. intros HR t r r' H Hc. destruct H; auto. unfold cnt. rewrite (H0 R HR). exact Hc. Qed.

(** the result has been added to [R] *)
Record Added (v : V) (w : W) (u : rf) (m : machine) (u' : rf) (m' : machine) : Prop := mkAdded {
  add_R : cnt u R <= cnt u' R;
  add_cnt : forall o, o <> R -> cnt u' o = cnt u o;
  add_stack : stack m' = stack m;
  add_mem : forall o, o <> R -> memory m' o = memory m o;
  add_store : forall o, store m' o = store m o;
  add_val : memory m' R = Some (add v (wr (ix X) w))
}.
Lemma added_inv : ~ leafobj R -> forall v w u m u' m', 0 < cnt u R -> Inv u m -> Added v w u m u' m' -> Inv u' m'.
Proof.
  intros HR v w u m u' m' Hc I A. constructor.
  - intros o. destruct (Nat.eq_dec o R) as [->|Hne].
    + rewrite (add_val _ _ _ _ _ _ A). pose proof (add_R _ _ _ _ _ _ A). split; [discriminate|lia].
    + rewrite (add_mem _ _ _ _ _ _ A o Hne), (add_cnt _ _ _ _ _ _ A o Hne). apply (inv_mem _ _ I).
  - intros o v' Hl Hv. rewrite (add_mem _ _ _ _ _ _ A) in Hv; [eapply inv_leaf; eauto|]. intros ->. contradiction.
  - intros o Hl. rewrite (add_store _ _ _ _ _ _ A). eapply inv_store; eauto.
Qed.
(** what is shown of a node, after the first visit *)
Definition tbody (t : tree) (ra r4 : rf) : Prop :=
  match t with
  | Leaf _ => True
  | Node k sel fs x l r => forall u1 m1 v, agree u1 ra -> 0 < cnt u1 R -> Inv u1 m1 -> memory m1 R = Some v ->
      exists pl u2 pr u3 pc u4 m4, generate fz fl l u1 = Some (pl, u2) /\ generate fz fl r u2 = Some (pr, u3) /\
        process_computation k sel fs x l r u3 = Some (pc, u4) /\ runs (pl ++ pr ++ pc) m1 m4 /\ agree u4 r4 /\
        Added v (value t) u1 m1 u4 m4
  end.
Hypothesis HR : ~ leafobj R.
Hypothesis HzR : fz R = ZeroOnCreate.

Lemma agree_inc_R : forall u r, agree u r -> agree (inc R u) r.
Proof. intros u r H o Ho HoR. unfold inc. rewrite assign_other by assumption. apply H; assumption. Qed.
Lemma agree_eqr : forall u r r', agree u r -> eqr r' r -> agree u r'.
Proof. intros u r r' H E o Ho HoR. rewrite (E o Ho HoR). apply H; assumption. Qed.
Lemma agree_eqi : forall u r r', agree u r -> eqi r' r -> agree u r'.
Proof. intros u r r' H E o Ho HoR. rewrite (E o Ho). apply H; assumption. Qed.

Lemma visit_node : forall t ra r4, wtop t ra r4 -> is_leaf t = false -> tbody t ra r4 ->
  forall u m v, agree u ra -> 0 < cnt u R -> Inv u m -> memory m R = Some v ->
  exists p u' m', generate fz fl t u = Some (p, u') /\ runs p m m' /\ agree u' r4 /\
    Added v (value t) u m u' m' /\ cnt u R < cnt u' R /\ top_obj t = Some R.
Proof.
  intros t ra r4 Wt Ht B u m v Ag Hu I Hv. destruct t as [a|k sel fs x l r]; [discriminate|].
  assert (x = X) by (inversion Wt; reflexivity). subst x.
  assert (I1 : Inv (inc R u) m).
  { constructor; [|apply I|apply I]. intros o. rewrite (inv_mem _ _ I), cnt_inc. cbn. destruct (Nat.eqb_spec R o) as [<-|]; lia. }
  destruct (B (inc R u) m v (agree_inc_R _ _ Ag)) as (pl & u2 & pr & u3 & pc & u4 & m4 & Gl & Gr & Gp & Rn & Ag4 & A); auto.
  { rewrite cnt_inc. lia. }
  exists (pl ++ pr ++ pc), u4, m4. split; [|split; [exact Rn|split; [exact Ag4|split; [|split; [|reflexivity]]]]].
  - cbn [generate acquire top_obj]. unfold load_or_create. cbn [is_leaf negb andb]. rewrite HzR. cbn [on_create on_load on_reuse ZeroOnCreate].
    fold (cnt u R). fold (inc R u). destruct (u R) as [n|] eqn:E; [|unfold cnt in Hu; rewrite E in Hu; cbn in Hu; lia].
    destruct (Nat.ltb_spec 0 (cnt u R)); [|lia]. cbn. rewrite Gl, Gr, Gp. reflexivity.
  - destruct A as [A1 A2 A3 A4 A5 A6]. constructor; auto.
    + rewrite cnt_inc in A1. lia.
    + intros o Ho. rewrite (A2 o Ho), cnt_inc, here_other by congruence. lia.
  - pose proof (add_R _ _ _ _ _ _ A) as A1. rewrite cnt_inc, here_same in A1. lia.
Qed.
Lemma visit_leaf : forall a ra r4, wtop (Leaf a) ra r4 -> good (Leaf a) ra r4.
Proof. intros a ra r4 H. apply (wt_good HR). inversion H; subst. constructor; assumption. Qed.

Lemma like_added : forall u m u1 m1 v w, Like R u m u1 m1 -> memory m1 R = Some (add v (wr (ix X) w)) -> Added v w u m u1 m1.
Proof. intros u m u1 m1 v w [L1 L2 L3 L4] H. constructor; auto. rewrite L1. lia. Qed.

Lemma wtop_body : forall t ra r4, wtop t ra r4 -> tbody t ra r4.
Proof.
  induction 1 as [a r r' Ha He
    |k sel fs l r ra r1 r2 r3 r4 Hf Hflat E1 C1 Wl Wr E4 C4
    |l r ra r1 r2 r3 r4 Hlr E1 C1 Wl IHl Wr IHr E4 C4]; [exact Logic.I| |]; intros u m v Ag Hu I Hv.
  - destruct (body k sel fs X l r r1 r2 r3 HR Hf Hflat Wl Wr (wt_good HR _ _ _ Wl) (wt_good HR _ _ _ Wr) u m v)
      as (pl & u2 & pr & u3 & pc & u4 & m4 & Gl & Gr & Gp & Rn & Lk & Vn & Ag4); auto.
    { eapply agree_eqr; eauto. }
    exists pl, u2, pr, u3, pc, u4, m4. repeat (split; [assumption|]). split; [eapply agree_eqr; eauto|].
    apply like_added; assumption.
  - assert (Ag1 : agree u r1) by (eapply agree_eqr; eauto).
    pose proof (wtop_R HR _ _ _ Wl C1) as C2.
    destruct (is_leaf l) eqn:Ell.
    + (* two leaves *)
      rewrite (Hlr eq_refl) in *. destruct l as [al|]; [|discriminate]. destruct r as [ar|]; [|cbn in Hlr; specialize (Hlr eq_refl); discriminate].
      destruct (body KSum (true, true) [] X (Leaf al) (Leaf ar) r1 r2 r3 HR (Forall_nil _)) with (u1 := u) (m1 := m) (v := v)
        as (pl & u2 & pr & u3 & pc & u4 & m4 & Gl & Gr & Gp & Rn & Lk & Vn & Ag4); auto.
      { intros _. auto. }
      { inversion Wl; subst. constructor; assumption. } { inversion Wr; subst. constructor; assumption. }
      { apply visit_leaf; assumption. } { apply visit_leaf; assumption. }
      exists pl, u2, pr, u3, pc, u4, m4. repeat (split; [assumption|]). split; [eapply agree_eqr; eauto|].
      apply like_added; assumption.
    + destruct (visit_node l r1 r2 Wl Ell IHl u m v Ag1 Hu I Hv) as (pl & u2 & m2 & Gl & Rl & Ag2 & Al & Cl & Tl).
      pose proof (added_inv HR _ _ _ _ _ _ Hu I Al) as I2.
      assert (Hu2 : 0 < cnt u2 R) by lia.
      destruct (is_leaf r) eqn:Elr.
      * (* a term and a leaf *)
        destruct r as [ar|]; [|discriminate].
        destruct (visit_leaf ar r2 r3 Wr u2 m2 Ag2 C2 Hu2 I2) as (pr & u3 & m3 & Gr & Rr & Ar & I3 & Ag3 & Vr).
        assert (Hv3 : memory m3 R = Some (add v (wr (ix X) (value l)))).
        { rewrite (acq_old _ _ _ _ _ _ Ar Hu2). apply (add_val _ _ _ _ _ _ Al). }
        destruct (step_compute m3 X None [] [node_leaf (Leaf ar)] [] [value (Leaf ar)] _ Hv3 (Forall2_nil _)
                   (Forall2_cons _ _ Vr (Forall2_nil _))) as (m4 & t & Ec & Es & Est & Em & Eo).
        assert (L4 : Like R u3 m3 u3 m4) by (constructor; auto).
        destruct (drop_back R (top_obj (Leaf ar)) u2 m2 u3 m3 u3 m4 I2 Ar L4 Hu2) as (p5 & u5 & m5 & D5 & R5 & L5 & Q5 & E5).
        pose proof (like_cnt _ _ _ _ _ L5 R) as C5. unfold cnt in C5 at 1.
        destruct (u5 R) as [[|[|n]]|] eqn:E5R; cbn in C5; try lia.
        exists pl, u2, pr, u3, (compute_call X None [] [node_leaf (Leaf ar)] :: p5 ++ [] ++ []), (assign u5 R (Some (S n))), m5.
        split; [exact Gl|]. split; [exact Gr|]. split.
        { unfold process_computation. cbn [computations load_factors rev map app drop_all]. rewrite D5, Tl. cbn [drop].
          rewrite E5R. cbn. reflexivity. }
        split.
        { cbn [app]. rewrite app_nil_r. eapply runs_app; [exact Rl|]. eapply runs_app; [exact Rr|].
          eapply runs_cons; [eapply runs_one; exact Ec|exact R5]. }
        split.
        { eapply agree_eqr; [|exact E4].
          replace (assign u5 R (Some (S n))) with (on dec (top_obj l) u5).
          2:{ rewrite Tl. cbn [on]. unfold dec, cnt. rewrite E5R. reflexivity. }
          apply agree_dec. rewrite E5. apply agree_dec. exact Ag3. }
        destruct Al as [A1 A2 A3 A4 A5 A6]. destruct L5 as [B1 B2 B3 B4]. constructor.
        { unfold cnt at 2. rewrite assign_same. cbn. lia. }
        { intros o Ho. unfold cnt. rewrite assign_other by exact Ho. fold (cnt u5 o) (cnt u o). rewrite B1. apply A2. exact Ho. }
        { congruence. } { intros o Ho. rewrite B3, A4; auto. } { intros o. rewrite B4, A5; auto. }
        { rewrite Q5, Em. cbn [fold_right]. f_equal. cbn [Exp_Spec.value Exp_Spec.scale fold_right].
          rewrite wr_plus, add_assoc. reflexivity. }
      * (* two terms *)
        destruct (visit_node r r2 r3 Wr Elr IHr u2 m2 _ Ag2 Hu2 I2 (add_val _ _ _ _ _ _ Al))
          as (pr & u3 & m3 & Gr & Rr & Ag3 & Ar & Cr & Tr).
        exists pl, u2, pr, u3, [], u3, m3. split; [exact Gl|]. split; [exact Gr|]. split; [reflexivity|].
        split; [rewrite app_nil_r; eapply runs_app; eauto|]. split.
        { eapply agree_eqr; [|exact E4]. rewrite Tl, Tr. cbn [on]. intros o Ho HoR. unfold dec.
          rewrite !assign_other by exact HoR. apply Ag3; assumption. }
        destruct Al as [A1 A2 A3 A4 A5 A6]. destruct Ar as [B1 B2 B3 B4 B5 B6]. constructor.
        { lia. } { intros o Ho. rewrite B2, A2; auto. } { congruence. } { intros o Ho. rewrite B4, A4; auto. }
        { intros o. rewrite B5, A5; auto. }
        { rewrite B6. f_equal. cbn [Exp_Spec.value Exp_Spec.scale fold_right]. rewrite wr_plus, add_assoc. reflexivity. }
Qed.

Hypothesis HlR : fl R = SCreate.
Theorem generate_all_ok : forall t ra r4 s, is_leaf t = false -> wtop t ra r4 -> 
  (forall o, ~ leafobj o -> o <> R -> ra o = None) ->
  (forall o, leafobj o -> s o = Some (given o)) ->
  exists p m', generate_all fz fl t = Some p /\ runs p (start s) m' /\ stack m' = [] /\ (forall o, memory m' o = None) /\
    store m' R = Some (wr (ix X) (value t)) /\ (forall o, o <> R -> store m' o = s o).
Proof.
  intros t ra r4 s Ht Wt Hra Hs. destruct t as [a|k sel fs x l r]; [discriminate|].
  assert (x = X) by (inversion Wt; reflexivity). subst x.
  set (m1 := mkMachine [R] (update (fun _ => None) R (Some zero)) s).
  assert (R1 : runs [Create R true] (start s) m1) by (apply (runs_one _ _ _ []); reflexivity).
  set (u1 := inc R (fun _ => None)).
  assert (Hu1 : 0 < cnt u1 R) by (unfold u1; rewrite cnt_inc, here_same; lia).
  destruct (wtop_body _ _ _ Wt u1 m1 zero) as (pl & u2 & pr & u3 & pc & u4 & m4 & Gl & Gr & Gp & Rn & Ag4 & A); auto.
  { intros o Ho HoR. unfold u1, inc. rewrite assign_other by exact HoR. symmetry. apply Hra; assumption. }
  { constructor.
    - intros o. unfold m1, u1. cbn [memory]. unfold update. rewrite cnt_inc. unfold cnt. cbn [count_of].
      destruct (Nat.eqb_spec o R) as [->|Hne]; [rewrite here_same; split; [discriminate|lia]|].
      rewrite here_other by congruence. split; auto.
    - intros o v Hl Hv. unfold m1 in Hv. cbn in Hv. unfold update in Hv. destruct (Nat.eqb_spec o R); [subst; contradiction|discriminate].
    - intros o Hl. apply Hs. exact Hl. }
  { unfold m1. cbn. unfold update. rewrite Nat.eqb_refl. reflexivity. }
  assert (S4 : stack m4 = [R]) by apply (add_stack _ _ _ _ _ _ A).
  pose proof (add_val _ _ _ _ _ _ A) as V4. rewrite add_zero in V4.
  exists (([Create R true] ++ pl ++ pr ++ pc) ++ [Persist R]),
    (mkMachine [] (update (memory m4) R None) (update (store m4) R (Some (wr (ix X) (value (Node k sel fs X l r)))))).
  split; [|split; [|split; [reflexivity|split; [|split]]]].
  - unfold generate_all. cbn [generate acquire top_obj]. unfold load_or_create. cbn [is_leaf negb andb]. rewrite HlR, HzR.
    cbn [on_create ZeroOnCreate negb andb]. change (assign (fun _ : obj => None) R (Some (S (count_of None)))) with u1.
    rewrite Gl, Gr, Gp. reflexivity.
  - eapply runs_app; [eapply runs_app; [exact R1|exact Rn]|].
    apply (runs_one _ _ _ []). cbn. unfold deallocate. rewrite S4, Nat.eqb_refl. cbn. rewrite V4. reflexivity.
  - intros o. cbn. unfold update. destruct (Nat.eqb_spec o R) as [->|Hne]; [reflexivity|].
    rewrite (add_mem _ _ _ _ _ _ A o Hne). unfold m1. cbn. unfold update. destruct (Nat.eqb_spec o R); [contradiction|reflexivity].
  - cbn. unfold update. rewrite Nat.eqb_refl. reflexivity.
  - intros o Ho. cbn. unfold update. destruct (Nat.eqb_spec o R); [contradiction|]. rewrite (add_store _ _ _ _ _ _ A). reflexivity.
Qed.
End Proofs.
