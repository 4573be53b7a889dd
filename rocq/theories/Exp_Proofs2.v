(** The preprocessing: it terminates, keeps the value of the tree and produces trees of the kind treated
    in Exp_Proofs1. *)
From Coq Require Import List Arith Bool Lia FinFun.
From Verif Require Import Gen_Model Gen_Spec Exp_Model Exp_Spec Exp_Proofs1.
Import ListNotations.
Local Arguments Nat.eqb : simpl never.
Local Arguments Nat.ltb : simpl never.
Local Arguments Nat.leb : simpl never.

Definition is_scalar (a : leaf) : bool := match a with Const _ => true | Ref s _ => s end.
Definition look (st : state) : rf := fun o => lookup o (refs st).
Lemma lookup_put : forall o n m x, lookup x (put o n m) = assign (fun o => lookup o m) o (Some n) x.
Proof.
  induction m as [|[o' n'] m IH]; intros x; cbn.
  - unfold assign. destruct (Nat.eqb_spec x o); reflexivity.
  - destruct (Nat.eqb_spec o o') as [->|Hne]; cbn.
    + unfold assign. destruct (Nat.eqb_spec x o'); reflexivity.
    + rewrite IH. unfold assign. destruct (Nat.eqb_spec x o'), (Nat.eqb_spec x o); try reflexivity. congruence.
Qed.
Lemma look_track : forall o st x, look (track (Some o) st) x = inc o (look st) x.
Proof. intros. unfold look, track. cbn [refs]. rewrite lookup_put. reflexivity. Qed.
Lemma cnt_track : forall o st x, cnt (look (track o st)) x = cnt (look st) x + here o x.
Proof. intros [o|] st x; [|cbn; lia]. unfold cnt at 1. rewrite look_track. apply cnt_inc. Qed.
Lemma release_ok : forall o st, (forall x, o = Some x -> 0 < cnt (look st) x) ->
  exists st', release o st = Some st' /\ zs st' = zs st /\ ls st' = ls st /\ (forall x, look st' x = on dec o (look st) x).
Proof.
  intros [o|] st H; [|exists st; cbn; auto].
  specialize (H o eq_refl). unfold cnt, look in H. cbn [release].
  destruct (lookup o (refs st)) as [[|n]|] eqn:E; cbn in H; try lia.
  eexists. split; [reflexivity|]. cbn [zs ls]. repeat split. intros x. unfold look. cbn [refs on]. rewrite lookup_put.
  unfold dec, cnt. rewrite E. reflexivity.
Qed.
Lemma dec_comm : forall a b (r : rf) o, on dec a (on dec b r) o = on dec b (on dec a r) o.
Proof.
  intros [a|] [b|] r o; cbn [on]; try reflexivity. unfold dec, cnt.
  destruct (Nat.eq_dec a b) as [->|Hne]; [reflexivity|].
  destruct (Nat.eq_dec o a) as [Ha|Ha]; destruct (Nat.eq_dec o b) as [Hb|Hb]; try congruence; try subst o;
    repeat (rewrite ?assign_same; rewrite ?assign_other by congruence); reflexivity.
Qed.

Section Proofs.
Context {V W : Type}.
Variables (rd : nat -> V -> W) (wr : nat -> W -> V).
Variable cst : nat -> W.
Variable con : nat -> W -> W -> W.
Variables (plus sc : W -> W -> W).
Variable given : obj -> V.
Notation value := (value rd cst con plus sc given).
Notation leaf_value := (leaf_value rd cst given).
Notation scale := (scale rd cst sc given).
Notation fitting := (fitting rd wr cst con plus sc given).
Hypothesis plus_comm : forall a b, plus a b = plus b a.
Hypothesis con_comm : forall n a b, con n a b = con n b a.
Variable scal : leaf -> Prop.
Hypothesis con_scalar : forall n s w, scal s -> con n (leaf_value s) w = sc (leaf_value s) w.
Hypothesis con_sc : forall n s a b, scal s -> con n (sc (leaf_value s) a) b = sc (leaf_value s) (con n a b).

Variable name : obj -> nat -> obj.
Hypothesis name_inj : forall o i j, name o i = name o j -> i = j.
Variables pc pv : bool.
Variable leafobj : obj -> Prop.
Variable X : occ.
Notation R := (ob X).
Hypothesis HR : ~ leafobj R.
Notation factor_ok := (factor_ok scal leafobj).
Notation preprocess := (preprocess name pc pv).
Notation prune_loop := (prune_loop pc pv).

(** * Renaming *)
Lemma rename_loop_ok : forall m o fuel k,
  (exists j, k <= j < k + fuel /\ count_of (lookup (name o j) m) = 0) ->
  exists j, rename_loop name fuel k o m = Some (name o j) /\ count_of (lookup (name o j) m) = 0.
Proof.
  induction fuel; intros k (j & Hj & E); [lia|]. cbn [rename_loop].
  destruct (Nat.eqb_spec (count_of (lookup (name o k) m)) 0) as [Hz|Hz]; [eauto|].
  apply IHfuel. exists j. split; [|exact E]. destruct (Nat.eq_dec j k); [subst; contradiction|lia].
Qed.
Lemma lookup_in : forall o m, lookup o m <> None -> In o (map fst m).
Proof.
  induction m as [|[o' n] m IH]; cbn; [congruence|]. destruct (Nat.eqb_spec o o'); [auto|]. intros H. right. auto.
Qed.
Lemma rename_ok : forall o m, exists j b, rename name o m = Some (name o j, b) /\ count_of (lookup (name o j) m) = 0 /\
  (b = false -> lookup (name o j) m = None).
Proof.
  intros o m.
  assert (Hex : exists j, 0 <= j < 0 + S (length m) /\ count_of (lookup (name o j) m) = 0).
  { destruct (existsb (fun j => Nat.eqb (count_of (lookup (name o j) m)) 0) (seq 0 (S (length m)))) eqn:E.
    - apply existsb_exists in E. destruct E as (j & Hj & E). apply Nat.eqb_eq in E. apply in_seq in Hj. exists j. split; [lia|exact E].
    - exfalso. assert (Hl : length (map (name o) (seq 0 (S (length m)))) <= length (map fst m)).
      { apply NoDup_incl_length.
        - apply Injective_map_NoDup; [intros i j; apply name_inj|apply seq_NoDup].
        - intros x Hx. apply in_map_iff in Hx. destruct Hx as (j & <- & Hj). apply lookup_in. intros Hn.
          assert (existsb (fun j => Nat.eqb (count_of (lookup (name o j) m)) 0) (seq 0 (S (length m))) = true).
          { apply existsb_exists. exists j. split; [exact Hj|]. rewrite Hn. reflexivity. }
          congruence. }
      rewrite !map_length, seq_length in Hl. lia. }
  destruct (rename_loop_ok m o (S (length m)) 0 Hex) as (j & E & Hc).
  unfold rename. rewrite E. exists j. destruct (lookup (name o j) m) eqn:El; eexists; (split; [reflexivity|]);
    split; auto; discriminate.
Qed.

(** * Pruning of scalar factors *)
Fixpoint named (t : tree) : Prop :=
  match t with
  | Leaf a => (is_scalar a = true -> scal a) /\ match a with Const _ => True | Ref _ x => leafobj (ob x) end
  | Node _ _ _ x l r => (~ leafobj (ob x) /\ forall k, ~ leafobj (name (ob x) k)) /\ named l /\ named r
  end.
Definition fresh (t : tree) : Prop :=
  match t with
  | Leaf _ => True
  | Node _ sel fs _ l r => sel = (true, true) /\ Forall factor_ok fs /\ plain l /\ plain r
  end.
Lemma plain_fresh : forall t, plain t -> fresh t.
Proof. intros [a|k sel fs x l r]; cbn; [auto|]. intros (-> & -> & Hl & Hr). auto. Qed.
Lemma below_simple : forall t, simple_below t = true -> simple t = true.
Proof.
  intros [a|[n|] sel fs x l r]; cbn; auto. intros H. apply andb_true_iff in H. destruct H as [Hl Hr].
  destruct l; [|discriminate]. destruct r; [reflexivity|discriminate].
Qed.
Lemma scale_app : forall f g w, scale (f ++ g) w = scale f (scale g w).
Proof. intros. unfold Exp_Spec.scale. apply fold_right_app. Qed.
Lemma con_scalar_r : forall n s w, scal s -> con n w (leaf_value s) = sc (leaf_value s) w.
Proof. intros. rewrite con_comm. apply con_scalar. assumption. Qed.
Lemma con_scale : forall n fs a b, Forall factor_ok fs -> con n (scale fs a) b = scale fs (con n a b).
Proof.
  induction 1 as [|s fs [Hs _] _ IH]; cbn; [reflexivity|]. fold (scale fs a). rewrite con_sc by exact Hs.
  rewrite IH. reflexivity.
Qed.
Lemma con_scale_r : forall n fs a b, Forall factor_ok fs -> con n a (scale fs b) = scale fs (con n a b).
Proof. intros. rewrite con_comm, con_scale by assumption. rewrite con_comm. reflexivity. Qed.

Record pruned (parent : option kind) (t t' : tree) (mv : list leaf) : Prop := mkPruned {
  pr_value : value t = scale mv (value t');
  pr_moved : is_leaf t' = true \/ mv = [];
  pr_factors : Forall factor_ok mv;
  pr_size : size t' <= size t;
  pr_fresh : fresh t';
  pr_named : named t';
  pr_fit : fitting t';
  pr_below : simple_below t = true -> simple_below t' = true;
  pr_top : simple t = true -> t' = t \/ simple_below t' = true;
  pr_node : match parent with Some k => is_product k | None => false end = false -> is_leaf t' = is_leaf t;
  pr_obj : is_leaf t' = false -> match t, t' with Node _ _ _ x _ _, Node _ _ _ x' _ _ => x' = x | _, _ => False end
}.
Lemma pruned_refl : forall parent t, fresh t -> named t -> fitting t -> pruned parent t t [].
Proof.
  intros parent t H1 H2 H3. constructor; auto. intros H. destruct t; [discriminate|reflexivity].
Qed.
Lemma prunable_leaf : forall t, prunable pc pv t = true -> exists a, t = Leaf a /\ is_scalar a = true.
Proof. intros [[c|[] x]|k sel fs x l r] H; cbn in H; try discriminate; eexists; split; reflexivity. Qed.
Lemma prune_loop_ok : forall fuel left parent t, fresh t -> named t -> fitting t ->
  pruned parent t (fst (prune_loop fuel left parent t)) (snd (prune_loop fuel left parent t)).
Proof.
  induction fuel as [|fuel IH]; intros left parent t Hf Hn Hfit; [apply pruned_refl; assumption|].
  cbn [Exp_Model.prune_loop]. destruct t as [a|k sel fs x l r]; [apply pruned_refl; assumption|].
  destruct (may_prune parent k l r && prunable pc pv (if left then l else r)) eqn:E; [|apply pruned_refl; assumption].
  apply andb_true_iff in E. destruct E as [Em Ep]. destruct (prunable_leaf _ Ep) as (s & Es & Hs).
  unfold may_prune in Em. apply andb_true_iff in Em. destruct Em as [Ek Em].
  destruct k as [n|]; [|discriminate].
  destruct Hf as (-> & Hfs & Pl & Pr). destruct Hn as (Hx & Nl & Nr). destruct Hfit as (Hfx & Fl & Fr).
  set (fill := if left then r else l).
  assert (Hs' : factor_ok s).
  { destruct left; subst; [destruct Nl as [Nl Nl']|destruct Nr as [Nr Nr']]; split; auto. }
  clear Hs. pose proof (proj1 Hs') as Hs.
  assert (Hv : value (Node (KProduct n) (true, true) fs x l r) = scale (fs ++ [s]) (value fill)).
  { rewrite scale_app. cbn [Exp_Spec.value]. f_equal. cbn. unfold fill. destruct left; subst; cbn [Exp_Spec.value].
    - apply con_scalar; exact Hs.
    - apply con_scalar_r; exact Hs. }
  assert (Pf : plain fill) by (unfold fill; destruct left; assumption).
  assert (Nf : named fill) by (unfold fill; destruct left; assumption).
  assert (Ff : fitting fill) by (unfold fill; destruct left; assumption).
  assert (Sz : size fill < size (Node (KProduct n) (true, true) fs x l r)) by (unfold fill; cbn; destruct left; lia).
  assert (Bf : simple_below (Node (KProduct n) (true, true) fs x l r) = true -> simple_below fill = true).
  { cbn. intros H. apply andb_true_iff in H. unfold fill; destruct left; apply H. }
  rewrite Es. cbn [leaf_of]. fold fill.
  destruct fill as [a|k' sel' fs' x' l' r'] eqn:Efill.
  - cbn [fst snd]. constructor; auto; cbn [is_leaf]; auto.
    + apply Forall_app. auto.
    + lia.
    + intros Hp. exfalso. unfold fill in Efill. destruct left; subst; cbn in Em; rewrite ?andb_true_r in Em; cbn in Em;
        destruct parent; congruence.
    + discriminate.
  - destruct Pf as (-> & -> & Pl' & Pr'). destruct Nf as (Nx' & Nl' & Nr'). destruct Ff as (Fx' & Fl' & Fr').
    assert (Hv' : value (Node k' (true, true) (fs ++ [s]) x l' r') = value (Node (KProduct n) (true, true) fs x l r)).
    { rewrite Hv. reflexivity. }
    specialize (IH left parent (Node k' (true, true) (fs ++ [s]) x l' r')).
    destruct IH as [P1 P2 P3 P4 P5 P6 P7 P8 P9 P10 P11].
    { cbn. repeat split; auto. apply Forall_app. auto. }
    { cbn. auto. }
    { cbn [Exp_Spec.fitting]. rewrite Hv'. auto. }
    cbn [fst snd]. constructor; auto.
    + rewrite <- Hv'. exact P1.
    + cbn [size] in *. lia.
Qed.
Lemma prune_ok : forall parent t, plain t -> named t -> fitting t ->
  pruned parent t (fst (prune_scalar_factors pc pv parent t)) (snd (prune_scalar_factors pc pv parent t)).
Proof.
  intros parent t Hp Hn Hf. unfold prune_scalar_factors.
  pose proof (prune_loop_ok (size t) true parent t (plain_fresh t Hp) Hn Hf) as P.
  destruct (prune_loop (size t) true parent t) as [t1 m1]. cbn [fst snd] in P.
  destruct P as [P1 P2 P3 P4 P5 P6 P7 P8 P9 P10 P11].
  pose proof (prune_loop_ok (size t1) false parent t1 P5 P6 P7) as Q.
  destruct (prune_loop (size t1) false parent t1) as [t2 m2] eqn:E2. cbn [fst snd] in *.
  destruct Q as [Q1 Q2 Q3 Q4 Q5 Q6 Q7 Q8 Q9 Q10 Q11].
  destruct (is_leaf t1) eqn:L1.
  - destruct t1 as [a|]; [|discriminate]. cbn in E2. injection E2 as <- <-.
    rewrite app_nil_r. constructor; auto.
  - destruct P2 as [P2|P2]; [congruence|]. subst m1. cbn [app]. constructor; auto.
    + rewrite P1. exact Q1.
    + lia.
    + intros H. destruct (P9 H) as [->|Hb]; [auto|]. right. auto.
    + intros H. rewrite (Q10 H). exact (P10 H).
    + intros H. specialize (Q11 H). specialize (P11 eq_refl). destruct t, t1, t2; try contradiction. congruence.
Qed.

(** the loops run until there is nothing left to prune *)
Lemma prune_loop_done : forall fuel left parent t k sel fs x l r, size t <= fuel ->
  fst (prune_loop fuel left parent t) = Node k sel fs x l r ->
  may_prune parent k l r && prunable pc pv (if left then l else r) = false.
Proof.
  induction fuel as [|fuel IH]; intros left parent t k sel fs x l r Hs H; [destruct t; cbn in Hs; lia|].
  cbn [Exp_Model.prune_loop] in H. destruct t as [a|k0 sel0 fs0 x0 l0 r0]; [discriminate|].
  destruct (may_prune parent k0 l0 r0 && prunable pc pv (if left then l0 else r0)) eqn:E.
  - destruct (if left then r0 else l0) as [a|k' sel' fs' x' l' r'] eqn:Ef; [discriminate|].
    eapply IH; [|exact H]. cbn in Hs |- *.
    assert (size (Node k' sel' fs' x' l' r') <= size l0 + size r0) by (destruct left; rewrite <- Ef; lia).
    cbn in H0. lia.
  - cbn in H. injection H as <- <- <- <- <- <-. exact E.
Qed.

(** * The visit *)
Record SI (st : state) : Prop := mkSI {
  si_inner : forall o, ~ leafobj o -> ls st o = SCreate /\ (zs st o = ZeroOnCreate \/ zs st o = AlwaysZero);
  si_R : zs st R = ZeroOnCreate
}.
Definition le (z z' : obj -> zstrategy) : Prop :=
  forall o, (~ leafobj o -> z o = AlwaysZero -> z' o = AlwaysZero) /\ (leafobj o -> z o = NeverZero -> z' o = NeverZero).
Lemma le_refl : forall z, le z z.
Proof. split; auto. Qed.
Lemma le_trans : forall a b c, le a b -> le b c -> le a c.
Proof. intros a b c H1 H2 o. destruct (H1 o), (H2 o). split; auto. Qed.
Definition final (fz : obj -> zstrategy) (fl : obj -> lstrategy) : Prop :=
  forall o, ~ leafobj o -> fl o = SCreate /\ on_create (fz o) = true.
Notation wt := (wt rd wr cst con plus sc given scal leafobj).
Notation wtop := (wtop rd wr cst con plus sc given scal leafobj X).

Lemma si_track : forall o st, SI st -> SI (track o st).
Proof. intros [o|] st [H1 H2]; [constructor; assumption|constructor; assumption]. Qed.
Lemma zs_track : forall o st, zs (track o st) = zs st.
Proof. intros [o|] st; reflexivity. Qed.
Lemma si_same : forall st st', SI st -> zs st' = zs st -> ls st' = ls st -> SI st'.
Proof. intros st st' [H1 H2] Hz Hl. constructor; rewrite ?Hz, ?Hl; assumption. Qed.

(** a leaf *)
Lemma pre_leaf : forall fuel parent a st, preprocess (S fuel) parent (Leaf a) st =
  Some (Leaf a, [], track (top_obj (Leaf a)) (preprocess_leaf a st)).
Proof. reflexivity. Qed.
Lemma leaf_done : forall a st, named (Leaf a) -> SI st ->
  let st' := track (top_obj (Leaf a)) (preprocess_leaf a st) in
  SI st' /\ le (zs st) (zs st') /\ (forall o, cnt (look st') o = cnt (look st) o + here (top_obj (Leaf a)) o) /\
  eqi leafobj (look st') (look st) /\ (forall fz, le (zs st') fz -> leaf_ok leafobj fz a).
Proof.
  intros a st Hn HS st'. unfold st'. clear st'. destruct a as [c|s x].
  - cbn. split; [exact HS|]. split; [apply le_refl|]. split; [intros; lia|]. split; [intros o _; reflexivity|auto].
  - destruct Hn as [_ Hn]. split; [|split; [|split; [|split]]].
    + apply si_track. destruct HS as [H1 H2]. constructor; cbn [zs ls preprocess_leaf].
      * intros o Ho. rewrite !assign_other by (intros ->; contradiction). auto.
      * rewrite assign_other by (intros Hc; rewrite Hc in HR; contradiction). exact H2.
    + rewrite zs_track. cbn [zs preprocess_leaf]. intros o. split.
      * intros Ho Hz. rewrite assign_other by (intros ->; contradiction). exact Hz.
      * intros Ho Hz. destruct (Nat.eq_dec o (ob x)) as [->|Hne]; [apply assign_same|]. rewrite assign_other by exact Hne. exact Hz.
    + intros o. rewrite cnt_track. reflexivity.
    + intros o Ho. cbn [top_obj]. rewrite look_track. unfold inc. rewrite assign_other by (intros ->; contradiction). reflexivity.
    + intros fz Hle. cbn [leaf_ok]. split; [exact Hn|]. apply (proj2 (Hle (ob x)) Hn). rewrite zs_track.
      cbn [zs preprocess_leaf]. apply assign_same.
Qed.

(** the name of the result of an inner node *)
Lemma inner_ok : forall x st, ~ leafobj (ob x) -> (forall k, ~ leafobj (name (ob x) k)) -> SI st -> 0 < cnt (look st) R ->
  exists x1 st1, preprocess_inner name true x st = Some (x1, st1) /\ ix x1 = ix x /\ ~ leafobj (ob x1) /\ refs st1 = refs st /\
    SI st1 /\ le (zs st) (zs st1) /\
    (look st (ob x1) = None \/ (look st (ob x1) = Some 0 /\ zs st1 (ob x1) = AlwaysZero)).
Proof.
  intros x st Hx Hk HS HcR. unfold preprocess_inner.
  assert (Halways : forall o, ~ leafobj o -> o <> R ->
     SI (mkState (refs st) (assign (zs st) o AlwaysZero) (ls st)) /\ le (zs st) (assign (zs st) o AlwaysZero)).
  { intros o Ho HoR. destruct HS as [H1 H2]. split.
    - constructor; cbn [zs ls].
      + intros y Hy. destruct (assign_is _ (zs st) o AlwaysZero y) as [[-> E]|[Hne E]]; rewrite E; [|auto].
        split; [apply H1; exact Hy|auto].
      + rewrite assign_other by congruence. exact H2.
    - intros y. split.
      + intros Hy Hz. destruct (assign_is _ (zs st) o AlwaysZero y) as [[-> E]|[Hne E]]; rewrite E; auto.
      + intros Hy Hz. rewrite assign_other by (intros ->; contradiction). exact Hz. }
  assert (HnR : forall o, count_of (lookup o (refs st)) = 0 -> o <> R).
  { intros o Ho ->. unfold cnt, look in HcR. lia. }
  destruct (lookup (ob x) (refs st)) as [[|n]|] eqn:E.
  - destruct (Halways (ob x)) as [S1 L1]; [exact Hx|apply HnR; rewrite E; reflexivity|].
    exists x, (mkState (refs st) (assign (zs st) (ob x) AlwaysZero) (ls st)).
    do 4 (split; [auto|]). split; [exact S1|]. split; [exact L1|]. right. split; [exact E|apply assign_same].
  - destruct (rename_ok (ob x) (refs st)) as (j & b & Er & Ec & Eb). rewrite Er. destruct b.
    + destruct (Halways (name (ob x) j)) as [S1 L1]; [apply Hk|apply HnR; exact Ec|].
      exists (mkOcc (name (ob x) j) (ix x)), (mkState (refs st) (assign (zs st) (name (ob x) j) AlwaysZero) (ls st)).
      split; [reflexivity|]. split; [reflexivity|]. split; [apply Hk|]. split; [reflexivity|]. split; [exact S1|]. split; [exact L1|].
      cbn [ob zs]. unfold look. destruct (lookup (name (ob x) j) (refs st)) as [n0|] eqn:E0; [|auto].
      right. cbn in Ec. subst n0. split; [reflexivity|apply assign_same].
    + exists (mkOcc (name (ob x) j) (ix x)), st. split; [reflexivity|]. split; [reflexivity|]. split; [apply Hk|].
      split; [reflexivity|]. split; [exact HS|]. split; [apply le_refl|]. left. apply Eb. reflexivity.
  - exists x, st. do 4 (split; [auto|]). split; [exact HS|]. split; [apply le_refl|]. left. exact E.
Qed.

Definition concl (fuel : nat) (parent : option parent_data) (t : tree) (st : state) : Prop :=
  exists t' mv st', preprocess fuel parent t st = Some (t', mv, st') /\ value t = scale mv (value t') /\
    (is_leaf t' = true \/ mv = []) /\ Forall factor_ok mv /\ (is_leaf t = true -> is_leaf t' = true /\ mv = []) /\
    SI st' /\ le (zs st) (zs st') /\
    (forall o, cnt (look st') o = cnt (look st) o + here (top_obj t') o) /\
    (forall fz fl, final fz fl -> le (zs st') fz -> wt fz fl t' (look st) (look st')).
Lemma leaf_concl : forall fuel parent a st, named (Leaf a) -> SI st -> concl (S fuel) parent (Leaf a) st.
Proof.
  intros fuel parent a st Hn HS. destruct (leaf_done a st Hn HS) as (S1 & L1 & C1 & E1 & O1).
  exists (Leaf a), [], (track (top_obj (Leaf a)) (preprocess_leaf a st)). rewrite pre_leaf.
  split; [reflexivity|]. split; [reflexivity|]. split; [auto|]. split; [constructor|]. split; [auto|].
  split; [exact S1|]. split; [exact L1|]. split; [exact C1|]. intros fz fl _ Hle. constructor; auto.
Qed.
Lemma rebalance_is : forall l r, (rebalance l r = (l, r) /\ (is_leaf l = true -> is_leaf r = true)) \/
   (rebalance l r = (r, l) /\ (is_leaf r = true -> is_leaf l = true)).
Proof.
  intros l r. unfold rebalance.
  assert (Hsz : forall t, is_leaf t = true <-> size t = 1).
  { intros [a|k sel fs x a b]; cbn; [tauto|]. split; [discriminate|]. destruct a, b; cbn; lia. }
  assert (Hs1 : forall t, 1 <= size t) by (intros []; cbn; lia).
  destruct (Nat.ltb_spec (size l) (size r)); [right|left]; (split; [reflexivity|]); rewrite !Hsz; intros; pose proof (Hs1 l); pose proof (Hs1 r); lia.
Qed.
Lemma value_swap : forall k sel sel' fs x x' l r,
  value (Node k sel fs x l r) = value (Node k sel' fs x' r l).
Proof. intros. cbn. destruct k; [rewrite con_comm|rewrite plus_comm]; reflexivity. Qed.

(** the children of a node, after the node itself has been visited *)
Lemma children_ok : forall fuel k sel1 fs x2 l1 r1 st1,
  (forall st, SI st -> 0 < cnt (look st) R -> concl fuel (Some (mkParent k sel1 x2 true)) l1 st) ->
  (forall st, SI st -> 0 < cnt (look st) R -> concl fuel (Some (mkParent k sel1 x2 false)) r1 st) ->
  (k = KSum -> is_leaf l1 = true /\ is_leaf r1 = true) -> Forall factor_ok fs ->
  SI st1 -> 0 < cnt (look st1) R ->
  exists l2 ml st2 r2 mr st3 st4 st5,
    preprocess fuel (Some (mkParent k sel1 x2 true)) l1 st1 = Some (l2, ml, st2) /\
    preprocess fuel (Some (mkParent k sel1 x2 false)) r1 st2 = Some (r2, mr, st3) /\
    release (top_obj l2) st3 = Some st4 /\ release (top_obj r2) st4 = Some st5 /\
    value (Node k sel1 fs x2 l1 r1) = value (Node k sel1 (fs ++ ml ++ mr) x2 l2 r2) /\
    Forall factor_ok (fs ++ ml ++ mr) /\ (k = KSum -> is_leaf l2 = true /\ is_leaf r2 = true) /\
    SI st5 /\ le (zs st1) (zs st5) /\ (forall o, cnt (look st5) o = cnt (look st1) o) /\
    (forall fz fl, final fz fl -> le (zs st5) fz -> wt fz fl l2 (look st1) (look st2) /\ wt fz fl r2 (look st2) (look st3)) /\
    (forall o, look st5 o = on dec (top_obj l2) (on dec (top_obj r2) (look st3)) o).
Proof.
  intros fuel k sel1 fs x2 l1 r1 st1 Cl Cr Hk Hfs HS HcR.
  destruct (Cl st1 HS HcR) as (l2 & ml & st2 & El & Vl & Ml & Fl & Il & Sl & Ll & Nl & Wl).
  destruct (Cr st2 Sl) as (r2 & mr & st3 & Er & Vr & Mr & Fr & Ir & Sr & Lr & Nr & Wr); [rewrite Nl; lia|].
  destruct (release_ok (top_obj l2) st3) as (st4 & E4 & Z4 & L4 & K4).
  { intros o Ho. rewrite Nr, Nl, Ho, here_same. lia. }
  assert (C4 : forall o, cnt (look st4) o = cnt (look st3) o - here (top_obj l2) o).
  { intros o. unfold cnt at 1. rewrite K4. apply cnt_on_dec. }
  destruct (release_ok (top_obj r2) st4) as (st5 & E5 & Z5 & L5 & K5).
  { intros o Ho. rewrite C4, Nr, Nl, Ho, here_same. lia. }
  assert (C5 : forall o, cnt (look st5) o = cnt (look st4) o - here (top_obj r2) o).
  { intros o. unfold cnt at 1. rewrite K5. apply cnt_on_dec. }
  exists l2, ml, st2, r2, mr, st3, st4, st5. do 4 (split; [assumption|]).
  split; [|split; [|split; [|split; [|split; [|split; [|split]]]]]].
  - rewrite !app_assoc. cbn [Exp_Spec.value]. rewrite !scale_app. destruct k as [n|].
    + rewrite Vl, Vr, con_scale, con_scale_r by assumption. reflexivity.
    + destruct (Hk eq_refl) as [H1 H2]. destruct (Il H1) as [_ ->]. destruct (Ir H2) as [_ ->]. cbn in Vl, Vr |- *.
      rewrite Vl, Vr. reflexivity.
  - rewrite !Forall_app. auto.
  - intros E. destruct (Hk E) as [H1 H2]. split; [apply Il|apply Ir]; assumption.
  - eapply si_same; [exact Sr|congruence|congruence].
  - rewrite Z5, Z4. eapply le_trans; eauto.
  - intros o. rewrite C5, C4, Nr, Nl. lia.
  - intros fz fl Hfin Hle. rewrite Z5, Z4 in Hle. split; [apply Wl; [exact Hfin|eapply le_trans; eauto]|apply Wr; assumption].
  - intros o. rewrite K5. rewrite <- dec_comm. destruct (top_obj r2) as [a|]; cbn [on]; [|apply K4].
    unfold dec, cnt. destruct (assign_is _ (look st4) a (Some (pred (count_of (look st4 a)))) o) as [[-> E]|[Hne E]]; rewrite E.
    + rewrite assign_same, K4. reflexivity.
    + rewrite assign_other by exact Hne. apply K4.
Qed.

Lemma below_ok : forall fuel t p st, size t < fuel -> is_product (pk p) = true -> psel p = (true, true) ->
  plain t -> named t -> fitting t -> simple_below t = true -> SI st -> 0 < cnt (look st) R -> concl fuel (Some p) t st.
Proof.
  induction fuel as [|fuel IH]; intros t p st Hsz Hpk Hps Hp Hn Hfit Hb HS HcR; [lia|].
  destruct t as [a|k0 sel0 fs0 x0 l0 r0]; [apply leaf_concl; assumption|].
  unfold concl. cbn [Exp_Model.preprocess option_map]. 
  pose proof (prune_ok (Some (pk p)) _ Hp Hn Hfit) as P.
  destruct (prune_scalar_factors pc pv (Some (pk p)) (Node k0 sel0 fs0 x0 l0 r0)) as [t1 mv]. cbn [fst snd] in P.
  destruct P as [P1 P2 P3 P4 P5 P6 P7 P8 P9 P10 P11]. specialize (P8 Hb).
  destruct t1 as [a|k sel fs x l r].
  - destruct (leaf_done a st P6 HS) as (S1 & L1 & C1 & E1 & O1).
    eexists. eexists. eexists. split; [reflexivity|]. split; [exact P1|]. split; [auto|]. split; [exact P3|].
    split; [discriminate|]. split; [exact S1|]. split; [exact L1|]. split; [exact C1|].
    intros fz fl _ Hle. constructor; auto.
  - destruct P2 as [P2|P2]; [discriminate|]. subst mv. cbn in P1.
    destruct P5 as (-> & Hfs & Pl & Pr). destruct P6 as ((Nx & Nk) & Nl & Nr). destruct P7 as (Fx & Fl & Fr).
    rewrite Hpk. destruct (inner_ok x st Nx Nk HS HcR) as (x1 & st1 & E1 & Ix & Nx1 & Rf & S1 & L1 & Hlook).
    rewrite E1.
    assert (Hred : prune_redundant (Some p) x1 = x1) by (unfold prune_redundant; rewrite Hps; reflexivity).
    rewrite Hred.
    assert (Hc : forall c, (c = l \/ c = r) -> forall b sel1 st0, (k = KSum -> is_leaf c = true) -> (is_product k = true -> sel1 = (true, true)) ->
       SI st0 -> 0 < cnt (look st0) R -> concl fuel (Some (mkParent k sel1 x1 b)) c st0).
    { intros c Hc b sel1 st0 Hcl Hsel S0 HcR0.
      assert (size c < fuel) by (cbn in P4, Hsz; destruct Hc; subst c; lia).
      assert (Hpc : plain c) by (destruct Hc; subst c; assumption).
      assert (Hnc : named c) by (destruct Hc; subst c; assumption).
      assert (Hfc : fitting c) by (destruct Hc; subst c; assumption).
      destruct k as [n|].
      - apply IH; auto. cbn in P8. apply andb_true_iff in P8. destruct Hc; subst c; apply P8.
      - specialize (Hcl eq_refl). destruct c; [|discriminate]. destruct fuel; [lia|]. apply leaf_concl; assumption. }
    assert (Hleafs : k = KSum -> is_leaf l = true /\ is_leaf r = true).
    { intros ->. cbn in P8. apply andb_true_iff in P8. exact P8. }
    assert (Hmain : forall l1 r1, (l1 = l /\ r1 = r) \/ (l1 = r /\ r1 = l) ->
       let sel1 := selection k (true, true) l1 r1 in
       value (Node k (true, true) fs x l r) = value (Node k sel1 fs x1 l1 r1) ->
       exists t' mv st',
         match preprocess fuel (Some (mkParent k sel1 x1 true)) l1 (track (Some (ob x1)) st1) with
         | None => None
         | Some (l2, ml, st2) =>
           match preprocess fuel (Some (mkParent k sel1 x1 false)) r1 st2 with
           | None => None
           | Some (r2, mr, st3) =>
             match release (top_obj l2) st3 with
             | None => None
             | Some st4 =>
               match release (top_obj r2) st4 with
               | None => None
               | Some st5 => Some (Node k sel1 (fs ++ ml ++ mr) x1 l2 r2, [], st5)
               end
             end
           end
         end = Some (t', mv, st') /\ value (Node k0 sel0 fs0 x0 l0 r0) = scale mv (value t') /\
         (is_leaf t' = true \/ mv = []) /\ Forall factor_ok mv /\ (is_leaf (Node k0 sel0 fs0 x0 l0 r0) = true -> is_leaf t' = true /\ mv = []) /\
         SI st' /\ le (zs st) (zs st') /\
         (forall o, cnt (look st') o = cnt (look st) o + here (top_obj t') o) /\
         (forall fz fl, final fz fl -> le (zs st') fz -> wt fz fl t' (look st) (look st'))).
    { intros l1 r1 Hlr sel1 Hval.
      assert (Hk1 : k = KSum -> is_leaf l1 = true /\ is_leaf r1 = true).
      { intros E. destruct (Hleafs E). destruct Hlr as [[-> ->]|[-> ->]]; auto. }
      assert (Hsel1 : is_product k = true -> sel1 = (true, true)) by (unfold sel1; destruct k; [reflexivity|discriminate]).
      assert (Hlook1 : forall o, look (track (Some (ob x1)) st1) o = inc (ob x1) (look st) o).
      { intros o. rewrite look_track. unfold inc, cnt, look. rewrite Rf. reflexivity. }
      destruct (children_ok fuel k sel1 fs x1 l1 r1 (track (Some (ob x1)) st1))
        as (l2 & ml & st2 & r2 & mr & st3 & st4 & st5 & El & Er & E4 & E5 & Vn & Ff & Hk2 & S5 & L5 & N5 & W5 & K5); auto.
      { intros st0 S0 H0. apply Hc; auto. { destruct Hlr as [[-> ->]|[-> ->]]; auto. } intros E. apply (Hk1 E). }
      { intros st0 S0 H0. apply Hc; auto. { destruct Hlr as [[-> ->]|[-> ->]]; auto. } intros E. apply (Hk1 E). }
      { apply si_track. exact S1. }
      { rewrite cnt_track. unfold cnt, look. rewrite Rf. fold (look st R). fold (cnt (look st) R). lia. }
      exists (Node k sel1 (fs ++ ml ++ mr) x1 l2 r2), [], st5.
      rewrite El, Er, E4, E5. split; [reflexivity|]. split; [etransitivity; [exact P1|etransitivity; [exact Hval|exact Vn]]|].
      split; [auto|]. split; [constructor|]. split; [discriminate|]. split; [exact S5|].
      split; [eapply le_trans; [exact L1|]; rewrite zs_track in L5; exact L5|]. split.
      { intros o. rewrite N5, cnt_track. cbn [top_obj]. unfold cnt, look. rewrite Rf. reflexivity. }
      intros fz fl Hfin Hle. destruct (W5 fz fl Hfin Hle) as [Wl Wr].
      eapply wt_node with (r1 := look (track (Some (ob x1)) st1)) (r2 := look st2) (r3 := look st3); auto.
      - destruct Hlook as [Hlook|[Hlook Hz]]; [auto|]. right. split; [exact Hlook|].
        apply (proj1 (Hle (ob x1)) Nx1). apply (proj1 (L5 (ob x1)) Nx1). rewrite zs_track. exact Hz.
      - apply Hfin. exact Nx1.
      - apply Hfin. exact Nx1.
      - intros E. destruct (Hk2 E) as [H1 H2]. split; [exact H1|]. split; [exact H2|].
        unfold sel1. subst k. cbn. destruct (Hk1 eq_refl) as [-> ->]. reflexivity.
      - rewrite Ix, <- Vn, <- Hval. exact Fx.
      - intros o _. apply Hlook1.
      - intros o _. apply K5. }
    destruct (rebalance_is l r) as [[-> _]|[-> _]]; apply Hmain; auto. apply value_swap.
Qed.

(** the top of the tree *)
Definition tconcl (fuel : nat) (parent : option parent_data) (t : tree) (st : state) : Prop :=
  exists t' st', preprocess fuel parent t st = Some (t', [], st') /\ value t = value t' /\ is_leaf t' = is_leaf t /\
    SI st' /\ le (zs st) (zs st') /\ (forall o, cnt (look st') o = cnt (look st) o + here (top_obj t') o) /\
    (is_leaf t = false -> top_obj t' = Some R) /\
    (forall fz fl, final fz fl -> le (zs st') fz -> wtop fz fl t' (look st) (look st')).
Definition top_parent (parent : option parent_data) (t : tree) : Prop :=
  match parent with
  | None => match t with Leaf _ => False | Node _ _ _ x _ _ => x = X end
  | Some p => pk p = KSum /\ px p = X /\ (if pleft p then fst (psel p) = is_leaf t else snd (psel p) = is_leaf t)
  end.
Lemma top_ok : forall fuel t parent st, size t < fuel -> top_parent parent t ->
  plain t -> named t -> fitting t -> simple t = true -> SI st -> (is_leaf t = true -> 0 < cnt (look st) R) ->
  tconcl fuel parent t st.
Proof.
  induction fuel as [|fuel IH]; intros t parent st Hsz Hpar Hp Hn Hfit Hb HS HcR; [lia|].
  destruct t as [a|k0 sel0 fs0 x0 l0 r0].
  { destruct (leaf_concl fuel parent a st Hn HS) as (t' & mv & st' & E & _). rewrite pre_leaf in E. injection E as <- <- <-.
    destruct (leaf_done a st Hn HS) as (S1 & L1 & C1 & E1 & O1).
    eexists. eexists. split; [apply pre_leaf|]. split; [reflexivity|]. split; [reflexivity|]. split; [exact S1|]. split; [exact L1|].
    split; [exact C1|]. split; [discriminate|]. intros fz fl _ Hle. constructor; auto. }
  clear HcR. unfold tconcl. cbn [Exp_Model.preprocess].
  pose proof (prune_ok (option_map pk parent) _ Hp Hn Hfit) as P.
  destruct (prune_scalar_factors pc pv (option_map pk parent) (Node k0 sel0 fs0 x0 l0 r0)) as [t1 mv]. cbn [fst snd] in P.
  destruct P as [P1 P2 P3 P4 P5 P6 P7 P8 P9 P10 P11]. specialize (P9 Hb).
  assert (Hnp : match parent with Some p => is_product (pk p) | None => false end = false).
  { destruct parent as [p|]; [|reflexivity]. destruct Hpar as [-> _]. reflexivity. }
  assert (L1 : is_leaf t1 = false). { rewrite P10; [reflexivity|]. destruct parent; exact Hnp. }
  destruct t1 as [a|k sel fs x l r]; [discriminate|]. destruct P2 as [P2|P2]; [discriminate|]. subst mv. cbn in P1.
  pose proof (P11 eq_refl) as Hxx. cbn in Hxx. subst x0.
  assert (Hre : match parent with None => false | Some p => is_product (pk p) end = false) by (destruct parent; exact Hnp).
  rewrite Hre. cbn [preprocess_inner].
  assert (HX : prune_redundant parent x = X).
  { destruct parent as [p|]; cbn in Hpar |- *; [|exact Hpar]. destruct Hpar as (_ & HpX & Hs).
    destruct (pleft p), (psel p) as [a b]; cbn [fst snd is_leaf] in *; subst; cbn; rewrite ?andb_false_r; auto. }
  rewrite HX. clear HX.
  set (st0 := track (Some R) st).
  assert (S0 : SI st0) by (apply si_track; exact HS).
  assert (C0 : 0 < cnt (look st0) R) by (unfold st0; rewrite cnt_track, here_same; lia).
  assert (Z0 : zs st0 = zs st) by apply zs_track.
  assert (E0 : eqr leafobj X (look st0) (look st)).
  { intros o Ho HoR. unfold st0. rewrite look_track. unfold inc. rewrite assign_other by exact HoR. reflexivity. }
  destruct P5 as (-> & Hfs & Pl & Pr). destruct P6 as ((Nx & Nk) & Nl & Nr). destruct P7 as (Fx & Fl & Fr).
  assert (Hcase : (k = KSum /\ fs = [] /\ simple l = true /\ simple r = true) \/
                  simple_below (Node k (true, true) fs x l r) = true).
  { destruct P9 as [P9|P9]; [|auto]. rewrite <- P9 in Hb. destruct k; [auto|]. left.
    cbn in Hb. apply andb_true_iff in Hb. destruct Hp as (_ & Hp & _). injection P9; intros; subst. tauto. }
  assert (Hgoal : forall l1 r1, (l1 = l /\ r1 = r) \/ (l1 = r /\ r1 = l) -> (is_leaf l1 = true -> is_leaf r1 = true) ->
       let sel1 := selection k (true, true) l1 r1 in
       value (Node k (true, true) fs x l r) = value (Node k sel1 fs X l1 r1) ->
       exists t' st',
         match preprocess fuel (Some (mkParent k sel1 X true)) l1 st0 with
         | None => None
         | Some (l2, ml, st2) =>
           match preprocess fuel (Some (mkParent k sel1 X false)) r1 st2 with
           | None => None
           | Some (r2, mr, st3) =>
             match release (top_obj l2) st3 with
             | None => None
             | Some st4 =>
               match release (top_obj r2) st4 with
               | None => None
               | Some st5 => Some (Node k sel1 (fs ++ ml ++ mr) X l2 r2, @nil leaf, st5)
               end
             end
           end
         end = Some (t', @nil leaf, st') /\ value (Node k0 sel0 fs0 x l0 r0) = value t' /\ is_leaf t' = is_leaf (Node k0 sel0 fs0 x l0 r0) /\
         SI st' /\ le (zs st) (zs st') /\ (forall o, cnt (look st') o = cnt (look st) o + here (top_obj t') o) /\
         (is_leaf (Node k0 sel0 fs0 x l0 r0) = false -> top_obj t' = Some R) /\
         (forall fz fl, final fz fl -> le (zs st') fz -> wtop fz fl t' (look st) (look st'))).
  { intros l1 r1 Hlr Hbal sel1 Hval.
    assert (Hsz1 : size l1 < fuel /\ size r1 < fuel).
    { cbn in P4, Hsz. destruct Hlr as [[-> ->]|[-> ->]]; lia. }
    assert (Hp1 : plain l1 /\ plain r1) by (destruct Hlr as [[-> ->]|[-> ->]]; auto).
    assert (Hn1 : named l1 /\ named r1) by (destruct Hlr as [[-> ->]|[-> ->]]; auto).
    assert (Hf1 : fitting l1 /\ fitting r1) by (destruct Hlr as [[-> ->]|[-> ->]]; auto).
    destruct Hcase as [(-> & -> & Sl & Sr)|Hsb].
    - (* a sum of arbitrary terms *)
      assert (Hs1 : simple l1 = true /\ simple r1 = true) by (destruct Hlr as [[-> ->]|[-> ->]]; auto).
      destruct (IH l1 (Some (mkParent KSum sel1 X true)) st0) as (l2 & st2 & El & Vl & Ll & S2 & Le2 & N2 & T2 & W2); try tauto.
      { cbn. auto. }
      destruct (IH r1 (Some (mkParent KSum sel1 X false)) st2) as (r2 & st3 & Er & Vr & Lr & S3 & Le3 & N3 & T3 & W3); try tauto.
      { cbn. auto. } { intros _. rewrite N2. lia. }
      destruct (release_ok (top_obj l2) st3) as (st4 & E4 & Z4 & L4 & K4).
      { intros o Ho. rewrite N3, N2, Ho, here_same. lia. }
      assert (C4 : forall o, cnt (look st4) o = cnt (look st3) o - here (top_obj l2) o).
      { intros o. unfold cnt at 1. rewrite K4. apply cnt_on_dec. }
      destruct (release_ok (top_obj r2) st4) as (st5 & E5 & Z5 & L5 & K5).
      { intros o Ho. rewrite C4, N3, N2, Ho, here_same. lia. }
      assert (C5 : forall o, cnt (look st5) o = cnt (look st0) o).
      { intros o. unfold cnt at 1. rewrite K5. fold (cnt (on dec (top_obj r2) (look st4)) o). rewrite cnt_on_dec, C4, N3, N2. lia. }
      rewrite El, Er, E4, E5. exists (Node KSum sel1 [] X l2 r2), st5.
      split; [reflexivity|]. split.
      { etransitivity; [exact P1|etransitivity; [exact Hval|]]. cbn. rewrite <- Vl, <- Vr. reflexivity. }
      split; [reflexivity|]. split; [eapply si_same; [exact S3|congruence|congruence]|].
      split; [rewrite Z5, Z4, <- Z0; eapply le_trans; eauto|]. split.
      { intros o. rewrite C5. unfold st0. rewrite cnt_track. reflexivity. }
      split; [reflexivity|]. intros fz fl Hfin Hle. rewrite Z5, Z4 in Hle.
      assert (Esel : sel1 = (is_leaf l2, is_leaf r2)) by (unfold sel1; cbn; rewrite Ll, Lr; reflexivity).
      rewrite Esel. eapply wtop_sum with (r1 := look st0) (r2 := look st2) (r3 := look st3); auto.
      + rewrite Ll, Lr. exact Hbal.
      + apply W2; [exact Hfin|eapply le_trans; eauto].
      + intros o Ho HoR. rewrite K5. rewrite <- dec_comm. destruct (top_obj r2) as [a|]; cbn [on]; [|apply K4].
        unfold dec, cnt. destruct (assign_is _ (look st4) a (Some (pred (count_of (look st4 a)))) o) as [[-> E]|[Hne E]]; rewrite E.
        * rewrite assign_same, K4. reflexivity.
        * rewrite assign_other by exact Hne. apply K4.
      + rewrite C5. exact C0.
    - (* a product, or a scaled sum of leaves *)
      assert (Hk1 : k = KSum -> is_leaf l1 = true /\ is_leaf r1 = true).
      { intros E. subst k. cbn in Hsb. apply andb_true_iff in Hsb. destruct Hlr as [[-> ->]|[-> ->]]; tauto. }
      assert (Hc : forall c, (c = l1 \/ c = r1) -> forall b st', SI st' -> 0 < cnt (look st') R -> concl fuel (Some (mkParent k sel1 X b)) c st').
      { intros c Hc b st' S' C'. destruct k as [n|].
        - apply below_ok; auto; try (destruct Hc; subst c; tauto).
          cbn in Hsb. apply andb_true_iff in Hsb. destruct Hc; subst c; destruct Hlr as [[-> ->]|[-> ->]]; tauto.
        - destruct (Hk1 eq_refl) as [H1 H2]. assert (is_leaf c = true) by (destruct Hc; subst c; assumption).
          destruct c as [a|]; [|discriminate]. destruct fuel; [lia|]. apply leaf_concl; [|exact S'].
          destruct Hc as [Hc|Hc]; rewrite Hc; tauto. }
      destruct (children_ok fuel k sel1 fs X l1 r1 st0)
        as (l2 & ml & st2 & r2 & mr & st3 & st4 & st5 & El & Er & E4 & E5 & Vn & Ff & Hk2 & S5 & L5 & N5 & W5 & K5); auto.
      rewrite El, Er, E4, E5. exists (Node k sel1 (fs ++ ml ++ mr) X l2 r2), st5.
      split; [reflexivity|]. split; [etransitivity; [exact P1|etransitivity; [exact Hval|exact Vn]]|]. split; [reflexivity|]. split; [exact S5|].
      split; [rewrite <- Z0; exact L5|]. split.
      { intros o. rewrite N5. unfold st0. rewrite cnt_track. reflexivity. }
      split; [reflexivity|]. intros fz fl Hfin Hle. destruct (W5 fz fl Hfin Hle) as [Wl Wr].
      eapply wtop_term with (r1 := look st0) (r2 := look st2) (r3 := look st3); auto.
      + intros E. destruct (Hk2 E) as [H1 H2]. split; [exact H1|]. split; [exact H2|].
        unfold sel1. subst k. cbn. destruct (Hk1 eq_refl) as [-> ->]. reflexivity.
      + intros o _ _. apply K5.
      + rewrite N5. exact C0. }
  destruct (rebalance_is l r) as [[-> Hbal]|[-> Hbal]]; apply Hgoal; auto. apply value_swap.
Qed.
End Proofs.
