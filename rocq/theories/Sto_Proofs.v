(** Proofs for C14. *)
From Coq Require Import List Arith Bool ZArith Permutation Lia Ring_theory Ring.
From Verif Require Import Idx_Model Idx_Proofs1 Bin_Model Bin_Spec Bin_Sums Bin_Proofs Sto_Model Sto_Spec Opt_Spec.
Import ListNotations.

Lemma filter_split {X} (f : X -> bool) l : Permutation l (filter f l ++ filter (fun x => negb (f x)) l).
Proof.
  induction l as [|x l IH]; [constructor|]. cbn [filter]. destruct (f x); cbn [negb app]; [constructor; exact IH|].
  apply Permutation_cons_app. exact IH.
Qed.
Lemma nth_seq {X} (d : X) l : map (fun i => nth i l d) (seq 0 (length l)) = l.
Proof. apply nth_ext with (d := d) (d' := d); [rewrite map_length, seq_length; reflexivity|]. intros i H. rewrite map_length, seq_length in H.
  rewrite (nth_indep _ d (nth 0 l d)) by (rewrite map_length, seq_length; exact H). rewrite (map_nth (fun i => nth i l d)). rewrite seq_nth; auto. Qed.
Lemma run_leaves : forall s st st', run_postfix s st = Some st' -> incl (flat_map leaves st) (flat_map leaves st').
Proof.
  induction s as [|c s IH]; intros st st' H; cbn in H; [injection H as <-; apply incl_refl|]. destruct (Z.eqb c (-1)).
  - destruct st as [|r [|l st]]; try discriminate. apply IH in H. intros i Hi. apply H. cbn [flat_map leaves] in *. rewrite !in_app_iff in *. tauto.
  - destruct (Z.leb 0 c); [|discriminate]. apply IH in H. intros i Hi. apply H. cbn [flat_map leaves]. right. exact Hi.
Qed.

Section Main.
  Variable K : Type.
  Variables (zero one : K) (add mul : K -> K -> K).
  Variable SR : semi_ring_theory zero one add mul eq.
  Add Ring KRing : SR.
  Variable max : nat.
  Variables (dom : idx -> list nat) (var : nat -> K) (tens : tensor -> list nat -> K).
  Notation bex := (bex K).
  Notation gok := (gok K).
  Notation gopen := (gopen K).
  Notation gden := (gden K zero one add mul dom var tens).
  Notation is_ten := (is_ten K).
  Notation is_scalar := (is_scalar K).
  Notation tree_expr := (tree_expr K one).
  Notation mk_no := (mk_no K mul).
  Notation prepend_no := (prepend_no K mul).

  (** ** expressions with the same value *)
  Definition eqv (e e' : bex) : Prop := forall F, gok F e ->
    gok F e' /\ same_set (gopen F e) (gopen F e') /\ forall r, gden F e r = gden F e' r.
  Lemma eqv_refl e : eqv e e.
  Proof. intros F H. split; [exact H|]. split; [intros x; reflexivity|reflexivity]. Qed.
  Lemma eqv_trans e f g : eqv e f -> eqv f g -> eqv e g.
  Proof.
    intros A B F H. destruct (A F H) as (A1 & A2 & A3). destruct (B F A1) as (B1 & B2 & B3). split; [exact B1|]. split.
    - intros x. rewrite (A2 x). apply B2.
    - intros r. rewrite A3. apply B3.
  Qed.
  Lemma eqv_perm c l m : Permutation l m -> eqv (Mul c l) (Mul c m).
  Proof. intros H F G. destruct (reorder_factors K zero one add mul SR dom var tens F c l m H) as (A & B & C). split; [apply A; exact G|]. split; assumption. Qed.
  Lemma eqv_nest c d l m : eqv (Mul (mul c d) (m ++ l)) (Mul c (Mul d m :: l)).
  Proof.
    intros F G. assert (G1 : gok F (Mul one (m ++ l))) by exact G. split; [apply (gok_flat K F d l m c one); exact G1|]. split.
    - intros x. symmetry. apply (flat_open K one dom var F d l m G1 c (mul c d)).
    - intros r. symmetry. apply (flat_value K zero one add mul SR dom var tens F d l m G1).
  Qed.
  Lemma eqv_con c z l : eqv (Mul c (Con z :: l)) (Mul (mul c z) l).
  Proof.
    assert (KE : forall F x, kept K F (Con z :: l) x = kept K F l x).
    { intros F x. unfold kept. apply filter_ext_in'. intros k _. unfold has. cbn [map all_indices filter mem existsb]. reflexivity. }
    assert (GO : forall F, map (fun x => gopen (kept K F (Con z :: l) x) x) (Con z :: l) = [] :: map (fun x => gopen (kept K F l x) x) l).
    { intros F. cbn [map]. f_equal; apply map_ext; intros x; rewrite KE; reflexivity. }
    assert (HE : forall x os, has x ([] :: os) = has x os) by reflexivity.
    intros F G. split; [|split].
    - cbn [Bin_Spec.gok] in *. destruct G as [_ G]. rewrite (gok_factors K) in *. intros x Hx. rewrite <- KE. apply G. exact Hx.
    - intros x. rewrite (gopen_mul K dom var F c (Con z :: l)), (gopen_mul K dom var F (mul c z) l). unfold gopens. rewrite GO, HE. reflexivity.
    - intros r. cbn [Bin_Spec.gden]. assert (E : gsummed K F (Con z :: l) = gsummed K F l) by (unfold gsummed; rewrite GO; reflexivity). rewrite E.
      replace (mul (mul c z) (sum_over K zero add dom (gsummed K F l) (fun r => kprod K one mul (map (fun x => gden (kept K F l x) x r) l)) r))
        with (mul c (mul (sum_over K zero add dom (gsummed K F l) (fun r => kprod K one mul (map (fun x => gden (kept K F l x) x r) l)) r) z)) by ring.
      f_equal. rewrite <- (sum_over_mul_r K zero one add mul SR) with (g := fun _ => z) by reflexivity. apply (sum_over_ext K zero add). intros s.
      cbn [map kprod Bin_Spec.gden]. replace (map (fun x => gden (kept K F (Con z :: l) x) x s) l) with (map (fun x => gden (kept K F l x) x s) l); [ring|].
      apply map_ext. intros x. rewrite KE. reflexivity.
  Qed.

  (** ** constants among the factors *)
  Definition is_con (e : bex) : bool := match e with Con _ => true | _ => false end.
  Fixpoint consts (c : K) (l : list bex) : K :=
    match l with [] => c | Con z :: l' => consts (mul c z) l' | _ :: l' => consts c l' end.
  Definition others (l : list bex) : list bex := filter (fun x => negb (is_con x)) l.
  Lemma consts_out l : forall c d, consts (mul c d) l = mul c (consts d l).
  Proof. induction l as [|x l IH]; intros c d; cbn; auto. destruct x; auto. replace (mul (mul c d) c0) with (mul c (mul d c0)) by ring. apply IH. Qed.
  Lemma eqv_consts : forall l m c, eqv (Mul c (l ++ m)) (Mul (consts c l) (others l ++ m)).
  Proof.
    induction l as [|x l IH]; intros m c; [apply eqv_refl|].
    assert (NC : is_con x = false -> consts c (x :: l) = consts c l /\ others (x :: l) = x :: others l).
    { intros H. split; [destruct x; try discriminate; reflexivity|]. unfold others. cbn [filter]. rewrite H. reflexivity. }
    destruct (is_con x) eqn:E.
    - destruct x; try discriminate. cbn [consts app]. change (others (Con c0 :: l)) with (others l). eapply eqv_trans; [apply eqv_con|]. apply IH.
    - destruct (NC eq_refl) as [-> ->]. cbn [app].
      eapply eqv_trans; [apply eqv_perm; apply Permutation_middle|]. eapply eqv_trans; [apply IH|]. apply eqv_perm. apply Permutation_sym, Permutation_middle.
  Qed.
  Lemma mk_no_is : forall l c, mk_no c l = (consts c l, others l).
  Proof.
    intros l c. unfold Sto_Model.mk_no. assert (G : forall l c m, fold_left (append_no K mul) l (c, m) = (consts c l, m ++ others l)).
    { clear. induction l as [|x l IH]; intros c m; cbn [fold_left]; [cbn; rewrite app_nil_r; reflexivity|].
      destruct x; cbn [append_no fst snd consts]; rewrite IH; try reflexivity; f_equal; unfold others; cbn [filter is_con negb]; rewrite <- app_assoc; reflexivity. }
    apply (G l c []).
  Qed.
  Lemma mk_no_eqv c l : eqv (Mul c l) (to_bex K (mk_no c l)).
  Proof. rewrite mk_no_is. unfold to_bex. cbn [fst snd]. assert (H := eqv_consts l [] c). rewrite !app_nil_r in H. exact H. Qed.
  Lemma others_id l : Forall (fun x => is_con x = false) l -> others l = l.
  Proof. intros H. induction H as [|x l H1 H2 IH]; [reflexivity|]. unfold others in *. cbn [filter]. rewrite H1. cbn [negb]. f_equal. exact IH. Qed.
  Lemma consts_id l c : Forall (fun x => is_con x = false) l -> consts c l = c.
  Proof. intros H. induction H as [|x l H1 H2 IH]; [reflexivity|]. destruct x; try discriminate; exact IH. Qed.
  Lemma mk_no_id l c : Forall (fun x => is_con x = false) l -> mk_no c l = (c, l).
  Proof. intros H. rewrite mk_no_is, others_id, consts_id by exact H. reflexivity. Qed.

  (** scalar products have the scalar 1 *)
  Definition unit_products (l : list bex) : Prop := forall s m, In (Mul s m) l -> s = one.
  Lemma prepend_is : forall l s m, unit_products l -> fold_right prepend_no (s, m) l = (mul s (consts one l), others l ++ m).
  Proof.
    induction l as [|x l IH]; intros s m U; cbn [fold_right].
    - cbn. f_equal. ring.
    - rewrite IH by (intros s' m' H; apply (U s' m'); right; exact H). destruct x as [z|v|t|a|s' a]; cbn [Sto_Model.prepend_no fst snd consts]; try reflexivity.
      + f_equal. replace (mul one z) with (mul z one) by ring. rewrite consts_out. ring.
      + assert (E : s' = one) by (apply (U s' a); left; reflexivity). subst s'. unfold others. cbn [filter is_con negb app]. f_equal. ring.
  Qed.

  (** ** trees *)
  Lemma tree_eqv ts : forall t rest c, eqv (Mul c (map (fun i => nth i ts (Con one)) (leaves t) ++ rest)) (Mul c (tree_expr ts t :: rest)).
  Proof.
    induction t as [i|a IHa b IHb]; intros rest c; [apply eqv_refl|]. cbn [leaves Sto_Spec.tree_expr]. rewrite map_app, <- app_assoc.
    eapply eqv_trans; [apply IHa|]. eapply eqv_trans; [apply eqv_perm; apply Permutation_middle|]. eapply eqv_trans; [apply IHb|].
    eapply eqv_trans; [apply eqv_perm; apply perm_swap|]. assert (H := eqv_nest c one rest [tree_expr ts a; tree_expr ts b]). cbn [app] in H.
    replace (mul c one) with c in H by ring. exact H.
  Qed.
  Lemma tree_root ts a b pre c : eqv (Mul c (pre ++ map (fun i => nth i ts (Con one)) (leaves (Opt_Spec.Node a b)))) (Mul c (pre ++ [tree_expr ts a; tree_expr ts b])).
  Proof.
    cbn [leaves]. rewrite map_app. eapply eqv_trans; [apply eqv_perm; apply Permutation_app_comm|]. rewrite <- app_assoc.
    eapply eqv_trans; [apply tree_eqv|]. eapply eqv_trans; [apply eqv_perm; apply Permutation_middle|]. eapply eqv_trans; [apply tree_eqv|].
    apply eqv_perm. eapply Permutation_trans; [apply perm_swap|]. apply (Permutation_app_comm [tree_expr ts a; tree_expr ts b] pre).
  Qed.
  Lemma tree_not_con ts t : Forall (fun x => is_con x = false) ts -> (forall i, In i (leaves t) -> i < length ts) -> is_con (tree_expr ts t) = false.
  Proof.
    intros H B. destruct t as [i|a b]; [|reflexivity]. cbn. rewrite Forall_forall in H. apply H. apply nth_In. apply B. left. reflexivity.
  Qed.
  Lemma build_run ts : Forall (fun x => is_con x = false) ts -> forall s st st',
    run_postfix s st = Some st' -> (forall i, In i (flat_map leaves st') -> i < length ts) ->
    build K one mul ts s (map (tree_expr ts) st) = Ret (map (tree_expr ts) st').
  Proof.
    intros NC. induction s as [|c s IH]; intros st st' H B; cbn [run_postfix] in H; [injection H as <-; reflexivity|]. cbn [build].
    destruct (Z.eqb c (-1)) eqn:E1.
    - destruct st as [|r [|l st]]; try discriminate. cbn [map]. assert (I := run_leaves _ _ _ H).
      assert (NL : Forall (fun x => is_con x = false) [tree_expr ts l; tree_expr ts r]).
      { constructor; [|constructor; [|constructor]]; apply tree_not_con; auto; intros i Hi; apply B, I; cbn [flat_map leaves]; rewrite !in_app_iff; tauto. }
      rewrite !mk_no_id by (cbn [snd]; try rewrite mk_no_id by exact NL; exact NL). unfold to_bex. cbn [fst snd]. apply (IH (Opt_Spec.Node l r :: st)); assumption.
    - destruct (Z.leb 0 c) eqn:E2; [|discriminate]. assert (I := run_leaves _ _ _ H).
      assert (L : Z.to_nat c < length ts) by (apply B, I; left; reflexivity).
      rewrite (nth_error_nth' ts (Con one) L). apply (IH (Opt_Spec.Leaf (Z.to_nat c) :: st)); assumption.
  Qed.

  (** ** a product of tensors and scalars *)
  Definition pure (l : list bex) : Prop := Forall (fun x => is_ten x = true \/ is_scalar x = true) l.
  Lemma ten_not_scalar x : is_ten x = true -> is_scalar x = false.
  Proof. destruct x; try discriminate. reflexivity. Qed.
  Definition result (c : K) (sc ts : list bex) (a b : tree) : bex :=
    Mul (mul (consts one sc) c) (others sc ++ [tree_expr ts a; tree_expr ts b]).
  Lemma over_two n t : over n t -> 2 <= n -> exists a b, t = Opt_Spec.Node a b.
  Proof. intros H L. destruct t as [i|a b]; [|eauto]. apply Permutation_length in H. rewrite seq_length in H. cbn in H. lia. Qed.
  Lemma over_in n t i : over n t -> In i (leaves t) -> i < n.
  Proof. intros H Hi. apply (Permutation_in _ H), in_seq in Hi. lia. Qed.
  Lemma sto_is seq_of c l : 3 <= length l -> 2 <= length (filter is_ten l) <= max ->
    unit_products (filter is_scalar l) -> good_seq K max seq_of ->
    exists a b, over (length (filter is_ten l)) (Opt_Spec.Node a b) /\
      single_term_opt K one mul seq_of (c, l) = Ret (mul (mul one (consts one (filter is_scalar l))) c, others (filter is_scalar l) ++ [tree_expr (filter is_ten l) a; tree_expr (filter is_ten l) b]).
  Proof.
    intros L3 L2 U GS. destruct (GS (filter is_ten l) L2) as (t & D & O). destruct (over_two _ _ O (proj1 L2)) as (a & b & ->). exists a, b. split; [exact O|].
    unfold single_term_opt. cbn [fst snd]. replace (length l <? 3) with false by (symmetry; apply Nat.ltb_ge; exact L3).
    assert (NC : Forall (fun x => is_con x = false) (filter is_ten l)).
    { apply Forall_forall. intros x H. apply filter_In in H as [_ H]. destruct x; try discriminate; reflexivity. }
    assert (B := build_run (filter is_ten l) NC _ [] _ D). cbn [map flat_map] in B. rewrite app_nil_r in B. rewrite B by (intros i Hi; eapply over_in; eauto).
    cbn [bind Sto_Spec.tree_expr]. rewrite prepend_is by exact U. reflexivity.
  Qed.
  Lemma result_eqv c l sc ts t a b : Permutation l (sc ++ ts) -> t = Opt_Spec.Node a b -> over (length ts) t ->
    eqv (Mul c l) (Mul (mul (mul one (consts one sc)) c) (others sc ++ [tree_expr ts a; tree_expr ts b])).
  Proof.
    intros P -> O. eapply eqv_trans; [apply eqv_perm; exact P|]. eapply eqv_trans; [apply eqv_consts|].
    replace (mul (mul one (consts one sc)) c) with (consts c sc) by (replace c with (mul c one) at 1 by ring; rewrite consts_out; ring).
    eapply eqv_trans; [|apply tree_root]. apply eqv_perm. apply Permutation_app_head.
    rewrite <- (nth_seq (Con one) ts) at 1. apply Permutation_map. apply Permutation_sym. exact O.
  Qed.

  (** ** products with other factors *)
  Variable placeholder : nat -> nat.
  Variable find_label : nat -> option nat.
  Hypothesis decode : forall i, find_label (placeholder i) = Some i.
  Notation put_back := (put_back K find_label).
  Notation own_label := (own_label K find_label).

  Lemma scalar_list l : (fix go l := match l with [] => true | x :: l' => is_scalar x && go l' end) l = forallb is_scalar l.
  Proof. induction l as [|x l IH]; cbn; [reflexivity|rewrite IH; reflexivity]. Qed.
  Definition put_list (L : list bex) := fix go m := match m with [] => Ret [] | x :: m' => bind (put_back L x) (fun y => bind (go m') (fun r => Ret (y :: r))) end.
  Lemma put_list_ok L m m' : Forall2 (fun x y => put_back L x = Ret y) m m' -> put_list L m = Ret m'.
  Proof. intros H. induction H as [|x y m m' H1 H2 IH]; [reflexivity|]. cbn [put_list]. rewrite H1. cbn [bind]. fold (put_list L). rewrite IH. reflexivity. Qed.
  Lemma put_mul L c m m' : Forall2 (fun x y => put_back L x = Ret y) m m' -> put_back L (Mul c m) = Ret (Mul c m').
  Proof. intros H. cbn [Sto_Model.put_back]. fold (put_list L). rewrite (put_list_ok L m m' H). reflexivity. Qed.
  Lemma put_add L m m' : Forall2 (fun x y => put_back L x = Ret y) m m' -> put_back L (Add m) = Ret (Add m').
  Proof. intros H. cbn [Sto_Model.put_back]. fold (put_list L). rewrite (put_list_ok L m m' H). reflexivity. Qed.
  Lemma forall2_id {X} (P : X -> X -> Prop) l : (forall x, In x l -> P x x) -> Forall2 P l l.
  Proof. induction l as [|x l IH]; intros H; constructor; [apply H; left; reflexivity|apply IH; intros y Hy; apply H; right; exact Hy]. Qed.
  Lemma put_scalar L : forall e, is_scalar e = true -> put_back L e = Ret e.
  Proof.
    induction e as [c|v|t|l IH|c l IH] using bex_ind2; intros H; try reflexivity; try discriminate.
    - destruct l as [|x l]; [discriminate|]. apply put_add, forall2_id. rewrite Forall_forall in IH. intros y Hy. apply IH; [exact Hy|].
      change (forallb is_scalar (x :: l) = true) in H || (cbn [Sto_Model.is_scalar] in H; rewrite scalar_list in H; change (forallb is_scalar (x :: l) = true) in H).
      rewrite forallb_forall in H. apply H. exact Hy.
    - destruct l as [|x l]; [discriminate|]. apply put_mul, forall2_id. rewrite Forall_forall in IH. intros y Hy. apply IH; [exact Hy|].
      change (forallb is_scalar (x :: l) = true) in H || (cbn [Sto_Model.is_scalar] in H; rewrite scalar_list in H; change (forallb is_scalar (x :: l) = true) in H).
      rewrite forallb_forall in H. apply H. exact Hy.
  Qed.
  Lemma put_own L e : is_ten e = true -> own_label e -> put_back L e = Ret e.
  Proof. destruct e as [| |t| |]; try discriminate. intros _ H. unfold Sto_Spec.own_label in H. cbn. destruct (tkind t) as [lab| |]; auto. rewrite H. reflexivity. Qed.

  (** unique indices can always be computed *)
  Lemma unique_ok : forall e : bex, exists g, get_unique_indices (to_ex K e) = Ret g.
  Proof.
    induction e as [c|v|t|l IH|c l IH] using bex_ind2; cbn [to_ex get_unique_indices]; eauto.
    - destruct l as [|x l]; cbn [map]; eauto. inversion IH; subst. assumption.
    - assert (G : forall a, exists a', (fix go l a := match l with [] => Ret a | x :: l' => bind (get_unique_indices x) (fun g => go l' (factor a g)) end) (map (to_ex K) l) a = Ret a').
      { induction IH as [|x l [g Hx] H IH]; intros a; cbn [map]; eauto. rewrite Hx. cbn [bind]. apply IH. }
      destruct (G (no_groups, [])) as [a Ha]. rewrite Ha. cbn [bind]. eauto.
  Qed.

  (** what stands for the factors *)
  Definition stands (L : list bex) (f' f : bex) : Prop :=
    put_back L f' = Ret f /\ ((is_ten f' = true /\ is_scalar f = false) \/ (is_scalar f = true /\ f' = f)).
  Lemma stand_in_ok : forall l pre, Forall own_label l ->
    exists l', stand_in K placeholder (length pre) l = Ret l' /\ Forall2 (stands (pre ++ l)) l' l.
  Proof.
    induction l as [|f l IH]; intros pre O; [exists []; split; [reflexivity|constructor]|]. inversion O as [|? ? O1 O2]; subst.
    destruct (IH (pre ++ [f]) O2) as (l' & E & S). rewrite app_length in E. cbn [length] in E. rewrite Nat.add_1_r in E. rewrite <- app_assoc in S. cbn [app] in S.
    cbn [stand_in]. destruct (is_ten f || is_scalar f) eqn:T.
    - exists (f :: l'). cbn [bind]. rewrite E. split; [reflexivity|]. constructor; [|exact S]. destruct (is_ten f) eqn:T1.
      + split; [apply put_own; assumption|]. left. split; [exact T1|]. apply ten_not_scalar. exact T1.
      + cbn [orb] in T. split; [apply put_scalar; exact T|]. right. auto.
    - destruct (unique_ok f) as [g Hg]. rewrite Hg. cbn [bind]. rewrite E. cbn [bind]. eexists. split; [reflexivity|]. constructor; [|exact S].
      split; [|left; split; [reflexivity|apply orb_false_iff in T; apply T]].
      cbn [Sto_Model.put_back put_back_one tkind]. rewrite decode. rewrite nth_error_app2 by lia. rewrite Nat.sub_diag. cbn [nth_error]. rewrite T. reflexivity.
  Qed.
  Lemma stands_scalar L l' l : Forall2 (stands L) l' l -> filter is_scalar l' = filter is_scalar l.
  Proof.
    intros H. induction H as [|x y l' l [_ [[A B]|[A B]]] H IH]; [reflexivity| |].
    - cbn [filter]. rewrite (ten_not_scalar x A), B. exact IH.
    - subst. cbn [filter]. rewrite A. f_equal. exact IH.
  Qed.
  Lemma stands_ten L l' l : Forall2 (stands L) l' l -> Forall2 (fun x y => put_back L x = Ret y) (filter is_ten l') (filter (nonscalar K) l).
  Proof.
    intros H. induction H as [|x y l' l [P [[A B]|[A B]]] H IH]; [constructor| |].
    - cbn [filter]. unfold nonscalar at 1. rewrite A, B. cbn [negb]. constructor; assumption.
    - subst. cbn [filter]. unfold nonscalar at 1. rewrite A. cbn [negb]. replace (is_ten y) with false; [exact IH|]. symmetry. destruct y; try reflexivity. discriminate.
  Qed.
  Lemma stands_others L l' l : Forall2 (stands L) l' l -> Forall2 (stands L) (others l') (others l) /\ forall c, consts c l' = consts c l.
  Proof.
    intros H. induction H as [|x y l' l S H [IH1 IH2]]; [split; [constructor|reflexivity]|]. assert (S' := S). destruct S as [P [[A B]|[A B]]].
    - assert (C1 : is_con x = false) by (destruct x; try discriminate; reflexivity). assert (C2 : is_con y = false) by (destruct y; try discriminate; reflexivity).
      unfold others in *. cbn [filter]. rewrite C1, C2. cbn [negb]. split; [constructor; assumption|]. intros c. destruct x; try discriminate. destruct y; try discriminate; apply IH2.
    - subst. unfold others in *. cbn [filter]. destruct (is_con y) eqn:C; cbn [negb]; (split; [try constructor; assumption|]); intros c; destruct y; try discriminate; apply IH2.
  Qed.
  Lemma forall2_nth {X Y} (P : X -> Y -> Prop) l m d e i : Forall2 P l m -> i < length l -> P (nth i l d) (nth i m e).
  Proof. intros H. revert i. induction H; intros [|i] L; cbn in *; try lia; auto. apply IHForall2. lia. Qed.
  Lemma tree_put L ts' ts : Forall2 (fun x y => put_back L x = Ret y) ts' ts -> forall t, (forall i, In i (leaves t) -> i < length ts') ->
    put_back L (tree_expr ts' t) = Ret (tree_expr ts t).
  Proof.
    intros H. induction t as [i|a IHa b IHb]; intros B; cbn [Sto_Spec.tree_expr].
    - apply (forall2_nth (fun x y => put_back L x = Ret y) ts' ts (Con one) (Con one) i H). apply B. left. reflexivity.
    - apply put_mul. constructor; [apply IHa; intros i Hi; apply B; cbn; apply in_or_app; auto|]. constructor; [apply IHb; intros i Hi; apply B; cbn; apply in_or_app; auto|constructor].
  Qed.

  Lemma filter_le {X} (f : X -> bool) l : length (filter f l) <= length l.
  Proof. induction l as [|x l IH]; cbn; [lia|destruct (f x); cbn; lia]. Qed.
  Lemma others_scalar l : filter is_scalar (others l) = others (filter is_scalar l).
  Proof. induction l as [|x l IH]; [reflexivity|]. unfold others in *. destruct x; cbn [filter is_con negb]; try exact IH; destruct (is_scalar _); cbn [filter is_con negb]; try (f_equal; exact IH); exact IH. Qed.
  Lemma others_non l : filter (nonscalar K) (others l) = filter (nonscalar K) l.
  Proof. induction l as [|x l IH]; [reflexivity|]. unfold others in *. destruct x; cbn [filter is_con negb]; try exact IH; destruct (nonscalar K _) eqn:E; try (f_equal; exact IH); exact IH. Qed.
  Lemma others_others l : others (others l) = others l.
  Proof. apply others_id. apply Forall_forall. intros x H. apply filter_In in H as [_ H]. destruct (is_con x); auto; discriminate. Qed.

  (** *** the shape of an optimised product *)
  Inductive shape (c : K) (l : list bex) : bex -> Prop :=
  | small : length (others l) < 3 -> shape c l (Mul (consts c l) (others l))
  | treed a b c' : over (length (filter (nonscalar K) l)) (Opt_Spec.Node a b) -> c' = consts c l ->
      shape c l (Mul c' (others (filter is_scalar l) ++ [tree_expr (filter (nonscalar K) l) a; tree_expr (filter (nonscalar K) l) b])).
  Lemma consts_scalar l : forall c, consts c (filter is_scalar l) = consts c l.
  Proof.
    induction l as [|x l IH]; intros c; [reflexivity|]. cbn [filter]. destruct (is_scalar x) eqn:E; destruct x; try discriminate; cbn [consts]; apply IH.
  Qed.
  Lemma shape_eqv c l e : shape c l e -> eqv (Mul c l) e.
  Proof.
    intros [H|a b c' O ->].
    - assert (Q := mk_no_eqv c l). rewrite mk_no_is in Q. exact Q.
    - assert (R := result_eqv c l (filter is_scalar l) (filter (nonscalar K) l) _ a b (filter_split is_scalar l) eq_refl O).
      replace (consts c l) with (mul (mul one (consts one (filter is_scalar l))) c); [exact R|].
      rewrite consts_scalar. replace c with (mul c one) at 2 by ring. rewrite consts_out. ring.
  Qed.
  Lemma units l : (forall s m, In (Mul s m) l -> is_scalar (Mul s m) = true -> s = one) -> unit_products (filter is_scalar l).
  Proof. intros H s m I. apply filter_In in I as [I1 I2]. eauto. Qed.
  Lemma pure_nonscalar l : pure l -> filter is_ten l = filter (nonscalar K) l.
  Proof.
    intros H. apply filter_ext_in'. intros x Hx. unfold pure in H. rewrite Forall_forall in H. unfold nonscalar. destruct (H x Hx) as [T|T].
    - rewrite T, (ten_not_scalar x T). reflexivity.
    - rewrite T. destruct x; try reflexivity; discriminate.
  Qed.
  Lemma pure_shape seq_of c l : pure l -> good_product K one find_label max l -> good_seq K max seq_of ->
    exists q, single_term_opt K one mul seq_of (c, l) = Ret q /\ shape c l (to_bex K q).
  Proof.
    intros P (O & U & L & LM) GS. destruct (le_lt_dec 3 (length l)) as [L3|L3].
    - destruct L as [L|L]; [lia|]. rewrite <- (pure_nonscalar l P) in L, LM. destruct (sto_is seq_of c l L3 (conj L LM) (units l U) GS) as (a & b & Ov & E). eexists. split; [exact E|].
      unfold to_bex. cbn [fst snd]. rewrite (pure_nonscalar l P) in *. apply treed; [exact Ov|]. rewrite consts_scalar. replace c with (mul c one) at 2 by ring. rewrite consts_out. ring.
    - exists (mk_no c l). unfold single_term_opt. cbn [fst snd]. replace (length l <? 3) with true by (symmetry; apply Nat.ltb_lt; exact L3). split; [reflexivity|].
      rewrite mk_no_is. unfold to_bex. cbn [fst snd]. apply small. assert (Q := filter_le (fun x => negb (is_con x)) l). fold (others l) in Q. lia.
  Qed.
  Lemma mixed_shape seq_of c l : good_product K one find_label max l -> good_seq K max seq_of ->
    exists e, opt_mixed K one mul placeholder find_label seq_of (c, l) = Ret e /\ shape c l e.
  Proof.
    intros (O & U & L & LM) GS. destruct (stand_in_ok l [] O) as (l' & E & S). cbn [length app] in E, S. unfold opt_mixed. cbn [fst snd]. rewrite E. cbn [bind].
    rewrite mk_no_is. destruct (stands_others l l' l S) as [SO SC]. rewrite SC.
    destruct (le_lt_dec 3 (length (others l'))) as [L3|L3].
    - assert (LE : length (others l') = length (others l)) by (clear - SO; induction SO; cbn; congruence).
      assert (L2 : 2 <= length (filter (nonscalar K) l)).
      { destruct L as [L|L]; [|exact L]. assert (Q := filter_le (fun x => negb (is_con x)) l). fold (others l) in Q. lia. }
      assert (TT := stands_ten l _ _ SO). rewrite (others_non l) in TT.
      assert (LT : length (filter is_ten (others l')) = length (filter (nonscalar K) l)) by (clear - TT; induction TT; cbn; congruence).
      assert (SS := stands_scalar l _ _ SO). rewrite (others_scalar l) in SS.
      assert (UU : unit_products (filter is_scalar (others l'))).
      { rewrite SS. intros s m I. apply filter_In in I as [I _]. exact (units l U s m I). }
      destruct (sto_is seq_of (consts c l) (others l') L3 ltac:(lia) UU GS) as (a & b & Ov & Es). rewrite Es. cbn [bind]. unfold to_bex. cbn [fst snd].
      rewrite SS, others_others. rewrite LT in Ov.
      assert (Z : consts one (others (filter is_scalar l)) = one).
      { apply consts_id. apply Forall_forall. intros x H. apply filter_In in H as [_ H]. destruct (is_con x); auto; discriminate. }
      rewrite Z. eexists. split; [|apply (treed c l a b (mul (mul one one) (consts c l)) Ov); ring].
      apply put_mul. apply Forall2_app.
      + apply forall2_id. intros x H. apply filter_In in H as [H _]. apply filter_In in H as [_ H]. apply put_scalar. exact H.
      + assert (BA : forall i, In i (leaves (Opt_Spec.Node a b)) -> i < length (filter is_ten (others l'))) by (intros i Hi; rewrite LT; eapply over_in; eauto).
        constructor; [apply tree_put; auto; intros i Hi; apply BA; cbn; apply in_or_app; auto|]. constructor; [|constructor].
        apply tree_put; auto. intros i Hi. apply BA. cbn. apply in_or_app. auto.
    - unfold single_term_opt. cbn [fst snd]. replace (length (others l') <? 3) with true by (symmetry; apply Nat.ltb_lt; exact L3). cbn [bind].
      rewrite mk_no_is, others_others. rewrite consts_id by (apply Forall_forall; intros x H; apply filter_In in H as [_ H]; destruct (is_con x); auto; discriminate).
      unfold to_bex. cbn [fst snd]. exists (Mul (consts c l) (others l)). split.
      + apply put_mul. clear - SO. induction SO; constructor; [apply H|assumption].
      + apply small. clear - SO L3. assert (length (others l') = length (others l)) by (clear L3; induction SO; cbn; congruence). lia.
  Qed.
  Lemma product_shape seq_of c l : good_product K one find_label max l -> good_seq K max seq_of ->
    exists e, optimize K one mul placeholder find_label seq_of (Mul c l) = Ret e /\ shape c l e.
  Proof.
    intros G GS. cbn [optimize]. destruct (forallb (fun x => is_ten x || is_scalar x) l) eqn:E.
    - assert (P : pure l) by (apply Forall_forall; rewrite forallb_forall in E; intros x Hx; apply orb_true_iff; apply E; exact Hx).
      destruct (pure_shape seq_of c l P G GS) as (q & Eq & S). rewrite Eq. cbn [bind]. eauto.
    - apply mixed_shape; assumption.
  Qed.

  (** ** sums *)
  Lemma eqv_add l l' : Forall2 eqv l l' -> eqv (Add l) (Add l').
  Proof.
    intros H F (G1 & G2 & G3). rewrite gok_list in G3.
    assert (A : forall x', In x' l' -> exists x, In x l /\ gok F x' /\ same_set (gopen F x) (gopen F x')).
    { clear G1 G2. induction H as [|x x' l l' E H IH]; intros y Hy; [destruct Hy|]. destruct Hy as [<-|Hy].
      - destruct (E F (G3 x (or_introl eq_refl))) as (A1 & A2 & _). exists x. split; [left; reflexivity|auto].
      - destruct (IH (fun z Hz => G3 z (or_intror Hz)) y Hy) as (z & Hz & Q). exists z. split; [right; exact Hz|exact Q]. }
    split; [|split].
    - split; [intros ->; inversion H; subst; congruence|]. split.
      + intros x y Hx Hy k. destruct (A x Hx) as (x0 & Hx0 & _ & Sx). destruct (A y Hy) as (y0 & Hy0 & _ & Sy). rewrite <- (Sx k), <- (Sy k). apply G2; assumption.
      + apply gok_list. intros x Hx. destruct (A x Hx) as (_ & _ & Q & _). exact Q.
    - destruct H as [|x x' l l' E H]; [intros k; reflexivity|]. cbn [Bin_Spec.gopen]. apply (E F). apply G3. left. reflexivity.
    - intros r. cbn [Bin_Spec.gden]. clear G1 G2 A. induction H as [|x x' l l' E H IH]; [reflexivity|]. cbn [map Bin_Spec.ksum]. f_equal.
      + apply (E F). apply G3. left. reflexivity.
      + apply IH. intros y Hy. apply G3. right. exact Hy.
  Qed.
  Lemma good_list l : (fix go l := match l with [] => True | x :: l' => good_expr K one find_label max x /\ go l' end) l <-> forall x, In x l -> good_expr K one find_label max x.
  Proof. induction l as [|x l IH]; [split; [intros _ y []|auto]|]. rewrite IH. split; [intros [A B] y [<-|Hy]; auto|intros H; split; [apply H; left; reflexivity|intros y Hy; apply H; right; exact Hy]]. Qed.
  Theorem optimize_ok seq_of : good_seq K max seq_of -> forall e, good_expr K one find_label max e ->
    exists e', optimize K one mul placeholder find_label seq_of e = Ret e' /\ eqv e e'.
  Proof.
    intros GS. induction e as [c|v|t|l IH|c l IH] using bex_ind2; intros G; try (eexists; split; [reflexivity|apply eqv_refl]).
    - cbn [good_expr] in G. rewrite good_list in G. cbn [optimize].
      assert (A : exists l', (fix go l := match l with [] => Ret [] | x :: l' => bind (optimize K one mul placeholder find_label seq_of x) (fun y => bind (go l') (fun r => Ret (y :: r))) end) l = Ret l' /\ Forall2 eqv l l').
      { induction l as [|x l IHl]; [exists []; split; [reflexivity|constructor]|]. inversion IH as [|? ? I1 I2]; subst.
        destruct (I1 (G x (or_introl eq_refl))) as (x' & Ex & Qx). destruct (IHl I2 (fun y Hy => G y (or_intror Hy))) as (l' & El & Ql).
        exists (x' :: l'). rewrite Ex. cbn [bind]. rewrite El. split; [reflexivity|constructor; assumption]. }
      destruct A as (l' & El & Ql). rewrite El. cbn [bind]. eexists. split; [reflexivity|]. apply eqv_add. exact Ql.
    - destruct (product_shape seq_of c l G GS) as (e' & E & S). exists e'. split; [exact E|]. apply shape_eqv. exact S.
  Qed.
End Main.
