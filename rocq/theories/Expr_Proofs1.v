(** Induction on expressions; the recursion of clone has enough fuel. *)
From Coq Require Import List Bool Arith Lia.
From Verif Require Import Wick_Spec Expr_Model Expr_Spec.
Import ListNotations.

Section Ind.
  Context {X Y : Type}.
  Variable P : expr X Y -> Prop.
  Hypothesis Hc : forall z, P (EConst z).
  Hypothesis Ha : forall y, P (EAtom y).
  Hypothesis Hp : forall kd s fs, Forall P fs -> P (EProd kd s fs).
  Hypothesis Hs : forall ci ss, Forall P ss -> P (ESum ci ss).
  Hypothesis He : P EErr.
  Fixpoint expr_ind' (e : expr X Y) : P e :=
    match e with
    | EConst z => Hc z
    | EAtom y => Ha y
    | EProd kd s fs => Hp kd s fs ((fix all l : Forall P l := match l with [] => Forall_nil _ | x :: l' => Forall_cons x (expr_ind' x) (all l') end) fs)
    | ESum ci ss => Hs ci ss ((fix all l : Forall P l := match l with [] => Forall_nil _ | x :: l' => Forall_cons x (expr_ind' x) (all l') end) ss)
    | EErr => He
    end.
End Ind.

Lemma fold_left_ext {S X} (f g : S -> X -> S) l : (forall s x, In x l -> f s x = g s x) -> forall s, fold_left f l s = fold_left g l s.
Proof.
  induction l as [|x l IH]; intros H s; [reflexivity|]. cbn. rewrite (H s x) by (now left). apply IH. intros; apply H; now right.
Qed.

Lemma fold_left_inv {S X} (P : S -> Prop) (f : S -> X -> S) l : (forall s x, In x l -> P s -> P (f s x)) -> forall s, P s -> P (fold_left f l s).
Proof.
  induction l as [|x l IH]; intros H s Hs; [exact Hs|]. cbn. apply IH. intros; apply H; auto; now right. apply H; auto; now left.
Qed.

Lemma fr_and {X} (P : X -> Prop) l : fold_right (fun x Q => P x /\ Q) True l <-> Forall P l.
Proof.
  induction l; cbn; split; intros H; auto. - constructor; tauto. - inversion H; subst; tauto.
Qed.

Section P.
  Variable k : kops.
  Variable a : aops k.
  Notation E := (expr (K k) (A a)).
  Notation depth := (depth k a).
  Notation clone := (clone k a).
  Notation clone_fuel := (clone_fuel k a).
  Notation append := (append k a).
  Notation sum_append := (sum_append k a).

  Definition mdepth (l : list E) : nat := fold_right (fun x n => Nat.max (depth x) n) 0 l.
  Lemma mdepth_in l x : In x l -> depth x <= mdepth l.
  Proof. induction l; cbn; intros []; subst; [lia|]. specialize (IHl H). unfold mdepth in *; lia. Qed.
  Lemma mdepth_le l n : (forall x, In x l -> depth x <= n) -> mdepth l <= n.
  Proof. induction l; cbn; intros H; [lia|]. apply Nat.max_lub; auto. Qed.
  Lemma mdepth_app l m : mdepth (l ++ m) = Nat.max (mdepth l) (mdepth m).
  Proof. induction l; cbn; [reflexivity|]. unfold mdepth in *. rewrite IHl. lia. Qed.
  Lemma mdepth_cons x l : mdepth (x :: l) = Nat.max (depth x) (mdepth l). Proof. reflexivity. Qed.
  Lemma depth_pos e : 1 <= depth e.
  Proof. destruct e; cbn; lia. Qed.
  Lemma depth_prod kd s fs : depth (EProd kd s fs) = S (mdepth fs). Proof. reflexivity. Qed.
  Lemma depth_sum ci ss : depth (ESum ci ss) = S (mdepth ss). Proof. reflexivity. Qed.

  Lemma add_at_depth i z l n : mdepth l <= n -> 1 <= n -> mdepth (add_at k a i z l) <= n.
  Proof.
    revert l; induction i; destruct l as [|x l]; intros H H1; try (cbn; lia).
    - assert (H2 : mdepth l <= n) by (rewrite mdepth_cons in H; lia).
      destruct x; cbn [add_at]; rewrite mdepth_cons; cbn [Expr_Model.depth]; lia.
    - rewrite mdepth_cons in H. cbn [add_at]. rewrite mdepth_cons.
      assert (mdepth (add_at k a i z l) <= n) by (apply IHi; lia). lia.
  Qed.

  Lemma sum_append_depth cl e n : (forall y, depth (cl y) <= depth y) -> depth e <= n ->
    forall st, mdepth (snd st) <= n -> mdepth (snd (sum_append cl e st)) <= n.
  Proof.
    intros Hcl. revert n. induction e as [z|y|kd s fs IH|ci ss IH|] using expr_ind'; intros n Hn st Hst; cbn [Expr_Model.sum_append].
    - destruct (is_zero _ _ _); auto. destruct (fst st); cbn.
      + apply add_at_depth; auto. + cbn in Hn. rewrite mdepth_app; cbn; lia.
    - destruct (is_zero _ _ _); auto. cbn [snd]. rewrite mdepth_app. cbn. specialize (Hcl (EAtom y)). lia.
    - destruct (is_zero _ _ _); auto. cbn [snd]. rewrite mdepth_app. cbn. specialize (Hcl (EProd kd s fs)). lia.
    - rewrite depth_sum in Hn. assert (Hall : forall x, In x ss -> depth x <= n) by (intros x Hx; apply mdepth_in in Hx; lia).
      clear Hn ci. revert st Hst. induction ss as [|x ss IHs]; intros st Hst; [exact Hst|]. cbn. inversion IH; subst. apply IHs; auto.
      + intros; apply Hall; now right.
      + apply H1; auto. apply Hall; now left.
    - cbn. rewrite mdepth_app; cbn. specialize (Hcl EErr). lia.
  Qed.

  Lemma clone_fuel_depth n e : depth (clone_fuel n e) <= depth e.
  Proof.
    revert e; induction n as [|n IH]; intros e; [cbn; apply depth_pos|].
    destruct e as [z|y|kd s fs|ci ss|]; cbn [Expr_Model.clone_fuel]; try (cbn; lia).
    - rewrite !depth_prod. apply le_n_S.
      assert (H : forall p, mdepth (snd p) <= mdepth fs ->
        mdepth (snd (fold_left (fun p x => append (clone_fuel n) FNo (clone_fuel n x) p) fs p)) <= mdepth fs); [|apply H; cbn; lia].
      intros p Hp. apply (fold_left_inv (fun p => mdepth (snd p) <= mdepth fs)); auto.
      intros q x Hx Hq. pose proof (mdepth_in _ _ Hx). pose proof (IH x). pose proof (IH (clone_fuel n x)).
      destruct (clone_fuel n x) eqn:He; cbn [Expr_Model.append push snd scale]; auto; rewrite mdepth_app; unfold mdepth at 2; cbn [fold_right]; lia.
    - rewrite !depth_sum. apply le_n_S.
      apply (fold_left_inv (fun p : sumst k a => mdepth (snd p) <= mdepth ss)); [|cbn; lia].
      intros q x Hx Hq. apply sum_append_depth; auto. pose proof (mdepth_in _ _ Hx). pose proof (IH x). lia.
  Qed.

  Lemma sum_append_ext cl cl' e : (forall y, depth y <= depth e -> cl y = cl' y) -> forall st, sum_append cl e st = sum_append cl' e st.
  Proof.
    induction e as [z|y|kd s fs IH|ci ss IH|] using expr_ind'; intros H st; cbn [Expr_Model.sum_append]; try rewrite !H by lia; auto.
    apply fold_left_ext. intros s x Hx. rewrite Forall_forall in IH. apply IH; auto. intros y Hy. apply H.
    rewrite depth_sum. apply mdepth_in in Hx. lia.
  Qed.

  Lemma clone_fuel_enough n : forall m e, depth e <= n -> depth e <= m -> clone_fuel n e = clone_fuel m e.
  Proof.
    induction n as [|n IH]; intros m e Hn Hm. { pose proof (depth_pos e); lia. }
    destruct m as [|m]. { pose proof (depth_pos e); lia. }
    destruct e as [z|y|kd s fs|ci ss|]; cbn [Expr_Model.clone_fuel]; auto.
    - rewrite depth_prod in *.
      rewrite (fold_left_ext _ (fun p x => append (clone_fuel m) FNo (clone_fuel m x) p)); [reflexivity|].
      intros p x Hx. apply mdepth_in in Hx. rewrite (IH m x) by lia.
      pose proof (clone_fuel_depth m x). assert (H1 : clone_fuel n (clone_fuel m x) = clone_fuel m (clone_fuel m x)) by (apply IH; lia).
      destruct (clone_fuel m x); cbn [Expr_Model.append]; rewrite ?H1; reflexivity.
    - rewrite depth_sum in *.
      rewrite (fold_left_ext _ (fun p x => sum_append (clone_fuel m) (clone_fuel m x) p)); [reflexivity|].
      intros p x Hx. apply mdepth_in in Hx. rewrite (IH m x) by lia.
      pose proof (clone_fuel_depth m x). apply sum_append_ext. intros. apply IH; lia.
  Qed.

  Lemma clone_enough n e : depth e <= n -> clone_fuel n e = clone e.
  Proof. intros H. apply clone_fuel_enough; auto. Qed.

  Lemma clone_depth e : depth (clone e) <= depth e.
  Proof. apply clone_fuel_depth. Qed.

  (** The recursion equations of clone. *)
  Lemma clone_prod kd s fs :
    clone (EProd kd s fs) =
    let p := fold_left (fun p x => append clone FNo (clone x) p) fs (s, []) in EProd PPlain (fst p) (snd p).
  Proof.
    unfold Expr_Model.clone at 1. rewrite depth_prod. cbn [Expr_Model.clone_fuel].
    rewrite (fold_left_ext _ (fun p x => append clone FNo (clone x) p)); [reflexivity|].
    intros p x Hx. apply mdepth_in in Hx. rewrite clone_enough by lia.
    pose proof (clone_depth x). assert (H1 : clone_fuel (mdepth fs) (clone x) = clone (clone x)) by (apply clone_enough; lia).
    destruct (clone x); cbn [Expr_Model.append]; rewrite ?H1; reflexivity.
  Qed.
  Lemma clone_sum ci ss :
    clone (ESum ci ss) =
    let st := fold_left (fun st x => sum_append clone (clone x) st) ss (None, []) in ESum (fst st) (snd st).
  Proof.
    unfold Expr_Model.clone at 1. rewrite depth_sum. cbn [Expr_Model.clone_fuel].
    rewrite (fold_left_ext _ (fun p x => sum_append clone (clone x) p)); [reflexivity|].
    intros p x Hx. apply mdepth_in in Hx. rewrite clone_enough by lia.
    pose proof (clone_depth x). apply sum_append_ext. intros. apply clone_enough. lia.
  Qed.
  Lemma clone_const z : clone (EConst z) = EConst z. Proof. reflexivity. Qed.
  Lemma clone_atom x : clone (EAtom x) = EAtom x. Proof. reflexivity. Qed.

  (** Induction by depth. *)
  Lemma depth_ind (P : E -> Prop) : (forall e, (forall f, depth f < depth e -> P f) -> P e) -> forall e, P e.
  Proof.
    intros H e. remember (depth e) as n eqn:Hn. assert (Hle : depth e <= n) by lia. clear Hn. revert e Hle.
    induction n; intros e He. { pose proof (depth_pos e); lia. } apply H. intros f Hf. apply IHn. lia.
  Qed.
  Lemma in_prod_depth x kd s fs : In x fs -> depth x < depth (EProd kd s fs).
  Proof. intros H. rewrite depth_prod. apply mdepth_in in H. lia. Qed.
  Lemma in_sum_depth x ci ss : In x ss -> depth x < depth (ESum ci ss).
  Proof. intros H. rewrite depth_sum. apply mdepth_in in H. lia. Qed.
End P.
