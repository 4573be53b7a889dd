(** Expressions as linear functionals on lists of leaves; building expressions does not change them. *)
From Coq Require Import List Bool Arith Lia Ring Ring_theory.
From Verif Require Import Wick_Spec Idx_Model Bin_Spec Bin_Sums Expr_Model Expr_Spec Expr_Proofs1 Df_Model Df_Spec.
Import ListNotations.

Section Poly.
  Variable k : kops.
  Variable ksub : K k -> K k -> K k.
  Hypothesis RT : ring_theory (k0 k) (k1 k) (kadd k) (kmul k) ksub (kopp k) eq.
  Hypothesis EQ : forall x y, keqb k x y = true <-> x = y.
  Variable a : aops k.
  Hypothesis NZ : forall x, azero a x = false.
  Notation E := (expr (K k) (A a)).
  Declare Scope kscope.
  Notation "0" := (k0 k) : kscope.
  Notation "1" := (k1 k) : kscope.
  Notation "x + y" := (kadd k x y) : kscope.
  Notation "x * y" := (kmul k x y) : kscope.
  Notation "- x" := (kopp k x) : kscope.
  Local Open Scope kscope.
  Add Ring Kring30 : RT.
  Notation ksum := (ksum (K k) (k0 k) (kadd k)).
  Notation expanded := (expanded k (A a)).
  Notation clone := (Expr_Model.clone k a).
  Notation append := (Expr_Model.append k a).
  Notation sum_append := (Expr_Model.sum_append k a).
  Notation depth := (Expr_Model.depth k a).
  Notation ok := (@Expr_Spec.ok k a).

  Definition lin (l : list (term k (A a))) (F : list (A a) -> K k) : K k := ksum (map (fun t => fst t * F (snd t)) l).
  Definition poly (e : E) (F : list (A a) -> K k) : K k := lin (expanded e) F.
  Definition cr (fs : list E) : list (term k (A a)) := fold_right (fun f acc => cross k (A a) (expanded f) acc) [(1, [])] fs.
  Definition polys (fs : list E) (F : list (A a) -> K k) : K k := lin (cr fs) F.

  Lemma ksum_app l m : ksum (l ++ m) = ksum l + ksum m.
  Proof. induction l; cbn; [ring|]. rewrite IHl. ring. Qed.
  Lemma lin_app l m F : lin (l ++ m) F = lin l F + lin m F.
  Proof. unfold lin. rewrite map_app. apply ksum_app. Qed.
  Lemma lin_ext l F G : (forall t, In t l -> F (snd t) = G (snd t)) -> lin l F = lin l G.
  Proof. intros H. induction l as [|t l IH]; [reflexivity|]. unfold lin in *. cbn. rewrite IH, (H t); auto; [left; auto|]. intros; apply H; right; auto. Qed.
  Lemma lin_scale l c F : lin l (fun t => c * F t) = c * lin l F.
  Proof. induction l as [|t l IH]; unfold lin in *; cbn; [ring|]. rewrite IH. ring. Qed.
  Lemma lin_add l F G : lin l (fun t => F t + G t) = lin l F + lin l G.
  Proof. induction l as [|t l IH]; unfold lin in *; cbn; [ring|]. rewrite IH. ring. Qed.
  Lemma lin_zero l : lin l (fun t => 0) = 0.
  Proof. induction l as [|t l IH]; unfold lin in *; cbn; [ring|]. rewrite IH. ring. Qed.
  Lemma lin_cons t l F : lin (t :: l) F = fst t * F (snd t) + lin l F. Proof. reflexivity. Qed.
  Lemma lin_swap l m (F : list (A a) -> list (A a) -> K k) : lin l (fun t => lin m (fun u => F t u)) = lin m (fun u => lin l (fun t => F t u)).
  Proof.
    induction l as [|t l IH].
    - symmetry. apply lin_zero.
    - rewrite lin_cons, IH. rewrite (lin_ext m (fun u => lin (t :: l) (fun v => F v u)) (fun u => fst t * F (snd t) u + lin l (fun t => F t u))) by (intros; symmetry; rewrite lin_cons; reflexivity).
      rewrite lin_add, lin_scale. reflexivity.
  Qed.
  Lemma lin_cross l m F : lin (cross k (A a) l m) F = lin l (fun t => lin m (fun u => F (t ++ u))).
  Proof.
    induction l as [|t l IH]; [reflexivity|]. rewrite lin_cons, <- IH. unfold cross. cbn [flat_map]. rewrite lin_app. f_equal.
    clear IH. induction m as [|u m IH]; [unfold lin; cbn; ring|]. cbn [map]. rewrite !lin_cons, IH. cbn. ring.
  Qed.

  Lemma polys_nil F : polys [] F = F [].
  Proof. unfold polys, lin. cbn. ring. Qed.
  Lemma polys_cons e fs F : polys (e :: fs) F = poly e (fun t => polys fs (fun u => F (t ++ u))).
  Proof. unfold polys. cbn. apply lin_cross. Qed.
  Lemma poly_ext e F G : (forall t, F t = G t) -> poly e F = poly e G.
  Proof. intros H. apply lin_ext. auto. Qed.
  Lemma polys_ext fs F G : (forall t, F t = G t) -> polys fs F = polys fs G.
  Proof. intros H. apply lin_ext. auto. Qed.
  Lemma poly_scale e c F : poly e (fun t => c * F t) = c * poly e F. Proof. apply lin_scale. Qed.
  Lemma polys_scale e c F : polys e (fun t => c * F t) = c * polys e F. Proof. apply lin_scale. Qed.
  Lemma polys_app fs gs F : polys (fs ++ gs) F = polys fs (fun t => polys gs (fun u => F (t ++ u))).
  Proof.
    revert F. induction fs as [|f fs IH]; intros F; cbn [app]; [rewrite polys_nil; apply polys_ext; auto|].
    rewrite !polys_cons. apply poly_ext. intros t. rewrite IH. apply polys_ext. intros u. apply polys_ext. intros v. now rewrite app_assoc.
  Qed.
  Lemma polys_one e F : polys [e] F = poly e F.
  Proof. rewrite polys_cons. apply poly_ext. intros t. rewrite polys_nil. now rewrite app_nil_r. Qed.
  Lemma poly_const z F : poly (EConst z) F = z * F [].
  Proof. unfold poly, lin. cbn. ring. Qed.
  Lemma poly_atom x F : poly (EAtom x) F = F [x].
  Proof. unfold poly, lin. cbn. ring. Qed.
  Lemma poly_prod kd s fs F : poly (EProd kd s fs) F = s * polys fs F.
  Proof. unfold poly. cbn [Df_Spec.expanded]. rewrite lin_cross. unfold lin at 1. cbn. fold (cr fs). unfold polys. ring_simplify. f_equal. Qed.
  Lemma poly_sum ci ss F : poly (ESum ci ss) F = ksum (map (fun e => poly e F) ss).
  Proof. unfold poly. cbn [Df_Spec.expanded]. induction ss as [|x ss IH]; [reflexivity|]. cbn [flat_map map]. rewrite lin_app, IH. reflexivity. Qed.
  Lemma poly_err F : poly EErr F = 0. Proof. reflexivity. Qed.

  (** *** Building *)

  Definition pv (p : prod k a) (F : list (A a) -> K k) : K k := fst p * polys (snd p) F.
  Definition sv (st : sumst k a) (F : list (A a) -> K k) : K k := ksum (map (fun e => poly e F) (snd st)).
  Definition okp (p : prod k a) : Prop := Forall ok (snd p).
  Definition ci_ok (ci : option nat) (l : list E) : Prop :=
    match ci with None => True | Some j => exists z, nth_error l j = Some (EConst z) end.
  Definition oks (st : sumst k a) : Prop := ci_ok (fst st) (snd st) /\ Forall ok (snd st).
  Lemma ok_prod kd s fs : ok (EProd kd s fs) <-> Forall ok fs.
  Proof. apply fr_and. Qed.
  Lemma ok_sum ci ss : ok (ESum ci ss) <-> ci_ok ci ss /\ Forall ok ss.
  Proof. cbn [Expr_Spec.ok]. rewrite fr_and. reflexivity. Qed.

  (** The leaves are those that were there. *)
  Notation leaves := (leaves k (A a)).
  Definition lin_leaves (l : list E) : list (A a) := flat_map leaves l.

  Definition after (p : prod k a) (e : E) (q : prod k a) : Prop :=
    okp q /\ (forall F, pv q F = pv p (fun t => poly e (fun u => F (t ++ u)))) /\
    (forall y, In y (lin_leaves (snd q)) -> In y (lin_leaves (snd p)) \/ In y (leaves e)).

  Definition faithful (cl : E -> E) (n : nat) : Prop :=
    forall y, depth y <= n -> ok y -> ok (cl y) /\ (forall F, poly (cl y) F = poly y F) /\ incl (leaves (cl y)) (leaves y).

  Lemma pv_scale z p F : pv (scale k a z p) F = z * pv p F.
  Proof. destruct p as [s fs]. unfold pv, scale. cbn [fst snd]. generalize (polys fs F). intros x. ring. Qed.
  Lemma pv_push p e F : pv (push k a p e) F = pv p (fun t => poly e (fun u => F (t ++ u))).
  Proof. destruct p as [s fs]. unfold pv, push. cbn [fst snd]. rewrite (polys_app fs [e]). f_equal. apply polys_ext. intros t. apply polys_one. Qed.
  Lemma pv_ext p F G : (forall t, F t = G t) -> pv p F = pv p G.
  Proof. intros H. unfold pv. now rewrite (polys_ext _ _ G). Qed.
  Lemma pv_mul p c F : pv p (fun t => c * F t) = c * pv p F.
  Proof. unfold pv. rewrite polys_scale. ring. Qed.

  Lemma push_after cl p e : faithful cl (depth e) -> ok e -> okp p -> after p e (push k a p (cl e)).
  Proof.
    intros Hcl He Hp. destruct (Hcl e) as (H1 & H2 & H3); auto. split; [|split].
    - apply Forall_app. split; auto.
    - intros F. rewrite pv_push. apply pv_ext. intros t. apply H2.
    - intros y. unfold push, lin_leaves. cbn. rewrite flat_map_app, in_app_iff. cbn. rewrite app_nil_r. intros [|]; auto.
  Qed.

  Lemma append_fold (f : E -> prod k a -> prod k a) fs :
    (forall x p, In x fs -> okp p -> after p x (f x p)) ->
    forall p, okp p -> let q := fold_left (fun p x => f x p) fs p in
    okp q /\ (forall F, pv q F = pv p (fun t => polys fs (fun u => F (t ++ u)))) /\
    (forall y, In y (lin_leaves (snd q)) -> In y (lin_leaves (snd p)) \/ In y (flat_map leaves fs)).
  Proof.
    induction fs as [|x fs IH]; intros H p Hp; cbn [fold_left].
    - split; auto. split; auto. intros F. apply pv_ext. intros t. rewrite polys_nil, app_nil_r. auto.
    - destruct (H x p (or_introl eq_refl) Hp) as (H1 & H2 & H3).
      destruct (IH (fun y q Hy => H y q (or_intror Hy)) _ H1) as (H4 & H5 & H6). split; auto. split.
      + intros F. rewrite H5, H2. apply pv_ext. intros t. rewrite polys_cons. apply poly_ext. intros u. apply polys_ext. intros v. now rewrite app_assoc.
      + intros y Hy. cbn. rewrite in_app_iff. destruct (H6 y Hy) as [Q|Q]; auto. destruct (H3 y Q); auto.
  Qed.

  Lemma append_ok cl e : ok e -> faithful cl (depth e) -> forall t p, okp p -> after p e (append cl t e p).
  Proof.
    induction e as [z|y|kd s fs IH|ci ss IH|] using expr_ind'; intros Hok Hcl t p Hp; cbn [Expr_Model.append].
    - split; auto. split; auto. intros F. rewrite pv_scale, <- pv_mul. apply pv_ext. intros u. rewrite poly_const, app_nil_r. auto.
    - apply (push_after cl p (EAtom y)); auto.
    - assert (Hno : after p (EProd kd s fs) (push k a p (cl (EProd kd s fs)))) by (apply push_after; auto).
      assert (Hfl : forall t', after p (EProd kd s fs) (fold_left (fun p x => append cl t' x p) fs (scale k a s p))).
      { intros t'. apply ok_prod in Hok. rewrite Forall_forall in IH, Hok.
        destruct (append_fold (fun x p => append cl t' x p) fs) with (p := scale k a s p) as (H1 & H2 & H3); auto.
        - intros x q Hx Hq. apply IH; auto. intros y Hy. apply Hcl. pose proof (in_prod_depth k a _ kd s _ Hx). lia.
        - split; auto. split; auto. intros F. rewrite H2, pv_scale, <- pv_mul. apply pv_ext. intros u. rewrite poly_prod. auto. }
      destruct t; auto.
    - apply (push_after cl p (ESum ci ss)); auto.
    - destruct Hok.
  Qed.

  Lemma is_zero_poly e F : is_zero k a e = true -> poly e F = 0.
  Proof.
    destruct e as [z|y|kd s fs|ci ss|]; cbn; intros H; try discriminate.
    - apply EQ in H as ->. transitivity (0 * F []); [apply poly_const|ring].
    - rewrite NZ in H. discriminate.
    - apply EQ in H as ->. transitivity (0 * polys fs F); [apply (poly_prod kd)|ring].
  Qed.

  Lemma nth_split_at {X} j (l : list X) x : nth_error l j = Some x -> l = firstn j l ++ x :: skipn (S j) l.
  Proof. revert l; induction j; destruct l; cbn; intros H; try discriminate; [now inversion H|]. f_equal. exact (IHj _ H). Qed.
  Lemma nth_error_add_at j z l w : nth_error l j = Some (EConst w) ->
    add_at k a j z l = firstn j l ++ EConst (kadd k w z) :: skipn (S j) l.
  Proof.
    revert l; induction j; destruct l as [|x l]; cbn; intros H; try discriminate.
    - inversion H; subst. reflexivity. - now rewrite IHj.
  Qed.
  Lemma add_at_ok j z l : ci_ok (Some j) l -> Forall ok l ->
    ci_ok (Some j) (add_at k a j z l) /\ Forall ok (add_at k a j z l) /\
    (forall F, ksum (map (fun e => poly e F) (add_at k a j z l)) = ksum (map (fun e => poly e F) l) + z * F []) /\
    lin_leaves (add_at k a j z l) = lin_leaves l.
  Proof.
    intros [w Hw] Hl. rewrite (nth_error_add_at _ _ _ w Hw). pose proof (nth_split_at _ _ _ Hw) as Hs.
    assert (Hlen : length (firstn j l) = j) by (apply firstn_length_le; apply Nat.lt_le_incl, nth_error_Some; congruence).
    split; [|split; [|split]].
    - exists (kadd k w z). rewrite nth_error_app2 by lia. rewrite Hlen, Nat.sub_diag. reflexivity.
    - rewrite Hs in Hl. apply Forall_app in Hl as [H1 H2]. inversion H2; subst. apply Forall_app; split; auto.
    - intros F. rewrite Hs at 3. rewrite !map_app, !ksum_app. cbn [map Bin_Spec.ksum]. rewrite !poly_const. ring.
    - rewrite Hs at 3. unfold lin_leaves. rewrite !flat_map_app. reflexivity.
  Qed.
  Lemma ci_ok_app ci l m : ci_ok ci l -> ci_ok ci (l ++ m).
  Proof. destruct ci as [j|]; cbn; auto. intros [z Hz]. exists z. rewrite nth_error_app1; auto. apply nth_error_Some; congruence. Qed.

  Definition safter (st : sumst k a) (e : E) (st' : sumst k a) : Prop :=
    oks st' /\ (forall F, sv st' F = sv st F + poly e F) /\
    (forall y, In y (lin_leaves (snd st')) -> In y (lin_leaves (snd st)) \/ In y (leaves e)).

  Lemma sum_append_fold (f : E -> sumst k a -> sumst k a) fs :
    (forall x p, In x fs -> oks p -> safter p x (f x p)) ->
    forall p, oks p -> let q := fold_left (fun p x => f x p) fs p in
    oks q /\ (forall F, sv q F = sv p F + ksum (map (fun e => poly e F) fs)) /\
    (forall y, In y (lin_leaves (snd q)) -> In y (lin_leaves (snd p)) \/ In y (flat_map leaves fs)).
  Proof.
    induction fs as [|x fs IH]; intros H p Hp; cbn [fold_left].
    - split; auto. split; auto. intros F. cbn. ring.
    - destruct (H x p (or_introl eq_refl) Hp) as (H1 & H2 & H3).
      destruct (IH (fun y q Hy => H y q (or_intror Hy)) _ H1) as (H4 & H5 & H6). split; auto. split.
      + intros F. rewrite H5, H2. cbn. ring.
      + intros y Hy. cbn. rewrite in_app_iff. destruct (H6 y Hy) as [Q|Q]; auto. destruct (H3 y Q); auto.
  Qed.

  Lemma spush_after cl st e : faithful cl (depth e) -> ok e -> oks st -> safter st e (fst st, snd st ++ [cl e]).
  Proof.
    intros Hcl He [H1 H2]. destruct (Hcl e) as (H3 & H4 & H5); auto. split; [|split].
    - split; cbn; [now apply ci_ok_app|]. apply Forall_app. auto.
    - intros F. unfold sv. cbn [snd]. rewrite map_app, ksum_app. cbn. rewrite H4. ring.
    - intros y. unfold lin_leaves. cbn. rewrite flat_map_app, in_app_iff. cbn. rewrite app_nil_r. intros [|]; auto.
  Qed.

  Lemma zero_after st e : oks st -> is_zero k a e = true -> safter st e st.
  Proof. intros H Z. split; auto. split; auto. intros F. rewrite is_zero_poly by auto. ring. Qed.

  Lemma sum_append_ok cl e : ok e -> faithful cl (depth e) -> forall st, oks st -> safter st e (sum_append cl e st).
  Proof.
    induction e as [z|y|kd s fs IH|ci ss IH|] using expr_ind'; intros Hok Hcl st Hst; cbn [Expr_Model.sum_append].
    - destruct (is_zero k a (EConst z)) eqn:Hz; [apply zero_after; auto|].
      destruct st as [ci l]; cbn [fst snd]. destruct ci as [j|]; cbn [fst snd].
      + destruct Hst as [H1 H2]; cbn [fst snd] in *. destruct (add_at_ok j z l H1 H2) as (H3 & H4 & H5 & H6). split; [split; auto|]. split.
        * intros F. unfold sv. cbn [snd]. rewrite H5, poly_const. auto.
        * cbn [snd]. rewrite H6. auto.
      + split; [|split].
        * destruct Hst as [H1 H2]; cbn [fst snd] in *. split; cbn [fst snd].
          -- exists z. rewrite nth_error_app2, Nat.sub_diag; auto. -- apply Forall_app; split; auto.
        * intros F. unfold sv. cbn [snd]. rewrite map_app, ksum_app. cbn. ring.
        * intros y. unfold lin_leaves. cbn. rewrite flat_map_app, in_app_iff. cbn. intros [|[]]; auto.
    - cbn [is_zero]. rewrite NZ. apply (spush_after cl st (EAtom y)); auto.
    - destruct (is_zero k a (EProd kd s fs)) eqn:Hz; [apply zero_after; auto|]. apply (spush_after cl st (EProd kd s fs)); auto.
    - apply ok_sum in Hok as [_ Hok]. rewrite Forall_forall in IH, Hok.
      destruct (sum_append_fold (fun x st => sum_append cl x st) ss) with (p := st) as (H1 & H2 & H3); auto.
      + intros x q Hx Hq. apply IH; auto. intros y Hy. apply Hcl. pose proof (in_sum_depth k a _ ci _ Hx). lia.
      + split; auto. split; auto. intros F. rewrite H2, poly_sum. auto.
    - destruct Hok.
  Qed.

  Lemma clone_ok e : ok e -> ok (clone e) /\ (forall F, poly (clone e) F = poly e F) /\ incl (leaves (clone e)) (leaves e).
  Proof.
    induction e as [e IH] using (depth_ind k a). intros Hok. destruct e as [z|y|kd s fs|ci ss|].
    - split; auto. split; auto. intros ? H; exact H.
    - split; auto. split; auto. intros ? H; exact H.
    - rewrite clone_prod. cbn zeta. apply ok_prod in Hok. rewrite Forall_forall in Hok.
      destruct (append_fold (fun x p => append clone FNo (clone x) p) fs) with (p := (s, @nil E)) as (H1 & H2 & H3).
      + intros x p Hx Hp. pose proof (in_prod_depth k a _ kd s _ Hx) as Hd.
        destruct (IH x Hd (Hok x Hx)) as (H3 & H4 & H5).
        destruct (append_ok clone (clone x) H3) with (t := FNo) (p := p) as (Q1 & Q2 & Q3); auto.
        { intros y Hy. apply IH. pose proof (clone_depth k a x). lia. }
        split; auto. split. * intros F. rewrite Q2. apply pv_ext. intros t. apply H4. * intros y Hy. destruct (Q3 y Hy); auto.
      + constructor.
      + split; [apply ok_prod; exact H1|]. split.
        * intros F. rewrite !poly_prod. specialize (H2 F). unfold pv in H2 at 1. rewrite H2. unfold pv. cbn [fst snd]. rewrite polys_nil. reflexivity.
        * intros y Hy. cbn in Hy |- *. destruct (H3 y Hy) as [[]|Q]; auto.
    - rewrite clone_sum. cbn zeta. apply ok_sum in Hok as [_ Hok]. rewrite Forall_forall in Hok.
      destruct (sum_append_fold (fun x p => sum_append clone (clone x) p) ss) with (p := (@None nat, @nil E)) as (H1 & H2 & H3).
      + intros x p Hx Hp. pose proof (in_sum_depth k a _ ci _ Hx) as Hd.
        destruct (IH x Hd (Hok x Hx)) as (H3 & H4 & H5).
        destruct (sum_append_ok clone (clone x) H3) with (st := p) as (Q1 & Q2 & Q3); auto.
        { intros y Hy. apply IH. pose proof (clone_depth k a x). lia. }
        split; auto. split. * intros F. rewrite Q2, H4. auto. * intros y Hy. destruct (Q3 y Hy); auto.
      + split; cbn; auto.
      + split; [apply ok_sum; exact H1|]. split.
        * intros F. rewrite !poly_sum. specialize (H2 F). unfold sv in H2. cbn [snd map Bin_Spec.ksum] in H2. rewrite H2. cbn. ring.
        * intros y Hy. cbn in Hy |- *. destruct (H3 y Hy) as [[]|Q]; auto.
    - destruct Hok.
  Qed.
  Lemma faithful_clone n : faithful clone n.
  Proof. intros y _ Hy. now apply clone_ok. Qed.
  Lemma append_clone t e p : ok e -> okp p -> after p e (append clone t e p).
  Proof. intros He Hp. apply append_ok; auto. apply faithful_clone. Qed.

  Lemma mk_sum_ok ss : Forall ok ss -> ok (mk_sum k a ss) /\ (forall F, poly (mk_sum k a ss) F = ksum (map (fun e => poly e F) ss)) /\
    incl (leaves (mk_sum k a ss)) (flat_map leaves ss).
  Proof.
    intros H. rewrite Forall_forall in H. unfold mk_sum.
    destruct (sum_append_fold (fun x st => sum_append clone x st) ss) with (p := (@None nat, @nil E)) as (H1 & H2 & H3).
    - intros x p Hx Hp. apply sum_append_ok; auto. apply faithful_clone.
    - split; cbn; auto.
    - split; [apply ok_sum; exact H1|]. split.
      + intros F. rewrite poly_sum. specialize (H2 F). unfold sv in H2. cbn [snd map Bin_Spec.ksum] in H2. rewrite H2. ring.
      + intros y Hy. destruct (H3 y Hy) as [[]|Q]; auto.
  Qed.
  Lemma mk_prod_ok kd s t fs : Forall ok fs -> ok (mk_prod k a kd s t fs) /\ (forall F, poly (mk_prod k a kd s t fs) F = s * polys fs F) /\
    incl (leaves (mk_prod k a kd s t fs)) (flat_map leaves fs).
  Proof.
    intros H. rewrite Forall_forall in H. unfold mk_prod.
    destruct (append_fold (fun x p => append clone t x p) fs) with (p := (s, @nil E)) as (H1 & H2 & H3).
    - intros x p Hx Hp. apply append_clone; auto.
    - constructor.
    - split; [apply ok_prod; exact H1|]. split.
      + intros F. rewrite poly_prod. specialize (H2 F). unfold pv in H2 at 1. rewrite H2. unfold pv. cbn [fst snd]. rewrite polys_nil. reflexivity.
      + intros y Hy. destruct (H3 y Hy) as [[]|Q]; auto.
  Qed.
  (** The product of an expression that is not a constant or the left factor is a product, and of an
      expression that is not a product. *)
  Lemma times_ok x y : ok x -> ok y -> is_const k a y = false -> is_prod k a y = false ->
    ok (times k a x y) /\ (forall F, poly (times k a x y) F = poly x (fun t => poly y (fun u => F (t ++ u)))) /\
    incl (leaves (times k a x y)) (leaves x ++ leaves y).
  Proof.
    intros Hx Hy Ny Py. unfold times.
    assert (G : ok (mk_prod k a PPlain 1 FRec [x; y]) /\ (forall F, poly (mk_prod k a PPlain 1 FRec [x; y]) F = poly x (fun t => poly y (fun u => F (t ++ u)))) /\
      incl (leaves (mk_prod k a PPlain 1 FRec [x; y])) (leaves x ++ leaves y)).
    { destruct (mk_prod_ok PPlain 1 FRec [x; y]) as (H1 & H2 & H3); [repeat constructor; auto|]. split; auto. split.
      - intros F. rewrite H2, polys_cons. ring_simplify. apply poly_ext. intros t. apply polys_one.
      - intros z Hz. apply H3 in Hz. cbn in Hz. rewrite app_nil_r in Hz. auto. }
    assert (P : is_prod k a x = true -> ok (product_append k a 1 y FRec (clone x)) /\ (forall F, poly (product_append k a 1 y FRec (clone x)) F = poly x (fun t => poly y (fun u => F (t ++ u)))) /\
      incl (leaves (product_append k a 1 y FRec (clone x))) (leaves x ++ leaves y)).
    { destruct x as [| |kd s fs| |]; cbn [is_prod]; try discriminate. intros _. destruct (clone_ok _ Hx) as (C1 & C2 & C3).
      destruct (clone (EProd kd s fs)) as [| |kd' s' fs'| |] eqn:Ec; try (rewrite clone_prod in Ec; discriminate).
      apply ok_prod in C1. cbn [product_append]. destruct (append_clone FRec y (scale k a 1 (s', fs')) Hy C1) as (Q1 & Q2 & Q3).
      split; [apply ok_prod; exact Q1|]. split.
      - intros F. rewrite poly_prod. specialize (Q2 F). unfold pv in Q2 at 1. rewrite Q2, pv_scale. rewrite <- C2, poly_prod. unfold pv. cbn [fst snd]. ring.
      - intros z Hz. apply in_app_iff. destruct (Q3 z Hz) as [Q|Q]; auto. }
    destruct x as [zx|ax|kd s fs|ci ss|]; destruct y as [zy|ay|kd' s' fs'|ci' ss'|]; cbn [is_prod is_const negb andb] in *; try discriminate; auto.
  Qed.
  Lemma minus_ok x y : ok x -> ok y -> is_sum k a x = false -> is_const k a y = false ->
    ok (minus k a x y) /\ (forall F, poly (minus k a x y) F = poly x F + - poly y F) /\ incl (leaves (minus k a x y)) (leaves x ++ leaves y).
  Proof.
    intros Hx Hy Sx Ny. unfold minus. rewrite Sx. cbn [negb].
    assert (N : ok (negated k a y) /\ (forall F, poly (negated k a y) F = - poly y F) /\ incl (leaves (negated k a y)) (leaves y)).
    { unfold negated. destruct (mk_prod_ok PPlain (- (1)) FRec [y]) as (Q1 & Q2 & Q3); [repeat constructor; auto|].
      assert (R : (forall F, poly (mk_prod k a PPlain (- (1)) FRec [y]) F = - poly y F)) by (intros F; rewrite Q2, polys_one; ring).
      assert (R' : incl (leaves (mk_prod k a PPlain (- (1)) FRec [y])) (leaves y)) by (intros z Hz; apply Q3 in Hz; cbn in Hz; rewrite app_nil_r in Hz; auto).
      destruct y; try discriminate; auto. }
    destruct N as (N1 & N2 & N3). destruct (mk_sum_ok [x; negated k a y]) as (H1 & H2 & H3); [repeat constructor; auto|]. split; auto. split.
    - intros F. rewrite H2. cbn. rewrite N2. ring.
    - intros z Hz. apply H3 in Hz. cbn in Hz. rewrite app_nil_r in Hz. apply in_app_iff in Hz. apply in_app_iff. destruct Hz; auto.
  Qed.
End Poly.
