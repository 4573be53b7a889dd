(** Theorems on the rules that factorize tensors. *)
From Coq Require Import List Bool Arith ZArith Lia Ring_theory.
From Verif Require Import Idx_Model Bin_Spec Bin_Sums Expr_Model Expr_Spec Expr_Proofs1 Df_Model Df_Spec Df_Poly Df_Proofs Df_Proofs2 Df_Proofs3.
Import ListNotations.

Section Props.
  Variable k : kops.
  Hypothesis HK : scalars k.
  Variables (protos : idx -> list idx) (dom : idx -> list nat).
  Variable tv : nat -> symm -> list (list nat) -> list (list nat) -> list (list nat) -> K k.
  Variable ov : nat -> list (list nat) -> K k.
  Notation E := (expr (K k) atom).
  Notation ok := (@Expr_Spec.ok k (leaf_ops k)).
  Notation meaning := (meaning k protos dom tv ov).
  Notation uses := (uses k protos).
  Notation leaves := (leaves k atom).

  (** C95: density fitting keeps the value of every expression if the tensors [g] are the sums that the
      rule writes for them and the auxiliary indices are not yet used. *)
  Theorem C95_density_fit : forall (aux : nat -> idx) (D : list nat) (g b : nat) (ext : list idx) (e : E),
    fresh_indices protos dom D aux -> fitted k tv g b D ->
    ok e -> (forall n, ~ uses (aux n) e) -> (forall n, ~ In (aux n) ext) ->
    ok (density_fit k aux g b e) /\ forall r, meaning ext (density_fit k aux g b e) r = meaning ext e r.
  Proof.
    destruct HK as ((ksub & RT) & EQ). intros aux D g b ext e (F1 & F2 & F3) Hg Hok Hu He.
    destruct (density_fit_ok k ksub RT EQ protos dom tv ov aux D F1 F2 F3 g b Hg e Hok) as (H1 & H2).
    { intros n Q. apply (Hu n). exact (proj2 (uses_eixs k protos (aux n) e) Q). }
    split; auto. intros r. apply (ceq_meaning k protos dom tv ov (later aux 0)); auto. intros x (m & _ & ->). apply He.
  Qed.

  (** C95: in sums of products of leaves all these tensors are replaced. *)
  Theorem C95_all_fitted : forall (aux : nat -> idx) (g b : nat) (e : E) (y : atom),
    ok e -> sum_of_products e -> In y (leaves (density_fit k aux g b e)) -> ~ to_fit g y.
  Proof.
    destruct HK as ((ksub & RT) & EQ). intros aux g b e y.
    assert (DT : forall s p1 p2 q1 q2 x, let e := df_tensor k b s [p1; p2] [q1; q2] [] x in ok e /\ forall y, In y (leaves e) -> ~ to_fit g y).
    { intros s p1 p2 q1 q2 x.
      assert (T : forall p q p' q', let e := times k (leaf_ops k) (EAtom (Ten b Nonsymm [p] [q] [x])) (EAtom (Ten b Nonsymm [p'] [q'] [x])) in ok e /\ forall y, In y (leaves e) -> ~ to_fit g y).
      { intros p q p' q'. destruct (times_atoms k ksub RT EQ (Ten b Nonsymm [p] [q] [x]) (Ten b Nonsymm [p'] [q'] [x])) as (T1 & _ & T3). split; auto.
        intros y0 Hy. apply T3 in Hy. destruct Hy as [<-|[<-|[]]]; intros (_ & Q & _); discriminate. }
      destruct s; cbn [df_tensor]; try apply T.
      destruct (T p1 q1 p2 q2) as [A1 A2]. destruct (T p2 q1 p1 q2) as [B1 B2].
      destruct (minus_ok k ksub RT EQ (leaf_ops k) (fun _ => eq_refl) _ _ A1 B1) as (M1 & _ & M3); [apply times_sum|apply times_const|].
      split; auto. intros y0 Hy. apply M3 in Hy. apply in_app_iff in Hy as [Hy|Hy]; auto. }
    assert (DP : forall t n, match df_process k aux g b t n with Some e => ok e /\ forall y, In y (leaves e) -> ~ to_fit g y | None => ~ to_fit g t end).
    { intros t n. destruct (df_process k aux g b t n) as [e0|] eqn:Ep.
      - apply df_process_some in Ep as (s & p1 & p2 & q1 & q2 & -> & ->). apply DT.
      - destruct t as [l s bra ket ax|]; [|intros []]. intros (-> & H1 & H2 & ->). cbn in Ep. rewrite Nat.eqb_refl, H1, H2 in Ep. discriminate. }
    revert y. induction e as [z|x|kd s fs IH|ci ss IH|] using expr_ind'; intros y Hok Hs Hy.
    - destruct Hy.
    - cbn [density_fit] in Hy. specialize (DP x 1). destruct (df_process k aux g b x 1) as [e0|]; [apply DP; auto|]. destruct Hy as [<-|[]]; auto.
    - cbn [sum_of_products] in Hs.
      assert (St : forall n f, In f fs -> ok (fst (fst (df_step k aux g b n f))) /\ forall y, In y (leaves (fst (fst (df_step k aux g b n f)))) -> ~ to_fit g y).
      { intros n f Hf. apply ok_prod in Hok. rewrite Forall_forall in Hok. specialize (Hs f Hf). specialize (Hok f Hf). destruct f as [z|[l s' bra ket ax|m ix]|? ? ?|? ?|]; try (destruct Hs; fail).
        - split; [exact Hok|intros ? []].
        - unfold df_step. specialize (DP (Ten l s' bra ket ax) (S n)). destruct (df_process k aux g b (Ten l s' bra ket ax) (S n)) as [e0|]; cbn [fst]; auto. split; [exact I|]. intros y0 [<-|[]]. exact DP.
        - split; [exact Hok|]. intros y0 [<-|[]]. intros []. }
      cbn [density_fit built fst Df_Spec.leaves] in Hy.
      destruct (build_leaves k ksub RT EQ (df_step k aux g b) fs (fun n f Hf => proj1 (St n f Hf)) 0 (scale k (leaf_ops k) s (k1 k, [])) (Forall_nil _) y Hy) as [[]|(st & f & Hf & Q)].
      apply (proj2 (St st f Hf) y Q).
    - cbn [density_fit sum_of_products] in *. apply fr_and in Hs. apply ok_sum in Hok as [_ Hok]. rewrite Forall_forall in IH, Hok, Hs.
      assert (Hall : forall x, In x ss -> ok (density_fit k aux g b x)).
      { intros x Hx. specialize (Hs x Hx). specialize (Hok x Hx). clear - RT EQ DP DT Hs Hok. induction x as [z|x|kd s fs IH|ci ss IH|] using expr_ind'.
        - exact I.
        - cbn [density_fit]. specialize (DP x 1). destruct (df_process k aux g b x 1); [apply DP|exact I].
        - cbn [density_fit built fst]. apply ok_prod. apply ok_prod in Hok. cbn [sum_of_products] in Hs.
          assert (B : forall fs n p, (forall f, In f fs -> ok f) -> (forall f, In f fs -> simple f) -> okp k (leaf_ops k) p -> okp k (leaf_ops k) (fst (build k (df_step k aux g b) n fs p))).
          { clear fs IH Hok Hs. induction fs as [|f fs IHf]; intros n p H1 H2 H3; [exact H3|].
            change (build k (df_step k aux g b) n (f :: fs) p) with (let '(g', tag, st') := df_step k aux g b n f in build k (df_step k aux g b) st' fs (append k (leaf_ops k) (Expr_Model.clone k (leaf_ops k)) tag g' (scale k (leaf_ops k) (k1 k) p))).
            assert (Q : ok (fst (fst (df_step k aux g b n f)))).
            { specialize (H2 f (or_introl eq_refl)). destruct f as [z|[l s' bra ket ax|m ix]|? ? ?|? ?|]; try (destruct H2; fail); try exact I.
              unfold df_step. specialize (DP (Ten l s' bra ket ax) (S n)). destruct (df_process k aux g b (Ten l s' bra ket ax) (S n)); [apply DP|exact I]. }
            destruct (df_step k aux g b n f) as [[g' tag] st']. cbn [fst] in Q. apply IHf; [intros; apply H1; right; auto|intros; apply H2; right; auto|].
            apply (append_clone k ksub RT EQ (leaf_ops k) (fun _ => eq_refl) tag g' (scale k (leaf_ops k) (k1 k) p) Q H3). }
          apply B; auto. apply Forall_forall. exact Hok. constructor.
        - cbn [density_fit sum_of_products] in *. apply fr_and in Hs. apply ok_sum in Hok as [_ Hok]. rewrite Forall_forall in IH, Hok, Hs.
          apply (mk_sum_ok k ksub RT EQ (leaf_ops k) (fun _ => eq_refl)). apply Forall_forall. intros y Hy. apply in_map_iff in Hy as (x & <- & Hx). apply IH; auto.
        - destruct Hok. }
      destruct (mk_sum_ok k ksub RT EQ (leaf_ops k) (fun _ => eq_refl) (map (density_fit k aux g b) ss)) as (_ & _ & M).
      { apply Forall_forall. intros x Hx. apply in_map_iff in Hx as (x' & <- & Hx). auto. }
      apply M in Hy. apply in_flat_map in Hy as (x & Hx & Hy). apply in_map_iff in Hx as (x' & <- & Hx). apply (IH x' Hx y (Hok x' Hx) (Hs x' Hx) Hy).
    - destruct Hok.
  Qed.

  (** C96: tensor hypercontraction keeps the value, if tensors [g] within products have four slots. *)
  Theorem C96_hypercontract_partial : forall (aux : nat -> idx) (D : list nat) (g b z : nat) (ext : list idx) (e : E),
    fresh_indices protos dom D aux -> hypercontracted k tv g b z D ->
    ok e -> thc_ranks g e -> (forall n, ~ uses (aux n) e) -> (forall n, ~ In (aux n) ext) ->
    ok (tensor_hypercontract k aux g b z e) /\ forall r, meaning ext (tensor_hypercontract k aux g b z e) r = meaning ext e r.
  Proof.
    destruct HK as ((ksub & RT) & EQ). intros aux D g b z ext e (F1 & F2 & F3) Hg Hok Hr Hu He.
    destruct (hypercontract_ok k ksub RT EQ protos dom tv ov aux D F1 F2 F3 g b z Hg e Hok Hr) as (H1 & H2).
    { intros n Q. apply (Hu n). exact (proj2 (uses_eixs k protos (aux n) e) Q). }
    split; auto. intros r. apply (ceq_meaning k protos dom tv ov (later aux 0)); auto. intros x (m & _ & ->). apply He.
  Qed.

  (** C97: expanding the slots with protoindices keeps the value and removes all of them, at any depth.
      Missing: overlaps with two such slots within products, if the basis is orthonormal. *)
  Theorem C97_csv_partial : forall (tmp : nat -> idx) (drop : idx -> idx) (ordinal_less : idx -> idx -> bool) (D : list nat)
      (orthonormal : bool) (o c : nat) (labels : list nat) (ext : list idx) (e : E) (n : nat),
    fresh_indices protos dom D tmp -> expands k tv labels c D -> (orthonormal = true -> overlaps k tv o c D) ->
    ok e -> Forall (expandable protos orthonormal o labels) (leaves e) ->
    (forall m, n <= m -> ~ uses (tmp m) e) -> (forall m, n <= m -> ~ In (tmp m) ext) ->
    exists e', fst (csv_transform k protos drop ordinal_less tmp orthonormal o c labels e n) = Some e' /\ ok e' /\
      forall r, meaning ext e' r = meaning ext e r.
  Proof.
    destruct HK as ((ksub & RT) & EQ). intros tmp drop ordinal_less D orthonormal o c labels ext e n (F1 & F2 & F3) Hx Ho Hok He Hu Hext.
    destruct (csv_ok k ksub RT EQ protos dom tv ov tmp D F1 F2 F3 labels o c drop ordinal_less orthonormal Hx Ho e Hok He n) as (e' & H1 & H2 & _ & H4 & _).
    { intros x (m & Hm & ->) Q. apply (Hu m Hm). exact (proj2 (uses_eixs k protos (tmp m) e) Q). }
    exists e'. split; auto. split; auto. intros r. apply (ceq_meaning k protos dom tv ov (from tmp n)); auto. intros x (m & Hm & ->). auto.
  Qed.
  Theorem C97_all_expanded : forall (tmp : nat -> idx) (drop : idx -> idx) (ordinal_less : idx -> idx -> bool) (D : list nat)
      (orthonormal : bool) (o c : nat) (labels : list nat) (e : E) (n : nat) (e' : E),
    fresh_indices protos dom D tmp -> expands k tv labels c D -> (orthonormal = true -> overlaps k tv o c D) -> ~ In c labels ->
    ok e -> Forall (expandable protos orthonormal o labels) (leaves e) -> (forall m, ~ uses (tmp m) e) ->
    fst (csv_transform k protos drop ordinal_less tmp orthonormal o c labels e n) = Some e' ->
    forall l s bra ket ax i, In (Ten l s bra ket ax) (leaves e') -> In l labels -> In i (bra ++ ket) -> protos i = [].
  Proof.
    destruct HK as ((ksub & RT) & EQ). intros tmp drop ordinal_less D orthonormal o c labels e n e' (F1 & F2 & F3) Hx Ho Hc Hok He Hu H l s bra ket ax i Hin Hl Hi.
    refine (csv_plain k ksub RT EQ protos dom tv ov tmp D F1 F2 F3 labels o c drop ordinal_less orthonormal Hx Ho Hc e Hok He _ n e' H (Ten l s bra ket ax) Hin Hl i Hi).
    intros m Q. apply (Hu m). exact (proj2 (uses_eixs k protos (tmp m) e) Q).
  Qed.
  (** C97: a single overlap, if the index that sums is not one of its own. *)
  Theorem C97_overlap : forall (tmp : nat -> idx) (drop : idx -> idx) (ordinal_less : idx -> idx -> bool) (D : list nat)
      (o c : nat) (labels : list nat) (ext : list idx) (s : symm) (p q : idx) (n : nat),
    fresh_indices protos dom D tmp -> overlaps k tv o c D -> In o labels -> protos p <> [] -> protos q <> [] ->
    let d := if ordinal_less p q then drop p else drop q in
    protos d = [] -> dom d = D -> ~ In d ext -> ~ In d (indices protos (Ten o s [p] [q] [])) ->
    exists e', fst (csv_transform k protos drop ordinal_less tmp true o c labels (EAtom (Ten o s [p] [q] [])) n) = Some e' /\
      ok e' /\ forall r, meaning ext e' r = meaning ext (EAtom (Ten o s [p] [q] [])) r.
  Proof.
    destruct HK as ((ksub & RT) & EQ). intros tmp drop ordinal_less D o c labels ext s p q n (F1 & _ & _) Ho Hl Hp Hq d Hd Dd Ne Nd.
    destruct (csv_overlap k ksub RT EQ protos dom tv ov tmp D F1 labels o c drop ordinal_less true (fun _ => Ho) s p q Hl eq_refl Hp Hq Hd Dd Nd n) as (e' & H1 & H2 & H3).
    exists e'. rewrite H1. split; auto. split; auto. intros r. apply (ceq_meaning k protos dom tv ov (fun x => x = d)); auto. intros x ->. exact Ne.
  Qed.
End Props.

Module DfExamples.
  Definition kz : kops := mkkops Z 0%Z 1%Z Z.add Z.mul Z.opp (fun z => z) Z.eqb.
  Lemma kz_scalars : scalars kz.
  Proof.
    split; [exists Z.sub|intros x y; apply Z.eqb_eq]. exact InitialRing.Zth.
  Qed.
  Local Open Scope Z_scope.
  Definition hd (l : list nat) : Z := match l with v :: _ => Z.of_nat v | [] => 0 end.
  Definition delta (x y : list nat) : Z := if hd x =? hd y then 1 else 0.
  (** Slots of the tensor [6]; of those with protoindices only the values in the basis count. *)
  Definition phi (x : list nat) : Z := match x with [y] => Z.of_nat y + 1 | v :: _ => if (v <? 2)%nat then Z.of_nat v + 1 else 0 | [] => 1 end.
  Definition all (l : list (list nat)) : Z := fold_right (fun x acc => phi x * acc) 1 l.
  Definition B (p q x : list nat) : Z := hd p + 2 * hd q + 3 * hd x + 1.
  Definition X (b q x : list (list nat)) : Z := match b, q, x with [p], [], [x] => hd p + hd x + 1 | [], [q], [x] => 2 * hd q + hd x + 1 | _, _, _ => 1 end.
  Definition Zc (x y : list nat) : Z := hd x + 3 * hd y + 1.
  Definition D : list nat := [0%nat; 1%nat].
  (** Labels: 0 and 1 are integrals, 2 is their factor; 5 is an integral, 4 and 3 its factor and core;
      6 is expanded with 7; 8 is the overlap. *)
  Definition tv (l : nat) (s : symm) (b q x : list (list nat)) : Z :=
    match l, b, q, x with
    | 2%nat, [p], [q], [x] => B p q x
    | 0%nat, [p1; p2], [q1; q2], [] | 1%nat, [p1; p2], [q1; q2], [] =>
        total kz D (fun x => match s with Antisymm => B p1 q1 [x] * B p2 q2 [x] + - (B p2 q1 [x] * B p1 q2 [x]) | _ => B p1 q1 [x] * B p2 q2 [x] end)
    | 3%nat, [], [], [x; y] => Zc x y
    | 4%nat, b, q, x => X b q x
    | 5%nat, [p1; p2], [q1; q2], [] =>
        total kz D (fun x => total kz D (fun y =>
          let f p q p' q' := X [p] [] [[x]] * (X [] [q] [[x]] * (Zc [x] [y] * (X [p'] [] [[y]] * X [] [q'] [[y]]))) in
          match s with Antisymm => f p1 q1 p2 q2 + - f p2 q1 p1 q2 | _ => f p1 q1 p2 q2 end))
    | 6%nat, b, q, x => all b * all q
    | 7%nat, [p], [q], [] => delta p q
    | 8%nat, [p], [q], [] => match p, q with _ :: _ :: _, _ :: _ :: _ => total kz D (fun y => delta p [y] * delta [y] q) | _, _ => delta p q end
    | _, _, _, _ => 1
    end.
  Definition ov (n : nat) (ix : list (list nat)) : Z := 1.

  Example fitted_example : fitted kz tv 0 2 D /\ fitted kz tv 1 2 D.
  Proof. split; intros [] p1 p2 q1 q2; reflexivity. Qed.
  Example hypercontracted_example : hypercontracted kz tv 5 4 3 D.
  Proof. intros [] p1 p2 q1 q2; reflexivity. Qed.
  Lemma all_app b v vs b2 : all (b ++ (v :: vs) :: b2) = all b * phi (v :: vs) * all b2.
  Proof. unfold all. induction b as [|x b IH]; cbn [app fold_right]; [ring|]. rewrite IH. ring. Qed.
  Lemma phi_sum v vs : vs <> [] -> phi (v :: vs) = delta (v :: vs) [0%nat] * phi [0%nat] + delta (v :: vs) [1%nat] * phi [1%nat].
  Proof.
    intros H. destruct vs as [|w vs]; [congruence|]. unfold delta, phi, hd. destruct v as [|[|v]]; [reflexivity|reflexivity|].
    replace (Z.of_nat (S (S v)) =? Z.of_nat 0) with false by (symmetry; apply Z.eqb_neq; lia).
    replace (Z.of_nat (S (S v)) =? Z.of_nat 1) with false by (symmetry; apply Z.eqb_neq; lia). reflexivity.
  Qed.
  Lemma delta_sym x y : delta x y = delta y x.
  Proof. unfold delta. now rewrite Z.eqb_sym. Qed.
  Example expands_example : expands kz tv [6%nat] 7 D.
  Proof.
    intros l s [<-|[]]. split; intros.
    - change (all (b1 ++ (v :: vs) :: b2) * all q = delta (v :: vs) [0%nat] * (all (b1 ++ [0%nat] :: b2) * all q) + (delta (v :: vs) [1%nat] * (all (b1 ++ [1%nat] :: b2) * all q) + 0)).
      rewrite !all_app, phi_sum by auto. ring.
    - change (all b * all (q1 ++ (v :: vs) :: q2) = delta [0%nat] (v :: vs) * (all b * all (q1 ++ [0%nat] :: q2)) + (delta [1%nat] (v :: vs) * (all b * all (q1 ++ [1%nat] :: q2)) + 0)).
      rewrite !all_app, phi_sum, !(delta_sym _ (v :: vs)) by auto. ring.
  Qed.
  Example overlaps_example : overlaps kz tv 8 7 D.
  Proof. intros s v vs w ws. split; [|split]; intros; destruct vs; destruct ws; try congruence; try reflexivity. Qed.

  Definition protos (x : idx) : list idx := if (10 <=? x)%nat && (x <? 20)%nat then [30%nat] else [].
  Definition dom (x : idx) : list nat := D.
  Definition aux (n : nat) : idx := (100 + n)%nat.
  Example fresh_example : fresh_indices protos dom D aux.
  Proof. split; [|split]; unfold aux; intros; [lia|reflexivity|]. unfold protos. replace (100 + n <? 20)%nat with false; [now rewrite andb_false_r|]. symmetry. apply Nat.ltb_ge. lia. Qed.

  Definition g (l : nat) (s : symm) (p q r t : idx) : expr Z atom := EAtom (Ten l s [p; q] [r; t] []).
  (** -2 g{1 2;3 4} h{3 4;1 5} g{5 6;2 6} *)
  Definition prod3 : expr Z atom := EProd PPlain (-2) [g 0 Antisymm 1 2 3 4; g 1 Nonsymm 3 4 1 5; g 0 Nonsymm 5 6 2 6]%nat.

  Example C95_example :
    exists e', density_fit kz aux 0 2 (ESum None [prod3; g 0 Nonsymm 1 2 1 2]%nat) = e' /\
      meaning kz protos dom tv ov [] e' (fun _ => 0%nat) = meaning kz protos dom tv ov [] (ESum None [prod3; g 0 Nonsymm 1 2 1 2]%nat) (fun _ => 0%nat) /\
      forall y, In y (leaves kz atom e') -> ~ to_fit 0 y.
  Proof.
    eexists. split; [reflexivity|].
    assert (Hok : @Expr_Spec.ok kz (leaf_ops kz) (ESum None [prod3; g 0 Nonsymm 1 2 1 2]%nat)) by (cbn; tauto).
    split.
    - apply (proj2 (C95_density_fit kz kz_scalars protos dom tv ov aux D 0 2 [] _ fresh_example (proj1 fitted_example) Hok
        ltac:(intros n (y & Hy & Hx); cbn in Hy; unfold aux in Hx; repeat (destruct Hy as [<-|Hy]; [cbn in Hx; intuition lia|]); destruct Hy) ltac:(intros n []))).
    - intros y Hy. refine (C95_all_fitted kz kz_scalars aux 0 2 _ y Hok _ Hy).
      cbn. repeat split; auto. intros f Hf. repeat (destruct Hf as [<-|Hf]; [exact I|]). destruct Hf.
  Qed.

  (** Factors that are sums or products are not looked into. *)
  Theorem C95_nested_refuted : exists (e : expr Z atom) (y : atom), @Expr_Spec.ok kz (leaf_ops kz) e /\
    (forall n, ~ uses kz protos (aux n) e) /\ In y (leaves kz atom (density_fit kz aux 0 2 e)) /\ to_fit 0 y.
  Proof.
    exists (EProd PPlain 1%Z [EAtom (Ten 9 Nonsymm [3] [1] []); ESum None [g 0 Nonsymm 1 2 3 4; g 1 Nonsymm 1 2 3 4]])%nat, (Ten 0 Nonsymm [1; 2] [3; 4] [])%nat.
    split; [cbn; tauto|]. split; [|split].
    - intros n (y & Hy & Hx). cbn in Hy. unfold aux in Hx. repeat (destruct Hy as [<-|Hy]; [cbn in Hx; intuition lia|]). destruct Hy.
    - vm_compute. tauto.
    - cbn. auto.
  Qed.

  (** Fitting a second kind of tensor uses indices that the first pass has introduced. *)
  Theorem C95_twice_refuted : exists (e : expr Z atom), @Expr_Spec.ok kz (leaf_ops kz) e /\
    fresh_indices protos dom D aux /\ fitted kz tv 0 2 D /\ fitted kz tv 1 2 D /\ (forall n, ~ uses kz protos (aux n) e) /\
    meaning kz protos dom tv ov [] (density_fit kz aux 0 2 e) (fun _ => 0%nat) = meaning kz protos dom tv ov [] e (fun _ => 0%nat) /\
    meaning kz protos dom tv ov [] (density_fit kz aux 1 2 (density_fit kz aux 0 2 e)) (fun _ => 0%nat) <> meaning kz protos dom tv ov [] e (fun _ => 0%nat).
  Proof.
    exists (EProd PPlain 1%Z [g 0 Nonsymm 1 2 1 2; g 1 Nonsymm 1 2 1 2; g 0 Nonsymm 1 2 1 2])%nat.
    split; [cbn; tauto|]. split; [apply fresh_example|]. split; [apply fitted_example|]. split; [apply fitted_example|]. split; [|split].
    - intros n (y & Hy & Hx). cbn in Hy. unfold aux in Hx. repeat (destruct Hy as [<-|Hy]; [cbn in Hx; intuition lia|]). destruct Hy.
    - vm_compute. reflexivity.
    - vm_compute. discriminate.
  Qed.

  Example C96_example :
    let e := EProd PPlain 3 [g 5 Antisymm 1 2 3 4; g 5 Nonsymm 3 4 1 2]%nat in
    meaning kz protos dom tv ov [] (tensor_hypercontract kz aux 5 4 3 e) (fun _ => 0%nat) = meaning kz protos dom tv ov [] e (fun _ => 0%nat).
  Proof.
    intros e. apply (C96_hypercontract_partial kz kz_scalars protos dom tv ov aux D 5 4 3 [] e fresh_example hypercontracted_example).
    - cbn; tauto.
    - intros y Hy. cbn in Hy. destruct Hy as [Q|[Q|[]]]; inversion Q; cbn; auto.
    - intros n (y & Hy & Hx). cbn in Hy. unfold aux in Hx. repeat (destruct Hy as [<-|Hy]; [cbn in Hx; intuition lia|]). destruct Hy.
    - intros n [].
  Qed.

  (** A tensor with this label and another rank is left alone by itself and fails within a product. *)
  Theorem C96_rank_refuted : exists (y : atom), tensor_hypercontract kz aux 5 4 3 (EAtom y) = EAtom y /\
    ~ @Expr_Spec.ok kz (leaf_ops kz) (tensor_hypercontract kz aux 5 4 3 (EProd PPlain 1%Z [EAtom y; EAtom (Ten 9 Nonsymm [2] [1] [])]))%nat.
  Proof. exists (Ten 5 Nonsymm [1] [2] [])%nat. split; [reflexivity|]. cbn. tauto. Qed.

  Definition drop (x : idx) : idx := (x + 10)%nat.
  (** 5 f{10;11} (f{11;10} + s{10;21}), where 10 and 11 have protoindices *)
  Definition csv_e : expr Z atom := EProd PPlain 5 [EAtom (Ten 6 Nonsymm [10] [11] []); ESum None [EAtom (Ten 6 Nonsymm [11] [10] []); EAtom (Ten 8 Nonsymm [10] [21] [])]]%nat.
  Example C97_example : exists e', fst (csv_transform kz protos drop Nat.ltb aux true 8 7 [6; 8]%nat csv_e 0) = Some e' /\
    leaves kz atom e' <> leaves kz atom csv_e.
  Proof. eexists. split; [vm_compute; reflexivity|]. vm_compute. discriminate. Qed.
  Example C97_example_value : exists e', fst (csv_transform kz protos drop Nat.ltb aux true 8 7 [6%nat] csv_e 0) = Some e' /\
    meaning kz protos dom tv ov [] e' (fun _ => 0%nat) = meaning kz protos dom tv ov [] csv_e (fun _ => 0%nat).
  Proof.
    destruct (C97_csv_partial kz kz_scalars protos dom tv ov aux drop Nat.ltb D true 8 7 [6%nat] [] csv_e 0 fresh_example expands_example (fun _ => overlaps_example)) as (e' & H1 & _ & H3).
    - cbn; tauto.
    - apply Forall_forall. intros y Hy. cbn in Hy. repeat (destruct Hy as [<-|Hy]; [cbn; intuition discriminate|]). destruct Hy.
    - intros n _ (y & Hy & Hx). cbn in Hy. unfold aux in Hx. repeat (destruct Hy as [<-|Hy]; [cbn in Hx; intuition lia|]). destruct Hy.
    - intros n _ [].
    - exists e'. auto.
  Qed.
  Example C97_overlap_example : exists e', fst (csv_transform kz protos drop Nat.ltb aux true 8 7 [8%nat] (EAtom (Ten 8 Nonsymm [10] [11] []))%nat 0) = Some e' /\
    meaning kz protos dom tv ov [10; 11]%nat e' (fun _ => 1%nat) = meaning kz protos dom tv ov [10; 11]%nat (EAtom (Ten 8 Nonsymm [10] [11] [])%nat) (fun _ => 1%nat).
  Proof.
    destruct (C97_overlap kz kz_scalars protos dom tv ov aux drop Nat.ltb D 8 7 [8%nat] [10; 11]%nat Nonsymm 10%nat 11%nat 0 fresh_example overlaps_example) as (e' & H1 & _ & H3);
      try (cbn; intuition congruence); try reflexivity.
    exists e'. auto.
  Qed.

  (** Constant coefficients: every overlap of two indices with protoindices is two. *)
  Definition tv1 (l : nat) (s : symm) (b q x : list (list nat)) : Z :=
    match l, b, q with 8%nat, [_ :: _ :: _], [_ :: _ :: _] => 2 | _, _, _ => 1 end.
  (** Two overlaps that share an index use the same index to sum. *)
  Theorem C97_overlaps_refuted : exists (e : expr Z atom) e', @Expr_Spec.ok kz (leaf_ops kz) e /\
    fresh_indices protos dom D aux /\ overlaps kz tv1 8 7 D /\
    (forall n, ~ uses kz protos (aux n) e) /\ (forall x, In x [10; 11; 12]%nat -> ~ uses kz protos (drop x) e) /\
    fst (csv_transform kz protos drop Nat.ltb aux true 8 7 [8%nat] e 0) = Some e' /\
    meaning kz protos dom tv1 ov [] e' (fun _ => 0%nat) <> meaning kz protos dom tv1 ov [] e (fun _ => 0%nat).
  Proof.
    exists (EProd PPlain 1%Z [EAtom (Ten 8 Nonsymm [10] [11] []); EAtom (Ten 8 Nonsymm [12] [10] [])])%nat. eexists.
    split; [cbn; tauto|]. split; [apply fresh_example|]. split; [|split; [|split; [|split]]].
    - intros s v vs w ws. split; [|split]; intros; destruct vs, ws; try congruence; reflexivity.
    - intros n (y & Hy & Hx). cbn in Hy. unfold aux in Hx. repeat (destruct Hy as [<-|Hy]; [cbn in Hx; intuition lia|]). destruct Hy.
    - intros x Hx (y & Hy & Q). cbn in Hx, Hy. repeat (destruct Hy as [<-|Hy]; [repeat (destruct Hx as [<-|Hx]; [cbn in Q; intuition discriminate|]); destruct Hx|]). destruct Hy.
    - vm_compute. reflexivity.
    - vm_compute. discriminate.
  Qed.
  (** A tensor with protoindices on auxiliary slots only gives a null pointer, and within a sum a failure. *)
  Theorem C97_null_refuted : exists (y : atom),
    fst (csv_transform kz protos drop Nat.ltb aux false 8 7 [6%nat] (EAtom y) 0) = None /\
    fst (csv_transform kz protos drop Nat.ltb aux false 8 7 [6%nat] (EProd PPlain 2 [EAtom y]) 0) = Some (EProd PPlain 2 [EAtom y]) /\
    (forall e', fst (csv_transform kz protos drop Nat.ltb aux false 8 7 [6%nat] (ESum None [EAtom y; EAtom (Ten 9 Nonsymm [1] [1] [])%nat]) 0) = Some e' ->
      ~ @Expr_Spec.ok kz (leaf_ops kz) e').
  Proof.
    exists (Ten 6 Nonsymm [1] [2] [10])%nat. split; [reflexivity|]. split; [reflexivity|]. intros e' H. vm_compute in H. inversion H. cbn. tauto.
  Qed.
End DfExamples.
