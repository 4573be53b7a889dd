(** The similarity transformation: values, and the end of the recursion. *)
From Coq Require Import List Bool Arith Lia.
From Verif Require Import Wick_Spec Wick_Ring Expr_Model Expr_Spec Expr_Proofs1 Expr_Proofs2 Expr_Proofs3 Expr_Proofs4 Expr_Proofs5.
From Verif Require Import Lst_Model Lst_Spec Lst_Proofs1.
Import ListNotations.

Section P.
  Context {k : kops} {a : aops k}.
  Variable i : interpretation k a.
  Notation E := (expr (K k) (A a)).
  Notation value := (value i).
  Notation "0" := (r0 (ir i)) : op_scope.
  Notation "1" := (r1 (ir i)) : op_scope.
  Local Open Scope op_scope.

  Lemma flat_nf (e : E) : flat e <-> nf k a e.
  Proof.
    unfold flat, nf. split; (intros [H|(ci & ss & -> & H)]; [now left|right; exists ci, ss; split; auto]).
    - now apply Forall_forall. - intros x Hx. rewrite Forall_forall in H. auto.
  Qed.
  Lemma el_0_free (x : E) : el k a 0 x -> sum_free x.
  Proof.
    destruct x as [z|y|kd s fs|ci ss|]; cbn [el]; try (intros; exact Logic.I); [|tauto]. intros [H1 H2]. apply sum_free_prod.
    rewrite Forall_forall in *. intros x Hx. apply nf_no_sum; [auto|]. destruct (is_sum k a x) eqn:E; auto. exfalso.
    assert (In x (filter (is_sum k a) fs)) by (apply filter_In; auto). unfold rank in H2. destruct (filter (is_sum k a) fs); cbn in *; [tauto|lia].
  Qed.
  Lemma flat_atom_free (x : E) : sum_free x -> sum_free (flat_atom k a x).
  Proof. destruct x as [z|y|kd s fs|ci ss|]; cbn [flat_atom]; auto. intros _. destruct (aflat a y) as [[z|z]|]; exact Logic.I. Qed.
  Lemma scan_free (fs : list E) : Forall sum_free fs -> Forall sum_free (fst (scan_factors k a fs)).
  Proof.
    induction fs as [|x fs IH]; intros H; [constructor|]. inversion H; subst. cbn [scan_factors]. destruct (_ || _); cbn [fst].
    - constructor; auto. now apply flat_atom_free.
    - specialize (IH H3). destruct (scan_factors k a fs). cbn [fst] in *. constructor; auto. now apply flat_atom_free.
  Qed.
  Lemma mk_prod_free kd s (fs : list E) : Forall sum_free fs -> sum_free (mk_prod k a kd s FRec fs).
  Proof.
    intros H. apply el_0_free. rewrite <- (rank_sum_free k a fs H). apply mk_prod_el. eapply Forall_impl; [|exact H]. now left.
  Qed.
  Lemma simplify_product_free kd s (fs : list E) : Forall sum_free fs -> sum_free (fst (simplify_product k a kd s fs)).
  Proof.
    intros H. apply scan_free in H. unfold simplify_product. destruct (scan_factors k a fs) as [fs1 b]. cbn [fst] in H.
    set (e1 := if b then mk_prod k a PPlain s FRec fs1 else EProd kd s fs1).
    assert (H1 : sum_free e1) by (unfold e1; destruct b; [now apply mk_prod_free|now apply sum_free_prod]).
    assert (Hsh : exists kd1 s1 fs2, e1 = EProd kd1 s1 fs2) by (unfold e1; destruct b; unfold mk_prod; cbn zeta; eauto).
    destruct Hsh as (kd1 & s1 & fs2 & He). rewrite He in *. clearbody e1. destruct (keqb k s1 (k0 k)); [exact Logic.I|].
    destruct fs2 as [|x [|y fs2]]; try exact Logic.I; auto. destruct (keqb k s1 (k1 k)); auto. apply sum_free_prod in H1. now inversion H1.
  Qed.
  Lemma step_free (e : E) : sum_free e -> sum_free (fst (simplify_step k a e)).
  Proof. destruct e as [z|y|kd s fs|ci ss|]; cbn [simplify_step]; auto; [|intros []]. intros H. apply simplify_product_free. now apply sum_free_prod in H. Qed.
  Lemma step_flat (e : E) : flat e -> flat (fst (simplify_step k a e)).
  Proof.
    intros [H|(ci & ss & -> & H)]; [left; now apply step_free|]. cbn [simplify_step]. unfold simplify_sum. destruct ss as [|x [|y ss]].
    - left. exact Logic.I.
    - left. apply H. now left.
    - destruct (scan_summands k a O (x :: y :: ss)); [|right; exists ci, (x :: y :: ss); auto]. cbn [fst]. right.
      destruct (mk_sum_el k a O (x :: y :: ss)) as (ci' & ss' & -> & Hs).
      { apply Forall_forall. intros z Hz. apply sum_free_el. auto. }
      exists ci', ss'. split; auto. intros z Hz. rewrite Forall_forall in Hs. apply el_0_free. auto.
  Qed.
  Lemma node_keeps (Q : E -> Prop) n e : (forall e, Q e -> Q (fst (simplify_step k a e))) -> ok e -> Q e -> size e < n -> Q (simplify_node k a n e).
  Proof.
    intros HQ Hok He Hs. destruct (simplify_node_good k a i Q n (fun e _ H => HQ e H) e Hok He Hs) as (_ & _ & _ & r0 & H0 & _ & Hr).
    specialize (HQ r0 H0). now rewrite Hr in HQ.
  Qed.
  Lemma visit_free n e : ok e -> size e < n -> sum_free e -> sum_free (visit k a (simplify_node k a n) e).
  Proof.
    induction e as [z|y|kd s fs IH|ci ss IH|] using expr_ind'; intros Hok Hs Hf; cbn [visit]; auto; try (destruct Hf; fail).
    apply ok_prod in Hok. apply sum_free_prod in Hf. rewrite size_prod in Hs. apply sum_free_prod. rewrite Forall_forall in *. intros x Hx.
    apply in_map_iff in Hx as (y & <- & Hy). pose proof (tot_in k a y fs Hy).
    destruct (visit_size k a i n y) as (H1 & _ & H3 & _); [auto|lia|]. apply node_keeps; [apply step_free|auto| |lia].
    apply IH; auto. lia.
  Qed.
  Lemma rapid_flat e : ok e -> flat e -> flat (rapid k a e).
  Proof.
    intros Hok Hf. unfold rapid, rapid_simplify. destruct (visit_size k a i (S (size e)) e Hok) as (H1 & _ & H3 & _); [lia|].
    apply node_keeps; [apply step_flat|auto| |lia]. destruct Hf as [Hf|(ci & ss & -> & Hf)]; [left; apply visit_free; auto|].
    right. cbn [visit]. eexists _, _. split; [reflexivity|]. intros x Hx. apply in_map_iff in Hx as (y & <- & Hy).
    apply ok_sum in Hok as [_ Hok]. rewrite Forall_forall in Hok. rewrite size_sum in *. pose proof (tot_in k a y ss Hy).
    destruct (visit_size k a i (S (2 + tot k a ss)) y) as (G1 & _ & G3 & _); [auto|lia|]. apply node_keeps; [apply step_free|auto| |lia].
    apply visit_free; auto. lia.
  Qed.
  Lemma rapid_value e : ok e -> has_value i (rapid k a e) (value e).
  Proof. intros H. destruct (rapid_simplify_good k a i (S (size e)) e H) as (H1 & H2 & _); [lia|]. split; auto. Qed.
  Lemma expanded_value e : ok e -> has_value i (expanded_form k a e) (value e) /\ flat (expanded_form k a e).
  Proof. intros H. destruct (expand_good k a i (width k a e + 4) e) as (H1 & H2 & H3); auto. repeat split; auto. now apply flat_nf, expanded_nf. Qed.

  Variable canonicalize : E -> E.
  Hypothesis Hcan : canonicalizer i canonicalize.
  Notation simplify := (simplify k a canonicalize).
  Lemma simplify_good e : ok e -> has_value i (simplify e) (value e) /\ flat (simplify e).
  Proof.
    intros H. unfold Lst_Model.simplify. destruct (expanded_value e H) as [[H1 E1] F1]. destruct (rapid_value _ H1) as [H2 E2]. pose proof (rapid_flat _ H1 F1) as F2.
    destruct (Hcan _ H2) as [[H3 E3] F3]. specialize (F3 F2). destruct (rapid_value _ H3) as [H4 E4]. split; [split; [auto|congruence]|]. now apply rapid_flat.
  Qed.


  Lemma plus_eq_value l r : ok l -> ok r -> has_value i (plus_eq k a l r) (value l + value r).
  Proof. intros Hl Hr. exact (plus_assign_ok k a i (Some l) (Some r) Hl Hr). Qed.
  Lemma minus_eq_value l r : ok l -> ok r -> has_value i (minus_eq k a l r) (rsub (value l) (value r)).
  Proof. intros Hl Hr. exact (minus_assign_ok k a i (Some l) (Some r) Hl Hr). Qed.
  Lemma times_value l r : ok l -> ok r -> has_value i (times k a l r) (value l * value r).
  Proof. intros Hl Hr. exact (times_ok k a i l r Hl Hr). Qed.
  Lemma minus_value l r : ok l -> ok r -> has_value i (minus k a l r) (rsub (value l) (value r)).
  Proof. intros Hl Hr. exact (minus_ok k a i l r Hl Hr). Qed.

  (** *** the loop *)
  Variable st : star_interp i.
  Variable o : options.
  Variable B : E.
  Hypothesis HB : ok B.
  Notation b := (value B).
  Definition step (x : car (ir i)) : car (ir i) :=
    if use_connected_form o then if unitary o then x * b + star st b * x else x * b
    else if unitary o then rsub (bracket b x) (bracket (star st b) x) else bracket b x.
  Lemma commutator_value e : ok e -> has_value i (commutator k a o B e) (step (value e)).
  Proof.
    intros He. destruct (times_value e B He HB) as [H1 E1]. destruct (times_value B e HB He) as [H2 E2].
    destruct (adjoint_ok k a i st B HB) as [H3 E3]. destruct (times_value e _ He H3) as [H4 E4]. destruct (times_value _ e H3 He) as [H5 E5].
    destruct (minus_value _ _ H1 H2) as [H6 E6]. destruct (minus_value _ _ H4 H5) as [H7 E7].
    unfold commutator, step. destruct (use_connected_form o), (unitary o).
    - destruct (plus_eq_value _ _ H1 H5) as [H8 E8]. split; auto. now rewrite E8, E1, E5, E3.
    - split; auto.
    - destruct (minus_eq_value _ _ H6 H7) as [H8 E8]. split; auto. rewrite E8, E6, E7, E1, E2, E4, E5, E3. reflexivity.
    - split; auto. rewrite E6, E1, E2. reflexivity.
  Qed.
  Lemma step_scale z x : step (emb i z * x) = emb i z * step x.
  Proof.
    pose proof (emb_central _ _ i z) as Hz. unfold step, bracket, rsub. 
    assert (L : forall y w, y * (emb i z * w) = emb i z * (y * w)) by (intros; rewrite !rmul_assoc, <- (Hz y); reflexivity).
    rewrite !L. destruct (use_connected_form o), (unitary o); ncr.
  Qed.
  Lemma step_add x y : step (x + y) = step x + step y.
  Proof. unfold step, bracket, rsub. destruct (use_connected_form o), (unitary o); ncr. Qed.

  Variable inverse : nat -> K k.
  Notation c n := (emb i (reciprocal_factorial inverse n)).
  Definition series (n : nat) (x : car (ir i)) : car (ir i) := sum_to n (fun j => c j * Nat.iter j step x).
  Lemma rounds_value x n : forall j result op, ok result -> ok op -> value op = c j * Nat.iter j step x ->
    has_value i (rounds k a inverse canonicalize o B n (S j) result op) (value result + rsum (map (fun m => c m * Nat.iter m step x) (seq (S j) n))).
  Proof.
    induction n as [|n IH]; intros j result op Hr Ho Eo; cbn [rounds seq map rsum fold_right].
    - split; auto. ncr.
    - destruct (commutator_value op Ho) as [H1 E1]. destruct (times_value (EConst (inverse (S j))) _ Logic.I H1) as [H2 E2].
      destruct (simplify_good _ H2) as [[H3 E3] _]. set (op' := simplify _) in *. destruct (plus_eq_value result op' Hr H3) as [H4 E4].
      assert (E5 : value op' = c (S j) * Nat.iter (S j) step x).
      { rewrite E3, E2, E1, Eo, step_scale. cbn [Expr_Spec.value reciprocal_factorial]. rewrite emb_mul. change (Nat.iter (S j) step x) with (step (Nat.iter j step x)).
        now rewrite !rmul_assoc. }
      destruct (IH (S j) (plus_eq k a result op') op' H4 H3 E5) as [H6 E6]. split; [exact H6|]. rewrite E6, E4, E5. fold (rsum (map (fun m => c m * Nat.iter m step x) (seq (S (S j)) n))).
      now rewrite radd_assoc.
  Qed.
  Lemma transform_value n e : ok e -> has_value i (transform k a inverse canonicalize o B n e) (series n (value e)).
  Proof.
    intros He. destruct (rounds_value (value e) n O e e He He) as [H1 E1].
    { cbn [reciprocal_factorial]. change (Nat.iter 0 step (value e)) with (value e). rewrite emb_1. ncr. }
    split; [exact H1|]. etransitivity; [exact E1|]. unfold series, sum_to. cbn [seq map rsum fold_right reciprocal_factorial]. change (Nat.iter 0 step (value e)) with (value e).
    rewrite emb_1. fold (rsum (map (fun m => c m * Nat.iter m step (value e)) (seq 1 n))). ncr.
  Qed.
  Lemma iter_add n : forall x y, Nat.iter n step (x + y) = Nat.iter n step x + Nat.iter n step y.
  Proof. induction n as [|n IH]; intros x y; [reflexivity|]. cbn [Nat.iter nat_rect]. change (step (Nat.iter n step (x + y)) = step (Nat.iter n step x) + step (Nat.iter n step y)). now rewrite IH, step_add. Qed.
  Lemma series_add n x y : series n (x + y) = series n x + series n y.
  Proof. unfold series. rewrite <- sum_to_add. apply sum_to_ext. intros j _. rewrite iter_add. ncr. Qed.
End P.

(** *** the recursion, with any treatment of operators and products *)
Section Dispatch.
  Context {k : kops} {a : aops k}.
  Variable i : interpretation k a.
  Notation E := (expr (K k) (A a)).
  Notation value := (value i).
  Local Open Scope op_scope.
  Variables is_op is_var : A a -> bool.
  Variable canonicalize : E -> E.
  Hypothesis Hcan : canonicalizer i canonicalize.
  Variable total : list E -> E.
  Hypothesis Htot : totals i total.
  Variable h : E -> E.
  Variable hp : E -> outcome E.
  Hypothesis hp_fuel : forall e, hp e <> NoFuel.
  Fixpoint dispatch (fuel : nat) (e : E) : outcome E :=
    match fuel with
    | O => NoFuel
    | S n =>
        match e with
        | EAtom x => if is_op x then Done (h e) else if is_var x then Done e else Throws
        | EProd _ _ fs => if existsb (is_sum k a) fs then dispatch n (simplify k a canonicalize (expanded_form k a e)) else hp e
        | ESum _ ss => summed k a total (all_done (map (dispatch n) ss))
        | EConst _ => Done e
        | EErr => Throws
        end
    end.

  Lemma all_done_in {X} (l : list (outcome X)) : (exists r, all_done l = Done r /\ l = map Done r) \/ (all_done l = Throws /\ In Throws l) \/ (all_done l = NoFuel /\ In NoFuel l).
  Proof.
    induction l as [|[x| |] l IH]; cbn [all_done].
    - left. now exists [].
    - destruct IH as [(r & -> & ->)|[[-> H]|[-> H]]]; [left; now exists (x :: r)|right; left; split; auto; now right|right; right; split; auto; now right].
    - right; left. split; auto. now left.
    - right; right. split; auto. now left.
  Qed.
  Lemma simplified_expanded e : ok e -> has_value i (simplify k a canonicalize (expanded_form k a e)) (value e) /\ flat (simplify k a canonicalize (expanded_form k a e)).
  Proof.
    intros H. destruct (expanded_value i e H) as [[H1 E1] _]. destruct (simplify_good i canonicalize Hcan _ H1) as [[H2 E2] F2]. repeat split; auto. congruence.
  Qed.
  Lemma no_sums kd s fs : sum_free (k:=k) (a:=a) (EProd kd s fs) -> existsb (is_sum k a) fs = false.
  Proof.
    intros H. apply sum_free_prod in H. rewrite Forall_forall in H. destruct (existsb _ fs) eqn:E; auto. apply existsb_exists in E as (x & Hx & Hs).
    rewrite (sum_free_no_sum k a x) in Hs by auto. discriminate.
  Qed.

  Section Values.
    (** [good v x]: [v] is a right answer for [x] *)
    Variable good : car (ir i) -> car (ir i) -> Prop.
    Hypothesis good_0 : good (r0 _) (r0 _).
    Hypothesis good_add : forall v w x y, good v x -> good w y -> good (v + w) (x + y).
    Hypothesis good_central : forall x, central x -> good x x.
    Hypothesis vars : forall x, is_var x = true -> central (val i x).
    Hypothesis h_op : forall x, is_op x = true -> ok (h (EAtom x)) /\ good (value (h (EAtom x))) (val i x).
    Hypothesis h_prod : forall kd s fs r, ok (k:=k) (a:=a) (EProd kd s fs) -> existsb (is_sum k a) fs = false -> hp (EProd kd s fs) = Done r -> ok r /\ good (value r) (value (EProd kd s fs)).
    Lemma dispatch_value n : forall e r, ok e -> dispatch n e = Done r -> ok r /\ good (value r) (value e).
    Proof.
      induction n as [|n IH]; intros e r Hok H; [discriminate|]. destruct e as [z|y|kd s fs|ci ss|]; cbn [dispatch] in H.
      - injection H as <-. split; auto. apply good_central. cbn. apply emb_central.
      - destruct (is_op y) eqn:Ho; [injection H as <-; now apply h_op|]. destruct (is_var y) eqn:Hv; [|discriminate]. injection H as <-. split; auto. now apply good_central, vars.
      - destruct (existsb (is_sum k a) fs) eqn:Ex; [|exact (h_prod kd s fs r Hok Ex H)].
        destruct (simplified_expanded _ Hok) as [[H1 E1] _]. destruct (IH _ _ H1 H) as [H2 G]. split; auto. now rewrite <- E1.
      - destruct (all_done_in (map (dispatch n) ss)) as [(l & El & Em)|[[El _]|[El _]]]; rewrite El in H; try discriminate. injection H as <-.
        apply ok_sum in Hok as [_ Hok]. assert (G : Forall ok l /\ good (rsum (map value l)) (rsum (map value ss))).
        { clear El. revert l Em. induction ss as [|x ss IHs]; intros [|y l] Em; try discriminate; [split; [constructor|exact good_0]|].
          injection Em as Ex Em. inversion Hok; subst. destruct (IH x y H1 Ex) as [G1 G2]. destruct (IHs H2 l Em) as [G3 G4]. split; [now constructor|]. cbn [map rsum fold_right]. now apply good_add. }
        destruct G as [G1 G2]. destruct (Htot l G1) as [H1 E1]. split; auto. rewrite E1. exact G2.
      - discriminate.
    Qed.
  End Values.

  Lemma dispatch_flat n e : ok e -> flat e -> dispatch (S (S n)) e <> NoFuel.
  Proof.
    assert (P : forall m x, sum_free x -> dispatch (S m) x <> NoFuel).
    { intros m x Hx. destruct x as [z|y|kd s fs|ci ss|]; cbn [dispatch]; try discriminate.
      - destruct (is_op y), (is_var y); discriminate. - rewrite (no_sums kd s fs Hx). apply hp_fuel. - destruct Hx. }
    intros Hok [H|(ci & ss & -> & H)]; [now apply P|]. change (summed k a total (all_done (map (dispatch (S n)) ss)) <> NoFuel).
    destruct (all_done_in (map (dispatch (S n)) ss)) as [(l & -> & _)|[[-> _]|[_ Hin]]]; try discriminate.
    apply in_map_iff in Hin as (x & Ex & Hx). destruct (P n x (H x Hx) Ex).
  Qed.
  Lemma dispatch_ends n : forall e, ok e -> depth k a e + 2 <= n -> dispatch n e <> NoFuel.
  Proof.
    induction n as [|n IH]; intros e Hok Hn; [pose proof (depth_pos k a e); lia|]. destruct e as [z|y|kd s fs|ci ss|]; cbn [dispatch]; try discriminate.
    - destruct (is_op y), (is_var y); discriminate.
    - destruct (existsb (is_sum k a) fs); [|apply hp_fuel]. destruct (simplified_expanded _ Hok) as [[H1 _] F]. pose proof (depth_pos k a (EProd kd s fs)).
      destruct n as [|[|n]]; [lia|lia|]. now apply dispatch_flat.
    - destruct (all_done_in (map (dispatch n) ss)) as [(l & -> & _)|[[-> _]|[_ Hin]]]; try discriminate.
      apply in_map_iff in Hin as (x & Ex & Hx). apply ok_sum in Hok as [_ Hok]. rewrite Forall_forall in Hok. pose proof (in_sum_depth k a x ci ss Hx).
      destruct (IH x (Hok x Hx) ltac:(lia) Ex).
  Qed.
  Lemma dispatch_more n : forall m e, n <= m -> dispatch n e <> NoFuel -> dispatch m e = dispatch n e.
  Proof.
    induction n as [|n IH]; intros m e L H; [now destruct H|]. destruct m as [|m]; [lia|]. destruct e as [z|y|kd s fs|ci ss|]; cbn [dispatch] in *; auto.
    - destruct (existsb (is_sum k a) fs); auto. apply IH; [lia|exact H].
    - assert (G : all_done (map (dispatch m) ss) = all_done (map (dispatch n) ss)); [|now rewrite G].
      assert (N : all_done (map (dispatch n) ss) <> NoFuel) by (intros E; rewrite E in H; now apply H).
      clear H. induction ss as [|x ss IHs]; auto. cbn [map all_done] in *. destruct (dispatch n x) as [y| |] eqn:Ex.
      + rewrite (IH m x), Ex by (try lia; rewrite Ex; discriminate). rewrite IHs; auto. intros E. now rewrite E in N.
      + rewrite (IH m x), Ex by (try lia; rewrite Ex; discriminate). reflexivity.
      + now destruct N.
  Qed.
  Lemma dispatch_supported n : (forall x, is_op x = true \/ is_var x = true) -> (forall e, hp e <> Throws) -> forall e, ok e -> dispatch n e <> Throws.
  Proof.
    intros S Hh. induction n as [|n IH]; intros e Hok; [discriminate|]. destruct e as [z|y|kd s fs|ci ss|]; cbn [dispatch]; try discriminate.
    - destruct (S y) as [->| ->]; [discriminate|]. destruct (is_op y); discriminate.
    - destruct (existsb (is_sum k a) fs); [|apply Hh]. destruct (simplified_expanded _ Hok) as [[H1 _] _]. auto.
    - destruct (all_done_in (map (dispatch n) ss)) as [(l & -> & _)|[[_ Hin]|[-> _]]]; try discriminate.
      apply in_map_iff in Hin as (x & Ex & Hx). apply ok_sum in Hok as [_ Hok]. rewrite Forall_forall in Hok. now destruct (IH x (Hok x Hx)).
    - destruct Hok.
  Qed.
End Dispatch.
