(** Theorems for C14: optimising an expression preserves its value. *)
From Coq Require Import List Arith Bool ZArith Permutation Lia Ring_theory.
From Verif Require Import Idx_Model Bin_Model Bin_Spec Bin_Props Sto_Model Sto_Spec Sto_Proofs Opt_Spec Opt_Model Opt_Props.
Import ListNotations.

(** For every commutative semiring of values, all ranges of indices and all values of tensors and
    variables, whatever contraction tree the cost optimiser chooses: optimising an expression
    succeeds, and the result has the same indices and the same value, also if it is a factor of a
    larger product or some indices are kept ([keep]). *)
Theorem C14_optimize_partial : forall (K : Type) (zero one : K) (add mul : K -> K -> K),
  semi_ring_theory zero one add mul eq ->
  forall (placeholder : nat -> nat) (find_label : nat -> option nat),
  (forall i, find_label (placeholder i) = Some i) ->
  forall (max : nat) (seq_of : list (bex K) -> list Z), good_seq K max seq_of ->
  forall e, good_expr K one find_label max e ->
  exists e', optimize K one mul placeholder find_label seq_of e = Ret e' /\
    forall (dom : idx -> list nat) (var : nat -> K) (tens : tensor -> list nat -> K) (keep : list idx),
    gok K keep e ->
    gok K keep e' /\ same_set (gopen K keep e) (gopen K keep e') /\
    forall r, gden K zero one add mul dom var tens keep e r = gden K zero one add mul dom var tens keep e' r.
Proof.
  intros K zero one add mul SR placeholder find_label D max seq_of GS e G.
  destruct (optimize_ok K zero one add mul SR max (fun _ => []) (fun _ => zero) (fun _ _ => zero) placeholder find_label D seq_of GS e G) as (e' & E & _).
  exists e'. split; [exact E|]. intros dom var tens keep.
  destruct (optimize_ok K zero one add mul SR max dom var tens placeholder find_label D seq_of GS e G) as (e2 & E2 & Q).
  rewrite E in E2. injection E2 as <-. exact (Q keep).
Qed.

(** The result for a product: with three or more factors that are not constants it is
    c * (scalar factors) * (a * b), where a and b are binary trees of products with the scalar 1 whose
    leaves are the factors that are not scalars, each once; c is the scalar of the product times the
    constant factors. With fewer factors nothing but the constants changes. *)
Theorem C14_shape : forall (K : Type) (zero one : K) (add mul : K -> K -> K),
  semi_ring_theory zero one add mul eq ->
  forall (placeholder : nat -> nat) (find_label : nat -> option nat),
  (forall i, find_label (placeholder i) = Some i) ->
  forall (max : nat) (seq_of : list (bex K) -> list Z), good_seq K max seq_of ->
  forall c l, good_product K one find_label max l ->
  let c' := fold_left (fun a x => match x with Con z => mul a z | _ => a end) l c in
  let vars := filter (fun x => match x with Con _ => false | _ => true end) in
  let big := filter (nonscalar K) l in
  exists l', optimize K one mul placeholder find_label seq_of (Mul c l) = Ret (Mul c' l') /\
    ((length (vars l) < 3 /\ l' = vars l) \/
     exists a b, Permutation (leaves a ++ leaves b) (seq 0 (length big)) /\
       l' = vars (filter (is_scalar K) l) ++ [tree_expr K one big a; tree_expr K one big b]).
Proof.
  intros K zero one add mul SR placeholder find_label D max seq_of GS c l G c' vars big.
  destruct (product_shape K zero one add mul SR max (fun _ => []) (fun _ => zero) placeholder find_label D seq_of c l G GS) as (e & E & S). rewrite E. clear E.
  assert (EC : forall m d, consts K mul d m = fold_left (fun a x => match x with Con z => mul a z | _ => a end) m d).
  { induction m as [|x m IH]; intros d; [reflexivity|]. destruct x; cbn; apply IH. }
  assert (EO : forall m, Sto_Proofs.others K m = vars m) by (intros m; unfold Sto_Proofs.others, vars; apply filter_ext; intros x; destruct x; reflexivity).
  destruct S as [H|a b k O ->].
  - rewrite EC, !EO in *. exists (vars l). split; [reflexivity|]. left. auto.
  - rewrite EC, !EO in *. eexists. split; [reflexivity|]. right. exists a, b. split; [exact O|reflexivity].
Qed.

(** The optimiser of the code: the additive cost models (DenseFLOPs, DenseSize) and the peak-memory
    model return such trees for up to 24 tensors. *)
Theorem C14_additive_model : forall (K : Type) (o : AOpts) (tixs : list (bex K) -> list idx),
  good_seq K 24 (fun ts => match a_run o (map (all_indices K) ts) (tixs ts) with Some s => s | None => [] end).
Proof.
  intros K o tixs ts L. assert (L' : 1 <= length (map (all_indices K) ts) <= 24) by (rewrite map_length; lia).
  destruct (C09_additive_defined o (map (all_indices K) ts) (tixs ts) L') as [s E]. rewrite E.
  destruct (C09_additive o _ _ s E) as (t & _ & D & O & _). rewrite map_length in O. eauto.
Qed.
Theorem C14_peak_model : forall (K : Type) (o : POpts),
  (forall ixs, (0 <= po_vol o ixs)%Z) -> (0 <= po_num o)%Z -> (0 < po_den o)%Z ->
  good_seq K 24 (fun ts => match p_run o (map (all_indices K) ts) [] with Some s => s | None => [] end).
Proof.
  intros K o H1 H2 H3 ts L. assert (L' : 1 <= length (map (all_indices K) ts) <= 24) by (rewrite map_length; lia).
  destruct (C09_peak_defined o (map (all_indices K) ts) H1 H2 H3 L') as [s E]. rewrite E.
  destruct (C09_peak o _ s H1 H2 H3 L' E) as (t & _ & D & O). rewrite map_length in O. eauto.
Qed.

(** Together with the binarization: the evaluation tree of the optimised expression has the value of
    the expression that was passed to optimize. *)
Theorem C14_optimize_then_binarize : forall (K : Type) (zero one : K) (add mul : K -> K -> K),
  semi_ring_theory zero one add mul eq ->
  forall is_one : K -> bool, (forall c, is_one c = true -> c = one) ->
  forall proto : idx -> list idx, (forall x, proto x = []) ->
  forall (placeholder : nat -> nat) (find_label : nat -> option nat),
  (forall i, find_label (placeholder i) = Some i) ->
  forall (max : nat) (seq_of : list (bex K) -> list Z), good_seq K max seq_of ->
  forall (merge : bool) (dom : idx -> list nat) (var : nat -> K) (tens : tensor -> list nat -> K) e keep,
  good_expr K one find_label max e -> gok K keep e ->
  exists e' n, optimize K one mul placeholder find_label seq_of e = Ret e' /\
    binarize K is_one proto merge e' keep = Ret n /\
    same_set (nidx K n) (gopen K keep e) /\
    forall r, nval K zero add mul dom var tens n r = gden K zero one add mul dom var tens keep e r.
Proof.
  intros K zero one add mul SR is_one H1 proto H2 placeholder find_label D max seq_of GS merge dom var tens e keep G OK.
  destruct (C14_optimize_partial K zero one add mul SR placeholder find_label D max seq_of GS e G) as (e' & E & Q).
  destruct (Q dom var tens keep OK) as (Q1 & Q2 & Q3).
  destruct (C65_binarize_partial K zero one add mul SR is_one H1 proto H2 merge dom var tens e' keep Q1) as (n & B & _ & S & _ & V).
  exists e', n. split; [exact E|]. split; [exact B|]. split.
  - intros x. rewrite (S x). symmetry. apply Q2.
  - intros r. rewrite V. symmetry. apply Q3.
Qed.

Module StoExample.
  Definition T (l : nat) (b k a : list idx) : bex Z := Ten (mkt (Ordinary l) b k a).
  (** placeholder labels: 1000, 1001, ... *)
  Definition placeholder (i : nat) := 1000 + i.
  Definition find_label (l : nat) := if 1000 <=? l then Some (l - 1000) else None.
  Lemma decode i : find_label (placeholder i) = Some i.
  Proof. unfold find_label, placeholder. destruct (Nat.leb_spec 1000 (1000 + i)) as [H|H]; [f_equal|]; lia. Qed.
  Definition opts : AOpts := mkAO (fun l r _ => Z.of_nat (3 ^ length (nodup Nat.eq_dec (l ++ r)))) (fun _ => 0%Z) 0%N 1%Z 0%Z false (fun _ => 0) false.
  Definition seq_of (ts : list (bex Z)) : list Z :=
    match a_run opts (map (all_indices Z) ts) [] with Some s => s | None => [] end.
  Lemma seq_ok : good_seq Z 24 seq_of.
  Proof. exact (C14_additive_model Z opts (fun _ => [])). Qed.

  (** 2 v A{1;2} B{2;3} (C{3;4} + D{3;4}) E{4;5} 7 *)
  Definition s : bex Z := Add [T 12 [3] [4] []; T 13 [3] [4] []].
  Definition e : bex Z := Mul 2%Z [Var 0; T 10 [1] [2] []; T 11 [2] [3] []; s; T 14 [4] [5] []; Con 7%Z].
  Lemma e_good : good_expr Z 1%Z find_label 24 e.
  Proof.
    split; [repeat constructor|]. split; [intros s' m H _; cbn in H; repeat destruct H as [H|H]; try discriminate; destruct H|].
    split; [right|]; vm_compute; lia.
  Qed.
  Lemma e_ok : gok Z [] e.
  Proof.
    assert (A : forall F l b k a, NoDup (b ++ k ++ a) -> b ++ k ++ a <> [] -> ~ In null (b ++ k ++ a) -> gok Z F (T l b k a)) by (intros; repeat split; assumption).
    assert (B : forall F l x y, x <> y -> x <> 0 -> y <> 0 -> gok Z F (T l [x] [y] [])).
    { intros F l x y N1 N2 N3. apply A; cbn; [|discriminate|unfold null; intuition]. constructor; [cbn; intuition|constructor; [cbn; tauto|constructor]]. }
    assert (S : forall F, gok Z F s).
    { intros F. split; [discriminate|]. split; [|split; [apply B; lia|split; [apply B; lia|exact Logic.I]]].
      intros x y [<-|[<-|[]]] [<-|[<-|[]]] k; cbn; tauto. }
    cbn [gok e]. repeat (split; [first [exact Logic.I | apply B; lia | apply S]|]). exact Logic.I.
  Qed.
  Example e_optimized : exists a b, optimize Z 1%Z Z.mul placeholder find_label seq_of e = Ret (Mul 14%Z [Var 0; a; b]).
  Proof. eexists. eexists. vm_compute. reflexivity. Qed.

  (** A scalar factor that is itself a product with a scalar is counted twice:
      (2 v) A{1;2} B{2;3} (not flattened) becomes 2 (2 v) (A B). *)
  Definition nested : bex Z := Mul 1%Z [Mul 2%Z [Var 0]; T 10 [1] [2] []; T 11 [2] [3] []].
  Theorem C14_nested_scalar_refuted :
    optimize Z 1%Z Z.mul placeholder find_label seq_of nested
    = Ret (Mul 2%Z [Mul 2%Z [Var 0]; T 10 [1] [2] []; T 11 [2] [3] []]) /\
    gok Z [] nested /\
    forall dom tens r, let d := gden Z 0%Z 1%Z Z.add Z.mul dom (fun _ => 1%Z) tens [] in
    d (Mul 2%Z [Mul 2%Z [Var 0]; T 10 [1] [2] []; T 11 [2] [3] []]) r = (2 * d nested r)%Z.
  Proof.
    split; [vm_compute; reflexivity|]. split; [repeat split; cbn; try discriminate; try (repeat constructor; cbn; lia); unfold null; lia|].
    intros dom tens r d. subst d. unfold nested. cbn [gden]. rewrite !Z.mul_assoc. reflexivity.
  Qed.

  (** Three or more factors of which only one is not a scalar: v w A{1;2} is not optimised, the
      cast of the result to a product fails. With no tensor at all there is no result to read. *)
  Theorem C14_few_tensors_refuted :
    optimize Z 1%Z Z.mul placeholder find_label seq_of (Mul 1%Z [Var 0; Var 1; T 10 [1] [2] []]) = Undefined /\
    optimize Z 1%Z Z.mul placeholder find_label seq_of (Mul 1%Z [Var 0; Var 1; Var 2]) = Undefined.
  Proof. split; vm_compute; reflexivity. Qed.
End StoExample.

Print Assumptions C14_optimize_partial.
Print Assumptions C14_shape.
Print Assumptions C14_additive_model.
Print Assumptions C14_peak_model.
Print Assumptions C14_optimize_then_binarize.
