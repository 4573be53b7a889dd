(** Theorem for C65: binarize preserves the value of an expression. *)
From Coq Require Import List Arith Bool Lia Ring_theory ZArith Permutation.
From Verif Require Import Idx_Model Idx_Spec Bin_Model Bin_Spec Bin_Sums Bin_Proofs.
Import ListNotations.

(** For every commutative semiring of values, all ranges of the indices and all values of the
    tensors: the conversion succeeds, the result has exactly the indices of the value of the
    expression (none twice), and the value of the tree, computed operation by operation, is the value
    of the expression for all values of these indices. An index that occurs in two factors of a
    product, however deep inside them, is the same index: a factor that is a product or a sum does
    not sum over it (hyperindices, [gden]).
    Partial: no protoindices. *)
Theorem C65_binarize_partial :
  forall (K : Type) (zero one : K) (add mul : K -> K -> K), semi_ring_theory zero one add mul eq ->
  forall is_one : K -> bool, (forall c, is_one c = true -> c = one) ->
  forall proto : idx -> list idx, (forall x, proto x = []) ->
  forall (merge : bool) (dom : idx -> list nat) (var : nat -> K) (tens : tensor -> list nat -> K)
         (e : bex K) (keep : list idx),
  gok K keep e ->
  exists n, binarize K is_one proto merge e keep = Ret n /\
    NoDup (nidx K n) /\ same_set (nidx K n) (gopen K keep e) /\
    (nres K n = None <-> gopen K keep e = []) /\
    forall r, nval K zero add mul dom var tens n r = gden K zero one add mul dom var tens keep e r.
Proof.
  intros K zero one add mul SR is_one H1 proto H2 merge dom var tens e keep W.
  destruct (gbinarize_ok K zero one add mul SR is_one H1 proto H2 merge dom var tens e keep W) as (n & E & [G1 G2 G3 G4] & _).
  exists n. split; [exact E|]. split; [exact G1|]. split; [exact G2|]. split; [|exact G4].
  unfold scalar_iff in G3. rewrite G3. split; intros H; [destruct (gopen K keep e) as [|x l]|destruct (nidx K n) as [|x l]]; auto; exfalso.
  - assert (Q : In x (nidx K n)) by (apply G2; left; reflexivity). rewrite H in Q. destruct Q.
  - assert (Q : In x (gopen K keep e)) by (apply G2; left; reflexivity). rewrite H in Q. destruct Q.
Qed.

(** If factors share only indices that are open in them, this is the usual reading, in which the
    value of a factor does not depend on where it stands ([den], by recursion on the expression). *)
Theorem C65_usual_reading : forall (K : Type) (zero one : K) (add mul : K -> K -> K),
  semi_ring_theory zero one add mul eq ->
  forall (dom : idx -> list nat) (var : nat -> K) (tens : tensor -> list nat -> K) (e : bex K) (keep : list idx),
  wf K e -> keepable K keep e ->
  gok K keep e /\ gopen K keep e = open K keep e /\
  forall r, gden K zero one add mul dom var tens keep e r = den K zero one add mul dom var tens keep e r.
Proof.
  intros K zero one add mul SR dom var tens e keep W KE.
  destruct (g_of_wf K zero one add mul dom var tens e keep W KE) as (A & B & C). auto.
Qed.

(** The values are those of products: the order of the factors does not matter, ... *)
Theorem C65_order_of_factors : forall (K : Type) (zero one : K) (add mul : K -> K -> K),
  semi_ring_theory zero one add mul eq ->
  forall (dom : idx -> list nat) (var : nat -> K) (tens : tensor -> list nat -> K) keep c l m,
  Permutation l m ->
  (gok K keep (Mul c l) <-> gok K keep (Mul c m)) /\
  same_set (gopen K keep (Mul c l)) (gopen K keep (Mul c m)) /\
  forall r, gden K zero one add mul dom var tens keep (Mul c l) r = gden K zero one add mul dom var tens keep (Mul c m) r.
Proof. intros K zero one add mul SR dom var tens keep c l m H. exact (reorder_factors K zero one add mul SR dom var tens keep c l m H). Qed.

(** ... and a factor that is a product may be written out. *)
Theorem C65_nested_factor : forall (K : Type) (zero one : K) (add mul : K -> K -> K),
  semi_ring_theory zero one add mul eq ->
  forall (dom : idx -> list nat) (var : nat -> K) (tens : tensor -> list nat -> K) keep c d l m,
  gok K keep (Mul one (m ++ l)) ->
  gok K keep (Mul c (Mul d m :: l)) /\
  same_set (gopen K keep (Mul c (Mul d m :: l))) (gopen K keep (Mul (mul c d) (m ++ l))) /\
  forall r, gden K zero one add mul dom var tens keep (Mul c (Mul d m :: l)) r
          = gden K zero one add mul dom var tens keep (Mul (mul c d) (m ++ l)) r.
Proof.
  intros K zero one add mul SR dom var tens keep c d l m H. split; [|split].
  - apply (gok_flat K keep d l m c one). exact H.
  - exact (flat_open K one dom var keep d l m H c (mul c d)).
  - intros r. apply (flat_value K zero one add mul SR). exact H.
Qed.

(** If nothing is to be kept, every well-formed expression can be converted: keepable is no
    restriction then; nor is it if the kept indices are indices of the value anyway (the call
    binarize(ResultExpr) passes those). *)
Theorem C65_keepable : forall (K : Type) (zero one : K) (add mul : K -> K -> K) (e : bex K) (keep : list idx)
    (dom : idx -> list nat) (var : nat -> K) (tens : tensor -> list nat -> K),
  semi_ring_theory zero one add mul eq -> wf K e -> (forall k, In k keep -> In k (open K [] e)) ->
  keepable K keep e /\ same_set (open K keep e) (open K [] e) /\
  forall r, den K zero one add mul dom var tens keep e r = den K zero one add mul dom var tens [] e r.
Proof.
  intros K zero one add mul e keep dom var tens SR W H.
  destruct (open_keep K zero one add mul dom var tens e keep W H) as (A & B & C). auto.
Qed.

(** The value does not depend on the values of other indices than those of the result. *)
Theorem C65_value_of_open_indices : forall (K : Type) (zero one : K) (add mul : K -> K -> K) (e : bex K)
    (dom : idx -> list nat) (var : nat -> K) (tens : tensor -> list nat -> K),
  semi_ring_theory zero one add mul eq -> wf K e -> forall x, ~ In x (open K [] e) -> forall r v,
  den K zero one add mul dom var tens [] e (set r x v) = den K zero one add mul dom var tens [] e r.
Proof. intros. eapply den_indep; eauto. Qed.

Module BinExample.
  Definition noproto (_ : idx) : list idx := [].
  Definition T (l : nat) (b k a : list idx) : bex Z := Ten (mkt (Ordinary l) b k a).
  Definition one_z (c : Z) := Z.eqb c 1.
  (* indices 1..9; 2 A{1;2} (B{2;3} + 3 C{2;4} D{4;3;}) E{3;;5} *)
  Definition inner : bex Z := Add [T 11 [2] [3] []; Mul 3%Z [T 12 [2] [4] []; T 13 [4] [3] []]].
  Definition e : bex Z := Mul 2%Z [T 10 [1] [2] []; inner; T 14 [3] [] [5]].

  Lemma e_wf : wf Z e.
  Proof.
    assert (A : forall l b k a, NoDup (b ++ k ++ a) -> b ++ k ++ a <> [] -> ~ In null (b ++ k ++ a) -> wf Z (T l b k a)) by (intros; repeat split; assumption).
    assert (NIN : wf Z inner).
    { split; [discriminate|]. split.
      - intros x y [<-|[<-|[]]] [<-|[<-|[]]] k; vm_compute; tauto.
      - split; [apply A; [repeat constructor; cbn; lia|discriminate|cbn; unfold null; lia]|]. split; [|exact Logic.I]. split.
        + intros [|[|[|i]]] [|[|[|j]]] x y k Hi Hj NE H1 H2; cbn in Hi, Hj; try congruence; injection Hi as <-; injection Hj as <-; cbn in H1, H2; vm_compute; intuition lia.
        + repeat split; cbn; try discriminate; try (repeat constructor; cbn; lia); unfold null; lia. }
    split.
    - intros [|[|[|i]]] [|[|[|j]]] x y k Hi Hj NE H1 H2; cbn in Hi, Hj; try (destruct i; discriminate); try (destruct j; discriminate); try congruence; injection Hi as <-; injection Hj as <-; cbn in H1, H2; vm_compute; intuition lia.
    - split; [apply A; [repeat constructor; cbn; lia|discriminate|cbn; unfold null; lia]|]. split; [exact NIN|]. split; [|exact Logic.I].
      apply A; [repeat constructor; cbn; lia|discriminate|cbn; unfold null; lia].
  Qed.
  Lemma e_keepable : keepable Z [] e /\ keepable Z [2; 3] e.
  Proof.
    split; intros x k Hx Hk Hs; [destruct Hk|]. destruct Hx as [<-|[<-|[<-|[]]]]; destruct Hk as [<-|[<-|[]]]; cbn in Hs; vm_compute; intuition lia.
  Qed.
  (** nothing kept: the result has the indices 1 and 5; with 2 and 3 kept it has these as well *)
  Definition res (keep : list idx) : option (list idx) :=
    match binarize Z one_z noproto false e keep with Ret n => Some (nidx Z n) | _ => None end.
  Example kept_nothing : res [] = Some [1; 5]. Proof. reflexivity. Qed.
  Example kept_some : res [2; 3] = Some [1; 2; 3; 5]. Proof. reflexivity. Qed.
  Definition val (keep : list idx) : option Z :=
    match binarize Z one_z noproto false e keep with
    | Ret n => Some (nval Z 0%Z Z.add Z.mul (fun x => seq 0 3) (fun _ => 1%Z)
                      (fun t v => fold_left (fun a b => (a * 2 + Z.of_nat b + match tkind t with Ordinary l => Z.of_nat l | _ => 0%Z end)%Z) v 1%Z) n (fun x => x))
    | _ => None end.
  Example value : exists v w, val [] = Some v /\ val [2; 3] = Some w /\ v <> w /\ v <> 0%Z /\ w <> 0%Z.
  Proof. eexists. eexists. split; [vm_compute; reflexivity|]. split; [vm_compute; reflexivity|]. split; [|split]; discriminate. Qed.

  (** a hyperindex of a nested product: (A{1;2} B{2;3}) C{2;3}: 2 is summed over outside only *)
  Definition hy : bex Z := Mul 1%Z [Mul 1%Z [T 10 [1] [2] []; T 11 [2] [3] []]; T 12 [2] [3] []].
  Example hy_ok : gok Z [] hy /\ ~ wf Z hy.
  Proof.
    split.
    - repeat split; cbn; try discriminate; try (repeat constructor; cbn; lia); unfold null; lia.
    - intros [W _]. specialize (W 0 1 _ _ 2 eq_refl eq_refl ltac:(discriminate) ltac:(cbn; auto) ltac:(cbn; auto)). vm_compute in W. intuition lia.
  Qed.
  Example hy_open : gopen Z [] hy = [1]. Proof. reflexivity. Qed.

  (** Without the condition that no tensor has an index twice, the result depends on the way in which
      the tensor is multiplied: T{1;1} S{2;2} gives a scalar (as the index functions say: every index
      occurs twice), but c T{1;1} and v T{1;1} give a tensor with the slots {1;1}, which is not summed. *)
  Definition tr (n : nat) : bex Z := T 10 [n] [n] [].
  Theorem C65_trace_refuted :
    get_unique_indices (Prod [Tens (mkt (Ordinary 10) [1] [1] []); Scal]) = Ret no_groups /\
    (exists n, binarize Z one_z noproto false (Mul 1%Z [tr 1; tr 2]) [] = Ret n /\ nres Z n = None) /\
    (exists n, binarize Z one_z noproto false (Mul 2%Z [tr 1]) [] = Ret n /\ nres Z n = Some (mkg [1] [1] [])) /\
    (exists n, binarize Z one_z noproto false (Mul 1%Z [Var 0; tr 1]) [] = Ret n /\ nres Z n = Some (mkg [1] [1] [])).
  Proof. repeat split; eexists; split; reflexivity. Qed.

  (** A sum of a scalar and a tensor, an empty sum and a tensor without indices fail. *)
  Theorem C65_failures :
    binarize Z one_z noproto false (Add [Con 1%Z; T 10 [1] [2] []]) [] = Undefined /\
    binarize Z one_z noproto false (Add []) [] = Undefined /\
    binarize Z one_z noproto false (T 10 [] [] []) [] = Undefined.
  Proof. repeat split. Qed.
End BinExample.

Print Assumptions C65_binarize_partial.
Print Assumptions C65_usual_reading.
Print Assumptions C65_order_of_factors.
Print Assumptions C65_nested_factor.
Print Assumptions C65_keepable.
Print Assumptions C65_value_of_open_indices.
