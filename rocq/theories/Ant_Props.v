(** * Properties of the antisymmetrizer and of loop counting *)
From Coq Require Import List Arith Lia Bool ZArith Permutation Sorted Factorial.
From Verif Require Import Wick_Spec Wick_Ring.
From Verif Require Import Alg_Spec Ant_Model Ant_Spec Ant_Proofs Ant_Proofs2 Ant_Proofs3 Ant_Proofs4.
Import ListNotations.

(** ** C112 *)

(** The index orders generated for the lower (or upper) indices of a product are exactly the
    arrangements that are increasing inside every factor, each once, each with the sign of the
    permutation; the given order comes first. *)
Theorem C112_arrangements : forall (I C : Type) (d : I) (fs : list (factor I C)) (b : list I) fuel,
  fact (length b) <= fuel ->
  exists L, hd_error L = Some (seq 0 (length b)) /\ NoDup L /\
    (forall q, In q L <-> distinct_arrangement (ranks fs) (length b) q) /\
    gen_antisymm_unique d (index_group 0 fs) fuel b =
      Some (map (fun q => (parity_sign q, map (fun k => nth k b d) q)) L).
Proof.
  intros I C d fs b fuel Hf. rewrite index_group_ranks.
  destruct (gen_unique_spec I d (ranks fs) _ fuel Hf) as (L & H & ND & CC & G).
  exists L. split; [exact H|]. split; [exact ND|]. split; [exact CC|]. apply G. reflexivity.
Qed.

(** The terms generated for a product: one for every pair of arrangements of the lower and of the
    upper indices, with the product of the two signs, and with the factors of the product given
    the rearranged indices. *)
Theorem C112_terms : forall (I C : Type) (d : I) (c1 : C) cmul cneg (p : product I C) fuel,
  balanced (p_factors p) -> fact (length (lower (p_factors p))) <= fuel ->
  exists L ts, NoDup L /\
    (forall q, In q L <-> distinct_arrangement (ranks (p_factors p)) (length (lower (p_factors p))) q) /\
    all_terms d c1 cmul cneg fuel p = Some ts /\
    Forall2 (fun (bk : list nat * list nat) t =>
        let c := fold_left cmul (flat_map (fun f => match f with FConst x => [x] | _ => [] end) (p_factors p)) c1 in
        p_scalar t = (if Z.eqb (parity_sign (fst bk)) (parity_sign (snd bk)) then c else cneg c) /\
        same_factors (p_factors t)
          (refill (p_factors p) (map (fun k => nth k (lower (p_factors p)) d) (fst bk))
                                (map (fun k => nth k (upper (p_factors p)) d) (snd bk))))
      (list_prod L L) ts.
Proof.
  intros I C d c1 cmul cneg p fuel B Hf.
  destruct (all_terms_spec I C d c1 cmul cneg p fuel B Hf) as (L & _ & ND & CC & E).
  exists L. eexists. split; [exact ND|]. split; [exact CC|]. split; [exact E|].
  assert (Sc : starting_constant c1 cmul (p_factors p) =
     fold_left cmul (flat_map (fun f => match f with FConst x => [x] | _ => [] end) (p_factors p)) c1).
  { unfold starting_constant. clear. revert c1. induction (p_factors p) as [|f fs IH]; intros c; [reflexivity|].
    cbn [fold_left flat_map]. rewrite fold_left_app. rewrite IH. destruct f; reflexivity. }
  cbv zeta. rewrite <- Sc.
  assert (forall L', Forall2 (fun (bk : list nat * list nat) t =>
        p_scalar t = (if Z.eqb (parity_sign (fst bk)) (parity_sign (snd bk)) then starting_constant c1 cmul (p_factors p)
                      else cneg (starting_constant c1 cmul (p_factors p))) /\
        same_factors (p_factors t)
          (refill (p_factors p) (map (fun k => nth k (lower (p_factors p)) d) (fst bk))
                                (map (fun k => nth k (upper (p_factors p)) d) (snd bk))))
      (list_prod L' L) (concat (map (fun bq => map (fun kq => term I C d c1 cmul cneg (p_factors p) bq kq) L) L'))) as K; [|apply K].
  induction L' as [|bq L' IH]; [constructor|]. cbn [list_prod map concat]. apply Forall2_app; [|exact IH].
  assert (forall L2, Forall2 (fun (bk : list nat * list nat) t =>
        p_scalar t = (if Z.eqb (parity_sign (fst bk)) (parity_sign (snd bk)) then starting_constant c1 cmul (p_factors p)
                      else cneg (starting_constant c1 cmul (p_factors p))) /\
        same_factors (p_factors t)
          (refill (p_factors p) (map (fun k => nth k (lower (p_factors p)) d) (fst bk))
                                (map (fun k => nth k (upper (p_factors p)) d) (snd bk))))
      (map (fun y => (bq, y)) L2) (map (fun kq => term I C d c1 cmul cneg (p_factors p) bq kq) L2)) as K; [|apply K].
  induction L2 as [|kq L2 IH2]; cbn [map]; constructor; [|exact IH2].
  cbn [fst snd p_scalar p_factors term]. split; [|apply rebuild_same].
  unfold signed, parity_sign. destruct (Nat.even (inversions Nat.ltb bq)), (Nat.even (inversions Nat.ltb kq)); reflexivity.
Qed.

(** For antisymmetric tensors and fermionic operators the sum of the terms is antisymmetric in all
    lower and in all upper indices of the product, also across factors: exchanging two of them
    changes its sign. Missing: the terms are summed before repeated ones are dropped. *)
Theorem C112_antisymmetric_partial : forall (I C : Type) (d : I) (c1 : C) cmul cneg (R : ring)
    (vf : factor I C -> car R) (vc : C -> car R) (p p' : product I C) fuel a,
  (forall c, vc (cneg c) = ropp R (vc c)) ->
  balanced (p_factors p) -> fact (length (lower (p_factors p))) <= fuel ->
  antisymmetric_factors vf (p_factors p) -> same_shape (p_factors p) (p_factors p') ->
  (exchanged a (lower (p_factors p)) (lower (p_factors p')) /\ upper (p_factors p') = upper (p_factors p)) \/
  (exchanged a (upper (p_factors p)) (upper (p_factors p')) /\ lower (p_factors p') = lower (p_factors p)) ->
  exists ts ts', all_terms d c1 cmul cneg fuel p = Some ts /\ all_terms d c1 cmul cneg fuel p' = Some ts' /\
    sum_value vf vc ts' = ropp R (sum_value vf vc ts).
Proof. intros. eapply element_antisymmetric; eassumption. Qed.

(** The result consists of generated terms; every generated term, or one that the comparison of
    canonical forms regards as equal, is in it; no two of its summands are regarded as equal. *)
Theorem C112_screened : forall (I C : Type) (d : I) (c1 : C) cmul cneg same (p : product I C) fuel,
  (forall t, same t t = true) ->
  balanced (p_factors p) -> fact (length (lower (p_factors p))) <= fuel ->
  exists ts r, all_terms d c1 cmul cneg fuel p = Some ts /\
    antisymm_element d c1 cmul cneg same fuel p = Some r /\
    incl r ts /\ (forall t, In t ts -> exists t', In t' r /\ same t t' = true) /\
    ForallOrdPairs (fun x y => same y x = false) r.
Proof.
  intros I C d c1 cmul cneg same p fuel Rf B Hf.
  destruct (all_terms_spec I C d c1 cmul cneg p fuel B Hf) as (L & _ & _ & _ & E).
  unfold antisymm_element. rewrite E. cbn [option_map]. do 2 eexists. split; [reflexivity|]. split; [reflexivity|].
  eapply screen_spec; eauto.
Qed.

(** ** C113 *)
Lemma loops_share (R : nat -> nat -> Prop) (det : forall i j j', R i j -> R i j' -> j = j') c c' d :
  closed_loop R c -> closed_loop R c' -> In d c -> In d c' -> incl c c'.
Proof.
  intros Hc Hc' H H'. pose proof Hc as K. destruct c as [|x l]; [destruct H|]. destruct K as (ND & P & Z).
  assert (L : In (last l x) c') by (eapply (path_into R det); eauto).
  assert (X : In x c') by (eapply (cycle_closed R det); eauto).
  clear - det Hc' P X. revert x P X. induction l as [|y l IH]; intros x P X e He.
  - destruct He as [->|[]]. exact X.
  - destruct P as [P1 P2]. destruct He as [->|He]; [exact X|]. apply (IH y); auto. eapply (cycle_closed R det); eauto.
Qed.

Lemma loops_le (R : nat -> nat -> Prop) (det : forall i j j', R i j -> R i j' -> j = j') cs : forall cs',
  Forall (closed_loop R) cs -> NoDup (concat cs) -> Forall (closed_loop R) cs' ->
  (forall c, In c cs -> exists c' d, In c' cs' /\ In d c /\ In d c') -> length cs <= length cs'.
Proof.
  induction cs as [|c cs IH]; intros cs' F ND F' H; [cbn; lia|].
  destruct (H c (or_introl eq_refl)) as (c' & d & Hc' & Hd & Hd').
  apply in_split in Hc' as (a & b & ->). inversion F as [|? ? Fc Fcs]; subst.
  apply Forall_app in F' as [Fa Fb]. inversion Fb as [|? ? Fc' Fb']; subst.
  rewrite app_length. cbn [length]. rewrite <- plus_n_Sm, <- app_length. apply le_n_S, IH.
  - exact Fcs.
  - cbn in ND. clear - ND. induction c as [|x c IHc]; [exact ND|]. inversion ND; auto.
  - apply Forall_app. auto.
  - intros c2 Hc2. destruct (H c2 (or_intror Hc2)) as (c2' & e & Hc2' & He & He').
    apply in_app_iff in Hc2' as [K|[<-|K]]; [exists c2', e; rewrite in_app_iff; auto| |exists c2', e; rewrite in_app_iff; auto].
    exfalso. rewrite Forall_forall in Fcs.
    assert (In e c) as Hec by (apply (loops_share R det c' c d Fc' Fc Hd' Hd); exact He').
    cbn in ND. assert (In e (concat cs)) by (apply in_concat; eauto).
    clear - ND Hec H0. induction c as [|x c IHc]; [destruct Hec|]. cbn in ND. inversion ND as [|? ? N1 N2]; subst.
    destruct Hec as [->|Hec]; [apply N1, in_or_app; auto|auto].
Qed.

(** [num_closed_loops] is the number of closed loops when assertions are disabled, and when all
    original indices are paired again also when they are enabled. Missing: with assertions enabled
    it can abort for a partial pairing. *)
Theorem C113_closed_loops_partial : forall chk iu il nu nl fuel,
  pairing iu il nu nl -> length nu <= fuel -> (chk = true -> length nu = length iu) ->
  exists k, num_closed_loops chk iu il nu nl fuel = Ok k /\ number_of_loops (follows iu il nu nl) k /\
    forall k', number_of_loops (follows iu il nu nl) k' -> k' = k.
Proof.
  intros chk iu il nu nl fuel HP Hf Hc.
  destruct (num_loops_spec chk iu il nu nl HP fuel Hf) as [(k & N & E)|(H1 & H2 & _)].
  - exists k. split; [exact E|]. split; [exact N|]. intros k' N'.
    destruct N as (cs & <- & F & ND & A). destruct N' as (cs' & <- & F' & ND' & A').
    assert (Sub : forall xs ys, Forall (closed_loop (follows iu il nu nl)) xs ->
       (forall c i, closed_loop (follows iu il nu nl) c -> In i c -> In i (concat ys)) ->
       forall c, In c xs -> exists c' d, In c' ys /\ In d c /\ In d c').
    { intros xs ys Fx Ay c Hx. rewrite Forall_forall in Fx. specialize (Fx c Hx). destruct c as [|x l]; [destruct Fx|].
      specialize (Ay _ x Fx (or_introl eq_refl)). apply in_concat in Ay as (c' & H1 & H2). exists c', x. cbn; auto. }
    apply Nat.le_antisymm; eapply (loops_le _ (f_det iu il nu nl HP)); eauto.
  - exfalso. apply H2, full_total; auto.
Qed.

(** In every case the function ends with the number of loops or by a failed assertion. *)
Theorem C113_no_undefined : forall chk iu il nu nl fuel,
  pairing iu il nu nl -> length nu <= fuel ->
  (exists k, num_closed_loops chk iu il nu nl fuel = Ok k /\ number_of_loops (follows iu il nu nl) k) \/
  (chk = true /\ num_closed_loops chk iu il nu nl fuel = AssertFailed).
Proof.
  intros chk iu il nu nl fuel HP Hf.
  destruct (num_loops_spec chk iu il nu nl HP fuel Hf) as [(k & N & E)|(H1 & _ & E)]; [left; eauto|right; auto].
Qed.

Module AntExamples.
  Definition pr : product nat Z := mkProduct 1%Z [FTensor 7 [1] [11]; FTensor 8 [2; 3] [12; 13]].

  (** Hypotheses are met: 3 arrangements, 9 terms. *)
  Example pr_balanced : balanced (p_factors pr).
  Proof. repeat constructor. Qed.
  Example pr_terms : option_map (@length _) (all_terms 0 1%Z Z.mul Z.opp 6 pr) = Some 9.
  Proof. reflexivity. Qed.
  Example pr_gen : gen_antisymm_unique 0 (index_group 0 (p_factors pr)) 6 [1; 2; 3] =
    Some [(1%Z, [1; 2; 3]); ((-1)%Z, [2; 1; 3]); (1%Z, [3; 1; 2])].
  Proof. reflexivity. Qed.

  (** Integers as the ring, one tensor antisymmetric in two lower and two upper indices, one with
      one lower and one upper index. *)
  Definition zring : ring := mkring Z 0%Z 1%Z Z.add Z.mul Z.opp Z.add_0_l Z.add_comm Z.add_assoc Z.add_opp_diag_r
    Z.mul_1_l Z.mul_1_r Z.mul_assoc Z.mul_add_distr_r (fun x y z => Z.mul_add_distr_l z x y).
  Definition anti (l : list nat) : Z := match l with [x] => Z.of_nat x | [x; y] => (Z.of_nat x - Z.of_nat y)%Z | _ => 0%Z end.
  Definition vf (f : factor nat Z) : car zring :=
    match f with FTensor _ b k => (anti b * anti k)%Z | FConst c => c | FOp c a => (anti c * anti a)%Z end.
  Lemma anti_ex u x y v : anti (u ++ y :: x :: v) = (- anti (u ++ x :: y :: v))%Z.
  Proof.
    destruct u as [|a [|b u]]; cbn.
    - destruct v; cbn; lia.
    - reflexivity.
    - destruct u; reflexivity.
  Qed.
  Example vf_anti : antisymmetric_factors vf (p_factors pr).
  Proof.
    split; intros; cbn [vf]; rewrite (anti_ex u x y v); cbn [ropp zring car]; split; ring.
  Qed.
  Example pr_exchange : exchanged 0 (lower (p_factors pr)) [2; 1; 3].
  Proof. exists [], 1, 2, [3]. repeat split. Qed.
  Example pr_value : option_map (sum_value vf (fun c : Z => c : car zring)) (all_terms 0 1%Z Z.mul Z.opp 6 pr) = Some 0%Z.
  Proof. vm_compute. reflexivity. Qed.
  Definition pr2 : product nat Z := mkProduct 1%Z [FTensor 7 [1] [11]; FTensor 8 [2] [12]].
  Example pr2_screen : option_map (@length _)
    (antisymm_element 0 1%Z Z.mul Z.opp
       (fun s t => Z.eqb (p_scalar s) (p_scalar t) &&
          if list_eq_dec (list_eq_dec Nat.eq_dec) (map f_bra (p_factors s)) (map f_bra (p_factors t)) then
          if list_eq_dec (list_eq_dec Nat.eq_dec) (map f_ket (p_factors s)) (map f_ket (p_factors t)) then true else false else false) 2 pr2) = Some 4.
  Proof. reflexivity. Qed.

  (** A product of a single tensor has nothing to antisymmetrize, but the result is not the product
      itself: its scalar is lost. *)
  Theorem C112_scalar_lost_refuted : ~ (forall (p : product nat Z) same f,
    p_factors p = [f] -> has_indices f = true -> balanced [f] ->
    exists fuel, antisymm_element 0 1%Z Z.mul Z.opp same fuel p = Some [p]).
  Proof.
    intros H.
    destruct (H (mkProduct 2%Z [FTensor 7 [1] [11]]) (fun _ _ => true) (FTensor 7 [1] [11]) eq_refl eq_refl) as [[|fuel] E].
    - repeat constructor.
    - discriminate.
    - cbn in E. discriminate.
  Qed.

  (** The original pairs (1,11) .. (4,14); new pairs (3,14), (2,13), (1,12): an open chain. *)
  Example loops_pairing : pairing [1; 2; 3; 4] [11; 12; 13; 14] [3; 2; 1] [14; 13; 12].
  Proof.
    repeat split; try reflexivity.
    1-4: repeat (constructor; [cbn; intuition discriminate|]); constructor.
    all: intros x; cbn; intuition auto.
  Qed.
  Theorem C113_assert_refuted : ~ (forall iu il nu nl fuel, pairing iu il nu nl -> length nu <= fuel ->
    exists k, num_closed_loops true iu il nu nl fuel = Ok k).
  Proof.
    intros H. destruct (H _ _ _ _ 3 loops_pairing (le_n _)) as [k E]. vm_compute in E. discriminate.
  Qed.
  Example loops_two : num_closed_loops true [1; 2; 3] [11; 12; 13] [1; 3; 2] [11; 12; 13] 3 = Ok 2.
  Proof. reflexivity. Qed.
  Example loops_open : num_closed_loops false [1; 2; 3; 4] [11; 12; 13; 14] [3; 2; 1] [14; 13; 12] 3 = Ok 0.
  Proof. reflexivity. Qed.
End AntExamples.
