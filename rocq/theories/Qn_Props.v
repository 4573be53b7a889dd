(** C68: a product that screening replaces by zero has no contraction that could be nonzero. *)
From Coq Require Import List NArith ZArith Bool Arith Lia Permutation.
From Verif Require Import Wick_Model Wick_Spec Wick_Ring Wick_Proofs1 Wick_Proofs11 Qn_Model Qn_Spec Qn_Proofs1 Qn_Proofs2 Qn_Proofs3 Qn_Example.
Import ListNotations.

Section Contents.
  Variable ctx : context.
  Context {I : Type}.
  Variable base : I -> nat.

  (** [o] declares the change [d] for the vacuum, and [w] conforms to it. *)
  Definition keeps_promise (o : operator) (w : list (op I)) : Prop :=
    exists d, apply ctx o (zero_qns ctx) = Some d /\ conforms ctx base d w.

  (** C68: no contraction pattern of a product of operators and a source state leaves what
      can_change_qns rules out. *)
  Theorem C68_patterns ops ws target source w0 m rest : occupied_lowest ctx ->
    Forall2 keeps_promise ops ws -> conforms ctx base source w0 -> can_change_qns ctx ops target source = Some false ->
    partial_matching (tagged (ws ++ [w0])) m rest -> admissible (contractible ctx base) m ->
    ~ conforms ctx base target (map snd rest).
  Proof.
    intros L HF H0 Hc P Hm. eapply change_bound; eauto; [apply partial_perm in P; exact P|eapply proper_matching; eauto].
  Qed.

  Section Values.
    Context {R : ring}.
    Variable fermi : bool.
    Variables plus minus : op I -> car R.
    Variable contr : op I -> op I -> car R.
    Variable V : car R -> car R.
    (** contractions vanish unless a quasiparticle annihilator meets a creator of the same base space *)
    Definition vacuum_of : Prop := canonical fermi plus minus contr /\ expectation plus minus V /\
      forall l r, contractible ctx base l r = false -> contr l r = r0 R.
    (** every operator is a sum of terms that keep what the operator promises *)
    Definition operators (ops : list operator) (ls : list (list (car R * list (op I)))) : Prop :=
      Forall2 (fun o terms => Forall (fun t => central (fst t) /\ keeps_promise o (snd t)) terms) ops ls.
    Notation product ls := (rprod (map (operator_value fermi plus minus) ls)).
    Notation N := (normal fermi plus minus).

    Theorem C68_matrix_element ops ls target source w' w0 : occupied_lowest ctx -> vacuum_of -> operators ops ls ->
      conforms ctx base source w0 -> conforms ctx base (adjoint_qns target) w' -> can_change_qns ctx ops target source = Some false ->
      V (N w' * product ls * N w0)%op = r0 R.
    Proof. intros L (H1 & H2 & H3) HF H0 H' Hc. eapply matrix_element; eauto. Qed.

    (** The screening of expectation values of products. *)
    Theorem C68_screen ops ls : occupied_lowest ctx -> vacuum_of -> operators ops ls -> screened ctx ops = Some true ->
      V (product ls) = r0 R.
    Proof.
      intros L Hv HF Hs. unfold screened in Hs. destruct (can_change_qns ctx ops (zero_qns ctx) (zero_qns ctx)) as [[|]|] eqn:E; try discriminate.
      pose proof (C68_matrix_element ops ls (zero_qns ctx) (zero_qns ctx) [] [] L Hv HF) as H.
      cbn [normal] in H. rewrite rmul_1_l, rmul_1_r in H. apply H; auto.
      - apply zero_conforms.
      - replace (adjoint_qns (zero_qns ctx)) with (zero_qns ctx); [apply zero_conforms|].
        unfold adjoint_qns, zero_qns. induction (nslots ctx) as [|n IH]; [reflexivity|]. cbn. f_equal. exact IH.
    Qed.

    Lemma adjoint_excitation k : adjoint_qns (excitation_type_qns ctx k any) = deexcitation_type_qns ctx k any.
    Proof.
      unfold adjoint_qns, excitation_type_qns, deexcitation_type_qns. destruct (physical ctx); [reflexivity|]. rewrite map_map. apply map_ext. intros b.
      destruct (negb (Nat.eqb (sqns b) any)); reflexivity.
    Qed.
    Lemma adjoint_interval_excitation k : adjoint_qns (interval_excitation_type_qns ctx k any) = interval_deexcitation_type_qns ctx k any.
    Proof.
      unfold adjoint_qns, interval_excitation_type_qns, interval_deexcitation_type_qns. destruct (physical ctx); [reflexivity|]. rewrite map_map. apply map_ext. intros b.
      destruct (negb (Nat.eqb (sqns b) any)); reflexivity.
    Qed.

    Lemma conforms_weaken (q q' : qns) (w : list (op I)) : length q = length q' ->
      (forall k x y, nth_error q k = Some x -> nth_error q' k = Some y ->
        (fst (fst y) <= fst (fst x) /\ snd (fst x) <= snd (fst y) /\ fst (snd y) <= fst (snd x) /\ snd (snd x) <= snd (snd y))%Z) ->
      conforms ctx base q w -> conforms ctx base q' w.
    Proof.
      intros L H (Lq & S & Hq). split; [congruence|]. split; [intros o Ho; rewrite <- L; auto|].
      intros k c n Hk. destruct (nth_error q k) as [[c0 n0]|] eqn:E; [|apply nth_error_None in E; assert (nth_error q' k <> None) by congruence; apply nth_error_Some in H0; lia].
      specialize (H _ _ _ E Hk). specialize (Hq _ _ _ E). cbn [fst snd] in *. lia.
    Qed.

    Lemma interval_conforms j k sc sn (w : list (op I)) (q : qns) : plain_spaces ctx -> j <= k ->
      (physical ctx = true -> q = [(rank_upto k, rank_upto k)]) ->
      (physical ctx = false -> q = map (fun b => if negb (Nat.eqb (sqns b) any) then ((0, 0), (0, 0))%Z else
        (if includes sc (stype b) then rank_upto k else (0, 0)%Z, if includes sn (stype b) then rank_upto k else (0, 0)%Z)) (base_spaces ctx)) ->
      made_of ctx base (repeat sc j) (repeat sn j) w -> conforms ctx base q w.
    Proof.
      intros Hp Hjk Q1 Q2 Hw.
      pose proof (space_conforms ctx base Hp false false sc sn j j w
        (if physical ctx then [(rank_upto j, rank_upto j)] else map (fun b => if negb (Nat.eqb (sqns b) any) then ((0, 0), (0, 0))%Z else
        (if includes sc (stype b) then bounds false j else (0, 0)%Z, if includes sn (stype b) then bounds false j else (0, 0)%Z)) (base_spaces ctx))) as H.
      eapply conforms_weaken; [| |apply H; try discriminate; [| |exact Hw]].
      - destruct (physical ctx); [rewrite Q1; reflexivity|rewrite (Q2 eq_refl), !map_length; reflexivity].
      - intros i x y Hx Hy. destruct (physical ctx).
        + rewrite Q1 in Hy by reflexivity. destruct i as [|[|i]]; try discriminate. injection Hx as <-. injection Hy as <-. cbn. lia.
        + rewrite Q2 in Hy by reflexivity. rewrite nth_error_map in Hx, Hy. destruct (nth_error (base_spaces ctx) i) as [b|]; [|discriminate].
          cbn [option_map] in Hx, Hy. injection Hx as <-. injection Hy as <-. destruct (negb (Nat.eqb (sqns b) any)), (includes sc (stype b)), (includes sn (stype b)); cbn; lia.
      - intros P. rewrite P. exists j, j. auto.
      - intros P. rewrite P. reflexivity.
    Qed.

    (** raises_vacuum_to_rank, lowers_rank_to_vacuum, ... : a projection on the k-fold excited states
        (or on those up to k-fold) that is ruled out vanishes. *)
    Theorem C68_ranks ops ls k : occupied_lowest ctx -> plain_spaces ctx -> vacuum_of -> operators ops ls ->
      (raises_vacuum_to_rank ctx ops k = Some false ->
        forall w, made_of ctx base (repeat (hole ctx any) k) (repeat (particle ctx any) k) w -> V (N w * product ls)%op = r0 R) /\
      (lowers_rank_to_vacuum ctx ops k = Some false ->
        forall w, made_of ctx base (repeat (particle ctx any) k) (repeat (hole ctx any) k) w -> V (product ls * N w)%op = r0 R) /\
      (raises_vacuum_up_to_rank ctx ops k = Some false ->
        forall j w, j <= k -> made_of ctx base (repeat (hole ctx any) j) (repeat (particle ctx any) j) w -> V (N w * product ls)%op = r0 R) /\
      (lowers_rank_or_lower_to_vacuum ctx ops k = Some false ->
        forall j w, j <= k -> made_of ctx base (repeat (particle ctx any) j) (repeat (hole ctx any) j) w -> V (product ls * N w)%op = r0 R).
    Proof.
      intros L Hp Hv HF.
      assert (Z0 : conforms ctx base (zero_qns ctx) []) by apply zero_conforms.
      assert (Z1 : conforms ctx base (adjoint_qns (zero_qns ctx)) []).
      { replace (adjoint_qns (zero_qns ctx)) with (zero_qns ctx); [exact Z0|].
        unfold adjoint_qns, zero_qns. induction (nslots ctx) as [|n IH]; [reflexivity|]. cbn. f_equal. exact IH. }
      split; [|split; [|split]].
      - intros Hc w Hw. rewrite <- (rmul_1_r R (N w * product ls)%op). apply (C68_matrix_element ops ls (excitation_type_qns ctx k any) (zero_qns ctx) w [] L Hv HF Z0); [|exact Hc].
        rewrite adjoint_excitation. apply deexcitation_conforms; auto.
      - intros Hc w Hw. replace (product ls * N w)%op with (N [] * product ls * N w)%op by (cbn [normal]; rewrite rmul_1_l; reflexivity).
        apply (C68_matrix_element ops ls (zero_qns ctx) (excitation_type_qns ctx k any) [] w L Hv HF); auto. apply excitation_conforms; auto.
      - intros Hc j w Hj Hw. rewrite <- (rmul_1_r R (N w * product ls)%op). apply (C68_matrix_element ops ls (interval_excitation_type_qns ctx k any) (zero_qns ctx) w [] L Hv HF Z0); [|exact Hc].
        rewrite adjoint_interval_excitation. eapply interval_conforms; [exact Hp|exact Hj| | |exact Hw]; intros P; unfold interval_deexcitation_type_qns; rewrite P; reflexivity.
      - intros Hc j w Hj Hw. replace (product ls * N w)%op with (N [] * product ls * N w)%op by (cbn [normal]; rewrite rmul_1_l; reflexivity).
        apply (C68_matrix_element ops ls (zero_qns ctx) (interval_excitation_type_qns ctx k any) [] w L Hv HF); auto.
        eapply interval_conforms; [exact Hp|exact Hj| | |exact Hw]; intros P; unfold interval_excitation_type_qns; rewrite P; reflexivity.
    Qed.
  End Values.

  (** The operators keep what they promise: their terms, as made by OpMaker from the spaces of the
      registry, conform to the declared change. *)
  Notation P := (particle ctx any).
  Notation H := (hole ctx any).
  Theorem C68_contents : plain_spaces ctx ->
    (forall k w, made_of ctx base (repeat P k) (repeat H k) w -> keeps_promise (op_t ctx k) w) /\
    (forall k w, made_of ctx base (repeat H k) (repeat P k) w -> keeps_promise (op_lambda ctx k) w) /\
    (forall k w, general_term ctx base k w -> keeps_promise (op_general ctx k) w) /\
    (forall np nh o w, op_A ctx np nh = Some o -> physical ctx = false \/ np = nh ->
      made_of ctx base (if (np <? 0) || (nh <? 0) then repeat H (Z.abs_nat nh) else repeat P (Z.abs_nat np))%Z
                       (if (np <? 0) || (nh <? 0) then repeat P (Z.abs_nat np) else repeat H (Z.abs_nat nh))%Z w -> keeps_promise o w) /\
    (forall k o w, op_S ctx k = Some o ->
      made_of ctx base (repeat (if (k <? 0)%Z then H else P) (Z.abs_nat k)) (repeat (if (k <? 0)%Z then P else H) (Z.abs_nat k)) w -> keeps_promise o w) /\
    (forall na nc w, physical ctx = false \/ na = nc -> made_of ctx base (repeat P nc) (repeat H na) w -> keeps_promise (op_r ctx na nc P H) w) /\
    (forall na nc w, physical ctx = false \/ na = nc -> made_of ctx base (repeat H nc) (repeat P na) w -> keeps_promise (op_l ctx na nc H P) w).
  Proof.
    intros Hp. split; [|split; [|split; [|split; [|split; [|split]]]]].
    - intros k w Hw. apply plain_declared, excitation_conforms; auto.
    - intros k w Hw. apply plain_declared, deexcitation_conforms; auto.
    - intros k w Hw. apply plain_declared, general_conforms; auto.
    - intros np nh o w Ho Hph Hw. unfold op_A in Ho. destruct ((nh =? 0) && (np =? 0))%Z; [discriminate|].
      destruct (negb (nh =? 0) && negb (np =? 0) && _)%Z; [discriminate|]. injection Ho as <-. apply plain_declared.
      assert (Hph' : physical ctx = false \/ Z.abs_nat np = Z.abs_nat nh) by (destruct Hph as [| ->]; auto).
      destruct ((np <? 0) || (nh <? 0))%Z; [apply generic_deexcitation_conforms|apply generic_excitation_conforms]; auto.
    - intros k o w Ho Hw. unfold op_S in Ho. destruct (k =? 0)%Z; [discriminate|]. injection Ho as <-. apply plain_declared.
      destruct (k <? 0)%Z; [apply deexcitation_conforms|apply excitation_conforms]; auto.
    - intros na nc w Hph Hw. apply plain_declared, generic_excitation_conforms; auto. destruct Hph; auto.
    - intros na nc w Hph Hw. apply plain_declared, generic_deexcitation_conforms; auto.
  Qed.

  (** The adjoint of an operator keeps the adjoint promise. *)
  Theorem C68_adjoint o d o' w : apply ctx o (zero_qns ctx) = Some d -> op_adjoint ctx o = Some o' -> conforms ctx base (adjoint_qns d) w -> keeps_promise o' w.
  Proof. intros Hd Ho Hw. unfold op_adjoint in Ho. rewrite Hd in Ho. injection Ho as <-. apply adjointed_declared, Hw. Qed.
End Contents.

(** The tests always have an answer for the operators of mbpt::op (no assertion fails). *)
Theorem C68_defined ctx ops : (forall o, In o ops -> (exists k, o = op_t ctx k \/ o = op_lambda ctx k \/ o = op_general ctx k) \/
      (exists np nh, op_A ctx np nh = Some o) \/ (exists k, op_S ctx k = Some o) \/ (exists na nc s s', o = op_r ctx na nc s s' \/ o = op_l ctx na nc s s')) ->
  (exists b, screened ctx ops = Some b) /\
  (forall k, (exists b, raises_vacuum_to_rank ctx ops k = Some b) /\ (exists b, lowers_rank_to_vacuum ctx ops k = Some b) /\
    (exists b, raises_vacuum_up_to_rank ctx ops k = Some b) /\ (exists b, lowers_rank_or_lower_to_vacuum ctx ops k = Some b)) /\
  (forall o o', In o ops -> In o' ops -> exists b, commutes_with ctx o o' = Some b).
Proof.
  intros H. assert (Ho : Forall (operator_ok ctx) ops).
  { apply Forall_forall. intros o Hin. destruct (H o Hin) as [(k & [->|[->| ->]])|[(np & nh & E)|[(k & E)|(na & nc & s & s' & [->| ->])]]].
    - apply excitation_ok.
    - apply deexcitation_ok.
    - apply general_ok.
    - unfold op_A in E. destruct ((nh =? 0) && (np =? 0))%Z; [discriminate|]. destruct (negb (nh =? 0) && negb (np =? 0) && _)%Z; [discriminate|]. injection E as <-.
      destruct ((np <? 0) || (nh <? 0))%Z; [apply generic_deexcitation_ok|apply generic_excitation_ok].
    - unfold op_S in E. destruct (k =? 0)%Z; [discriminate|]. injection E as <-. destruct (k <? 0)%Z; [apply deexcitation_ok|apply excitation_ok].
    - apply generic_excitation_ok.
    - apply generic_deexcitation_ok. }
  split; [|split].
  - unfold screened. destruct (change_defined ctx ops (zero_qns ctx) (zero_qns ctx) Ho (zero_ok ctx)) as (b & ->). eexists. reflexivity.
  - intros k. split; [|split; [|split]]; apply change_defined; auto; try apply zero_ok; try apply excitation_ok; apply interval_excitation_ok.
  - intros o o' H1 H2. apply commutes_defined; eapply Forall_forall; eauto.
Qed.

(** ** Examples and findings *)
Module QnExample.
  Definition one : car R4 := r1 R4.
  Definition c (i : nat) := mkop i true.
  Definition a (i : nat) := mkop i false.
  Definition product4 (ls : list (list (car R4 * list (op nat)))) := rprod (map (operator_value true plus4 minus4) ls).
  (** one-electron operator with all its blocks, single excitation, single deexcitation *)
  Definition f_terms := [(one, [c 0; a 0]); (one, [c 0; a 1]); (one, [c 1; a 0]); (one, [c 1; a 1])].
  Definition t_terms := [(one, [c 1; a 0])].
  Definition l_terms := [(one, [c 0; a 1])].

  Example vacuum4 : vacuum_of sr sr_base true plus4 minus4 contr4 V4.
  Proof. split; [exact relations4|]. split; [exact V4_ok|exact sr_zero]. Qed.
  Lemma central_one : central one. Proof. exact central_1. Qed.
  Lemma f_general : Forall (fun t => central (fst t) /\ keeps_promise sr sr_base (op_general sr 1) (snd t)) f_terms.
  Proof.
    destruct (C68_contents sr sr_base (proj2 sr_ok)) as (_ & _ & Hg & _).
    assert (S : forall i, somewhere sr sr_base i) by (intros [|i]; unfold somewhere, sr_base; cbn; lia).
    assert (G : forall i j, central (fst (one, [c i; a j])) /\ keeps_promise sr sr_base (op_general sr 1) (snd (one, [c i; a j]))).
    { intros i j. split; [exact central_one|]. apply Hg. exists [i], [j]. repeat split; auto. }
    repeat constructor; apply G.
  Qed.
  Lemma t_excites : Forall (fun t => central (fst t) /\ keeps_promise sr sr_base (op_t sr 1) (snd t)) t_terms.
  Proof.
    destruct (C68_contents sr sr_base (proj2 sr_ok)) as (Ht & _). constructor; [|constructor]. split; [exact central_one|]. apply Ht.
    exists [1], [0]. repeat split; repeat constructor; eexists; split; reflexivity.
  Qed.
  Lemma l_deexcites : Forall (fun t => central (fst t) /\ keeps_promise sr sr_base (op_lambda sr 1) (snd t)) l_terms.
  Proof.
    destruct (C68_contents sr sr_base (proj2 sr_ok)) as (_ & Hl & _). constructor; [|constructor]. split; [exact central_one|]. apply Hl.
    exists [0], [1]. repeat split; repeat constructor; eexists; split; reflexivity.
  Qed.
  (** <f t t> is screened out; <l t> and <l f t> are not, and the former is not zero. *)
  Example screened_example : operators sr sr_base [op_general sr 1; op_t sr 1; op_t sr 1] [f_terms; t_terms; t_terms] /\
    screened sr [op_general sr 1; op_t sr 1; op_t sr 1] = Some true /\ V4 (product4 [f_terms; t_terms; t_terms]) = r0 R4.
  Proof.
    assert (H : operators sr sr_base [op_general sr 1; op_t sr 1; op_t sr 1] [f_terms; t_terms; t_terms])
      by (constructor; [exact f_general|constructor; [exact t_excites|constructor; [exact t_excites|constructor]]]).
    split; [exact H|]. assert (S : screened sr [op_general sr 1; op_t sr 1; op_t sr 1] = Some true) by (vm_compute; reflexivity).
    split; [exact S|]. apply (C68_screen sr sr_base true plus4 minus4 contr4 V4 _ _ (proj1 sr_ok) vacuum4 H S).
  Qed.
  Example kept_example : operators sr sr_base [op_lambda sr 1; op_t sr 1] [l_terms; t_terms] /\
    screened sr [op_lambda sr 1; op_t sr 1] = Some false /\ screened sr [op_lambda sr 1; op_general sr 1; op_t sr 1] = Some false /\
    V4 (product4 [l_terms; t_terms]) <> r0 R4.
  Proof.
    split; [constructor; [exact l_deexcites|constructor; [exact t_excites|constructor]]|].
    split; [vm_compute; reflexivity|]. split; [vm_compute; reflexivity|]. vm_compute. discriminate.
  Qed.
  Example ranks_example : raises_vacuum_to_rank sr [op_general sr 2; op_t sr 2; op_t sr 2] 1 = Some false /\
    raises_vacuum_to_rank sr [op_general sr 2; op_t sr 2; op_t sr 2] 2 = Some true /\
    lowers_rank_to_vacuum sr [op_lambda sr 2; op_general sr 1] 4 = Some false /\
    raises_vacuum_up_to_rank sr [op_general sr 2; op_t sr 4; op_t sr 1] 2 = Some false /\
    lowers_rank_or_lower_to_vacuum sr [op_lambda sr 3; op_general sr 1] 1 = Some false.
  Proof. repeat split; vm_compute; reflexivity. Qed.
  Example adjoint_example : exists o', op_adjoint sr (op_t sr 1) = Some o' /\ keeps_promise sr sr_base o' [c 0; a 1] /\ screened sr [o'; op_t sr 1] = Some false /\ screened sr [op_t sr 1; o'] = Some true.
  Proof.
    destruct (op_adjoint sr (op_t sr 1)) as [o'|] eqn:E; [|vm_compute in E; discriminate]. exists o'. split; [reflexivity|].
    split; [|injection E as <-; split; vm_compute; reflexivity].
    eapply C68_adjoint; [|exact E|]; [vm_compute; reflexivity|]. split; [reflexivity|]. split; [intros o [<-|[<-|[]]]; cbn; lia|].
    intros [|[|[|k]]] x y H; cbn in H; try discriminate; injection H as <- <-; vm_compute; split; split; discriminate.
  Qed.

  (** Finding: r and l with explicit spaces. generic_excitation_qns takes from the registry's particle
      (hole) space whether the rank is exact, and then requires that rank in every base space of the
      space that was passed. With the F12 spaces the particle space is a; r from i to e = {a, g} is
      declared to create one electron in a and one in g, and <l r>, which is not zero, is screened
      out. *)
  Theorem C68_composite_space_refuted :
    let r := op_r f12 1 1 12 2 in let l := op_l f12 1 1 (hole f12 any) (particle f12 any) in
    made_of f12 f12_base [12%N] [2%N] [c 1; a 0] /\ made_of f12 f12_base [hole f12 any] [particle f12 any] [c 0; a 1] /\
    screened f12 [l; r] = Some true /\ V4 (product4 [l_terms; t_terms]) <> r0 R4 /\
    ~ keeps_promise f12 f12_base r [c 1; a 0].
  Proof.
    cbv zeta. split; [|split; [|split; [|split]]].
    - exists [1], [0]. repeat split; repeat constructor; eexists; split; reflexivity.
    - exists [0], [1]. repeat split; repeat constructor; eexists; split; reflexivity.
    - vm_compute. reflexivity.
    - vm_compute. discriminate.
    - intros (d & Hd & _ & _ & H). vm_compute in Hd. injection Hd as <-. specialize (H 3 _ _ eq_refl). vm_compute in H. destruct H as ((H & _) & _). apply H. reflexivity.
  Qed.

  (** Finding: in the physical vacuum generic_excitation_qns swaps the two ranks: the operator with
      one creator and no annihilator is declared to have no creator. *)
  Definition phys : context := mkcontext true (map (fun t => mkspace t any) [1]%N) (fun _ => 0%N) (fun _ => 1%N) (fun _ => 1%N).
  Theorem C68_physical_refuted : made_of phys (fun _ : nat => 0) [particle phys any] [] [c 1] /\
    ~ keeps_promise phys (fun _ : nat => 0) (op_r phys 0 1 (particle phys any) (hole phys any)) [c 1].
  Proof.
    split.
    - exists [1], []. repeat split; repeat constructor. eexists; split; reflexivity.
    - intros (d & Hd & _ & _ & H). vm_compute in Hd. injection Hd as <-. specialize (H 0 _ _ eq_refl). vm_compute in H. destruct H as ((_ & H) & _). apply H. reflexivity.
  Qed.
End QnExample.

Print Assumptions C68_patterns.
Print Assumptions C68_matrix_element.
Print Assumptions C68_screen.
Print Assumptions C68_ranks.
Print Assumptions C68_contents.
Print Assumptions C68_adjoint.
Print Assumptions C68_defined.
Print Assumptions QnExample.C68_composite_space_refuted.
Print Assumptions QnExample.C68_physical_refuted.
