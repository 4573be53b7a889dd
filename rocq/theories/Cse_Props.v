(** Theorems about the elimination of common subexpressions. *)
From Coq Require Import List Arith Bool Lia Permutation Sorted Ring Ring_theory ZArith.
From Verif Require Import Idx_Model Bin_Model Bin_Spec Bin_Sums Cse_Model Cse_Spec Cse_Proofs1 Cse_Proofs2 Cse_Proofs3 Cse_Proofs4.
Import ListNotations.

(** ** C92: eliminating common subexpressions changes no result *)

(** For all lists of trees, comparisons, functors, filters, and labels: if nodes that compare equal
    have the same value in their canonical indices up to their phases, and the nodes that the
    intermediates are made of have no phase, then the trees other than the new definitions have the
    values that they had, and the store in the end differs only in the new labels. *)
Theorem C92_values_partial :
  forall (K : Type) (zero one : K) (add mul sub : K -> K -> K) (opp : K -> K), ring_theory zero one add mul sub opp eq ->
  forall (dom : idx -> list nat) (space : idx -> nat) (symmetric : store K -> Prop)
    (eqb eqb0 : Cse_Model.tree K -> Cse_Model.tree K -> bool) define use use_root (gen : Cse_Model.tree K -> nat -> label),
  good_functor K zero add mul opp dom define use use_root ->
  forall (keep : Cse_Model.tree K -> nat -> bool) (ts : list (Cse_Model.tree K)) (s : store K),
  (forall t, In t ts -> wf K t) -> in_order K ts -> fresh_labels K gen ts ->
  symmetric s -> (forall s t, symmetric s -> In t ts -> symmetric (assign K zero add mul dom s t)) ->
  (forall t u, In t (flat_map (internal K) ts) -> In u (flat_map (internal K) ts) -> eqb0 t u = true ->
     same_value K zero add mul opp dom space symmetric t u) ->
  (forall t, In t (intermediates K space eqb eqb0 define use use_root gen keep ts) -> tneg t = false) ->
  let (out, ps) := eliminate K space eqb eqb0 define use use_root gen keep ts in
  Forall2 (fun f g => forall r, f r = g r) (without ps 0 (values K zero add mul dom s out)) (values K zero add mul dom s ts) /\
  forall l vs, (forall t n, l <> gen t n) -> final K zero add mul dom s out l vs = final K zero add mul dom s ts l vs.
Proof.
  intros K zero one add mul sub opp RT dom space symmetric eqb eqb0 define use use_root gen good keep ts s W Ord (Inj & Fr) Sy Sys Same Pos.
  set (I := fun t => In t (flat_map (internal K) ts)).
  assert (IW : forall t, I t -> exists u, In u ts /\ In t (internal K u)) by (intros t H; apply in_flat_map in H; exact H).
  pose proof (replacements_ok K zero one add mul sub opp RT dom space symmetric eqb eqb0 define use use_root gen good Inj I) as M.
  assert (Old : forall u, In u ts -> old_tree K gen u).
  { intros u Hu l Hl (t & n & ->). destruct (Fr t n u Hu) as (A & _). auto. }
  assert (M1 : forall t, I t -> wf K t). { intros t H. destruct (IW t H) as (u & A & B). eapply internal_wf; eauto. }
  assert (M2 : forall t, I t -> old_tree K gen t).
  { intros t H. destruct (IW t H) as (u & A & B). intros l Hl. apply (Old u A). eapply internal_reads; eauto. }
  assert (M3 : forall t, I t -> exists o i a b, t = Cse_Model.Node o i a b).
  { intros t H. destruct (IW t H) as (u & A & B). eapply internal_node; eauto. }
  specialize (M M1 M2 M3 (usages K eqb keep ts) ts [] 1 0 s s).
  destruct M as (A & B); auto.
  - intros u l Hu Hl (t & n & ->). destruct (Fr t n u Hu) as (_ & C). auto.
  - intros ? ? [].
  - split; [constructor|]. intros ? ? [].
  - intros ? ? ? ? [].
  - intros ? ? ?. auto.
  - intros ? ? [].
  - unfold eliminate. destruct (replacements K space eqb eqb0 define use use_root gen (usages K eqb keep ts) ts [] 1 0) as (out, ps).
    cbn [fst snd] in *. split; auto. intros l vs H. apply B. intros (t & n & ->). eapply H; eauto.
Qed.

(** What the new list looks like: the trees that were there, in their order and with their results;
    the positions that are returned are those of the definitions; every new label is defined once,
    before it is used, by a tree that uses no new label, and it is used. *)
Theorem C92_order :
  forall (K : Type) (zero one : K) (add mul sub : K -> K -> K) (opp : K -> K), ring_theory zero one add mul sub opp eq ->
  forall (dom : idx -> list nat) (space : idx -> nat)
    (eqb eqb0 : Cse_Model.tree K -> Cse_Model.tree K -> bool) define use use_root (gen : Cse_Model.tree K -> nat -> label),
  good_functor K zero add mul opp dom define use use_root ->
  forall (keep : Cse_Model.tree K -> nat -> bool) (ts : list (Cse_Model.tree K)),
  (forall t, In t ts -> wf K t) -> fresh_labels K gen ts ->
  let (out, ps) := eliminate K space eqb eqb0 define use use_root gen keep ts in
  let new l := exists t n, l = gen t n in
  Forall2 (fun t' t => texpr t' = texpr t) (without ps 0 out) ts /\
  StronglySorted lt ps /\ length out = length ts + length ps /\
  (forall k d, nth_error out k = Some d -> (In k ps <-> exists l, target K d = Some l /\ new l)) /\
  (forall j t l, nth_error out j = Some t -> In l (reads K t) -> new l ->
     exists i d, i < j /\ nth_error out i = Some d /\ target K d = Some l) /\
  (forall i d l, nth_error out i = Some d -> target K d = Some l -> new l ->
     (forall m, In m (reads K d) -> ~ new m) /\
     (exists j t, i < j /\ nth_error out j = Some t /\ In l (reads K t)) /\
     (forall j d', nth_error out j = Some d' -> target K d' = Some l -> j = i)).
Proof.
  intros K zero one add mul sub opp RT dom space eqb eqb0 define use use_root gen good keep ts W (Inj & Fr).
  set (I := fun t => In t (flat_map (internal K) ts)).
  assert (IW : forall t, I t -> exists u, In u ts /\ In t (internal K u)) by (intros t H; apply in_flat_map in H; exact H).
  assert (Old : forall u, In u ts -> old_tree K gen u).
  { intros u Hu l Hl (t & n & ->). destruct (Fr t n u Hu) as (A & _). auto. }
  assert (M1 : forall t, I t -> wf K t). { intros t H. destruct (IW t H) as (u & A & B). eapply internal_wf; eauto. }
  assert (M2 : forall t, I t -> old_tree K gen t).
  { intros t H. destruct (IW t H) as (u & A & B). intros l Hl. apply (Old u A). eapply internal_reads; eauto. }
  assert (M3 : forall t, I t -> exists o i a b, t = Cse_Model.Node o i a b).
  { intros t H. destruct (IW t H) as (u & A & B). eapply internal_node; eauto. }
  assert (F : form K gen [] 0 ts (fst (eliminate K space eqb eqb0 define use use_root gen keep ts)) (snd (eliminate K space eqb eqb0 define use use_root gen keep ts))).
  { apply (replacements_form K zero one add mul sub opp RT dom space eqb eqb0 define use use_root gen good Inj I); auto.
    - intros u l Hu Hl (t & n & ->). destruct (Fr t n u Hu) as (_ & C). auto.
    - intros ? ? [].
    - split; [constructor|]. intros ? ? []. }
  destruct (eliminate K space eqb eqb0 define use use_root gen keep ts) as (out, ps). cbn [fst snd] in F. cbv zeta. destruct F.
  repeat split; auto.
  - apply f_defs; auto.
  - intros H0. apply (f_defs k d); auto.
  - intros j t l Hj Hl Nl. destruct (f_uses j t l Hj Hl Nl) as [[]|H]. exact H.
  - destruct (f_def i d l) as (_ & C & D & E); auto.
  - destruct (f_def i d l) as (_ & C & D & E); auto.
  - destruct (f_def i d l) as (_ & C & D & E); auto.
Qed.

(** Only what occurs at least twice, and what the filter lets through, becomes an intermediate. *)
Theorem C92_twice :
  forall (K : Type) (space : idx -> nat)
    (eqb eqb0 : Cse_Model.tree K -> Cse_Model.tree K -> bool) define use use_root (gen : Cse_Model.tree K -> nat -> label),
  (forall t, eqb t t = true) ->
  forall (keep : Cse_Model.tree K -> nat -> bool) (ts : list (Cse_Model.tree K)) (t : Cse_Model.tree K),
  In t (intermediates K space eqb eqb0 define use use_root gen keep ts) ->
  In t (flat_map (internal K) ts) /\
  exists u n, In u (flat_map (internal K) ts) /\ eqb u t = true /\ keep u n = true /\
    2 <= n <= length (filter (eqb u) (flat_map (internal K) ts)).
Proof.
  intros K space eqb eqb0 define use use_root gen Rf keep ts t H.
  set (us := usages K eqb keep ts) in *.
  assert (R : forall x root s t l, In (t, l) (s_names (snd (replace K space eqb eqb0 define use use_root gen us root x s))) ->
            In (t, l) (s_names s) \/ (In t (internal K x) /\ exists n, find eqb t us = Some n)).
  { clear. induction x as [i|o i a IHa b IHb]; intros root s t l H; cbn [replace] in H; [auto|].
    destruct (find eqb (Cse_Model.Node o i a b) us) as [n|] eqn:F.
    - unfold substitute in H. destruct (find eqb0 (Cse_Model.Node o i a b) (s_names s)); cbn in H; auto.
      apply in_app_iff in H. destruct H as [H|[H|[]]]; auto. injection H as <- <-. right. split; [left; auto|eauto].
    - destruct (replace K space eqb eqb0 define use use_root gen us false a s) as (a', s1) eqn:E1.
      destruct (replace K space eqb eqb0 define use use_root gen us false b s1) as (b', s2) eqn:E2. cbn [snd] in H.
      specialize (IHb false s1 t l). rewrite E2 in IHb. destruct (IHb H) as [G|(G & G')].
      + specialize (IHa false s t l). rewrite E1 in IHa. destruct (IHa G) as [P|(P & P')]; auto. right. split; auto. cbn. right. apply in_or_app. auto.
      + right. split; auto. cbn. right. apply in_or_app. auto. }
  assert (D : forall xs names c, In t (definers K space eqb eqb0 define use use_root gen us xs names c) ->
            In t (map fst names) \/ (In t (flat_map (internal K) xs) /\ exists n, find eqb t us = Some n)).
  { induction xs as [|x xs IH]; intros names c Ht; cbn in Ht; [auto|]. destruct (IH _ _ Ht) as [G|(G & G')].
    - apply in_map_iff in G. destruct G as ((t0 & l) & E & G). cbn in E. subst t0. destruct (R _ _ _ _ _ G) as [P|(P & P')].
      + left. apply in_map_iff. exists (t, l). auto.
      + right. split; auto. cbn. apply in_or_app. auto.
    - right. split; auto. cbn. apply in_or_app. auto. }
  destruct (D ts [] 1 H) as [[]|(A & n & F)]. split; auto.
  destruct (find_in K eqb t us n F) as (u & Hu & E). exists u, n. assert (Q := Hu). apply (usages_twice K (fun _ => []) space) in Q; auto. destruct Q as (B & C & G). auto.
Qed.

(** If no two nodes compare equal, nothing changes. *)
Theorem C92_nothing_common :
  forall (K : Type) (space : idx -> nat) (eqb eqb0 : Cse_Model.tree K -> Cse_Model.tree K -> bool) define use use_root (gen : Cse_Model.tree K -> nat -> label),
  (forall t, eqb t t = true) ->
  forall (keep : Cse_Model.tree K -> nat -> bool) (ts : list (Cse_Model.tree K)),
  (forall u, In u (flat_map (internal K) ts) -> length (filter (eqb u) (flat_map (internal K) ts)) = 1) ->
  eliminate K space eqb eqb0 define use use_root gen keep ts = (ts, []).
Proof.
  intros K space eqb eqb0 define use use_root gen Rf keep ts H. unfold eliminate.
  assert (E : usages K eqb keep ts = []).
  { destruct (usages K eqb keep ts) as [|(u, n) m] eqn:E; auto. exfalso.
    assert (Q : In (u, n) (usages K eqb keep ts)) by (rewrite E; left; auto).
    apply (usages_twice K (fun _ => []) space) in Q; auto. destruct Q as (_ & A & B). rewrite (H u A) in B. lia. }
  rewrite E. clear. assert (R : forall t root s, replace K space eqb eqb0 define use use_root gen [] root t s = (t, s)).
  { induction t as [i|o i a IHa b IHb]; intros root s; cbn; auto. rewrite IHa, IHb. auto. }
  assert (Q : forall ts c pos, replacements K space eqb eqb0 define use use_root gen [] ts [] c pos = (ts, [])).
  { clear ts. induction ts as [|t ts IH]; intros c pos; cbn; auto. rewrite R. cbn. rewrite IH. auto. }
  apply Q.
Qed.

(** The functor that binarize makes is one that works. *)
Theorem C92_functor :
  forall (K : Type) (zero one : K) (add mul sub : K -> K -> K) (opp : K -> K), ring_theory zero one add mul sub opp eq ->
  forall (dom : idx -> list nat) (imed : label),
  good_functor K zero add mul opp dom (bin_define K) (bin_use K opp one imed) (bin_use_root K opp one).
Proof. intros. eapply bin_good; eauto. Qed.

(** ** C93: nodes that compare equal *)

(** For all trees with the data that binarize makes: nodes that compare equal have the same value in
    their canonical indices up to their phases, if this holds for nodes with graphs, and if what the
    comparison does not look at is alike. *)
Theorem C93_same_nodes_partial :
  forall (K : Type) (zero one : K) (add mul sub : K -> K -> K) (opp : K -> K), ring_theory zero one add mul sub opp eq ->
  forall keqb : K -> K -> bool, (forall c d, keqb c d = true -> c = d) ->
  forall (dom : idx -> list nat) (space : idx -> nat) (symmetric : store K -> Prop) (batch : list idx),
  (forall t u, wf K t -> wf K u -> made K t -> made K u -> tgraph t <> None -> same_node K keqb space batch t u = true ->
     same_value K zero add mul opp dom space symmetric t u) ->
  forall t u, wf K t -> wf K u -> made K t -> made K u -> same_node K keqb space batch t u = true -> alike K t u ->
  same_value K zero add mul opp dom space symmetric t u.
Proof. intros. eapply same_node_value; eauto. Qed.

(** The nodes that binarize makes of sums and of products with scalars have such data. A product with
    a scalar has the phase of its tensor, so that its value has the phase that is needed to use the
    value of another one. *)
Theorem C93_made : forall (K : Type) imed_tensor imed_scalar (merge : list idx -> list idx) hash_two hash_con h c (a b : Cse_Model.tree K),
  made K a -> made K b ->
  let sum := sum_node K imed_tensor imed_scalar merge h a b in
  let scaled := scaled_node K imed_tensor imed_scalar merge h a b in
  let multiple := with_prefactor K hash_two hash_con imed_tensor imed_scalar merge c a in
  (wf K a -> made K sum /\ tneg sum = false) /\
  (is_ten (texpr a) && is_ten (texpr b) = false -> made K scaled /\
     tneg scaled = (is_ten (texpr a) && tneg a || is_ten (texpr b) && tneg b)) /\
  made K multiple /\ tneg multiple = tneg a.
Proof.
  intros K imed_tensor imed_scalar merge hash_two hash_con h c a b Ma Mb. split; [|split; [|split]].
  - intros W. cbn. unfold tneg at 1. cbn. split; [|destruct (texpr a); auto]. split; auto.
    destruct (texpr a) eqn:E; cbn; auto; intros _; symmetry; apply (scalar_canon K a W); rewrite E; auto.
  - intros H. cbn. unfold tneg at 1. cbn. destruct (texpr a) eqn:E, (texpr b) eqn:F; cbn in *; try discriminate; (split; [split; auto; intros _; rewrite ?E, ?F; cbn; auto|]); rewrite ?orb_false_r; unfold scaled_node, tneg; cbn; rewrite ?E, ?F; auto.
  - cbn. split; auto. destruct (texpr a) eqn:E; cbn; auto; intros _; rewrite ?E; cbn; auto.
  - cbn. unfold tneg at 1. cbn. destruct (texpr a); auto.
Qed.

Module CseExamples.
  Open Scope Z_scope.
  (** Indices 1, 2, ... of one space with the values 0 and 1; labels A, B, C, D, the intermediates, the
      results R and S. *)
  Definition sp (_ : idx) : nat := 0%nat.
  Definition dm (_ : idx) : list nat := [0; 1]%nat.
  Definition mg (l : list idx) : list idx := l.
  Notation tree := (Cse_Model.tree Z).
  Definition A := 1%nat. Definition B := 2%nat. Definition C := 3%nat. Definition D := 4%nat. Definition X := 5%nat. Definition Y := 6%nat.
  Definition It := 7%nat. Definition Is := 8%nat. Definition R := 20%nat. Definition S := 21%nat. Definition T := 22%nat.
  Definition gen (_ : tree) (n : nat) : label := (100 + n)%nat.
  Definition all (_ : tree) (_ : nat) : bool := true.
  Notation zval := (val Z 0 Z.add Z.mul dm).
  Notation zsame := (same_value Z 0 Z.add Z.mul Z.opp dm sp).
  Notation cmp := (same_node Z Z.eqb sp []).
  Notation elim ts := (eliminate Z sp cmp cmp (bin_define Z) (bin_use Z Z.opp 1 It) (bin_use_root Z Z.opp 1) gen all ts).
  Notation defs ts := (intermediates Z sp cmp cmp (bin_define Z) (bin_use Z Z.opp 1 It) (bin_use_root Z Z.opp 1) gen all ts).

  Lemma Zth : ring_theory 0 1 Z.add Z.mul Z.sub Z.opp eq.
  Proof. constructor; intros; ring. Qed.

  (** Some hash functions. *)
  Definition hr (l : list nat) : nat := fold_left Nat.add l 50%nat.
  Definition ht (a b : nat) : nat := (a + 2 * b)%nat.
  Definition hc (c : Z) : nat := Z.to_nat c.
  Definition hb (l : label) (_ : list nat) : nat := l.
  Definition ten l ix := leaf_ten Z sp hb l ix.
  Definition plus (a b : tree) := build_sum Z hr It Is mg a [thash a] [b].
  Definition scale c (a : tree) := with_prefactor Z ht hc It Is mg c a.
  Definition res l ix (a : tree) := with_result Z (XTen l ix) a.
  (** A product of two tensors with a graph and a phase. *)
  Definition contr ix cn neg g (a b : tree) : tree := Cse_Model.Node Cse_Model.OProd (mki (XTen It ix) cn neg g (Some g)) a b.

  Lemma same_refl sy t : zsame sy t t.
  Proof. repeat split; auto. Qed.

  (** R = 2 A_k B_k12, S = 3 A_k B_k21, with B antisymmetric. The second product is the first with a
      phase. *)
  Definition n1 := contr [1; 2]%nat [1; 2]%nat false 11 (ten A [3]%nat) (ten B [3; 1; 2]%nat).
  Definition n2 := contr [1; 2]%nat [1; 2]%nat true 11 (ten A [3]%nat) (ten B [3; 2; 1]%nat).
  Definition prog : list tree := [res R [1; 2]%nat (scale 2 n1); res S [1; 2]%nat (scale 3 n2)].
  Definition antisym (s : store Z) : Prop := forall a b c, s B [a; b; c] = - s B [a; c; b].

  Ltac nd := repeat (apply NoDup_cons; [cbn; intuition lia|]); apply NoDup_nil.
  Ltac wfs := cbn; unfold wf_info, same_indices, Cse_Spec.tidx; cbn; repeat split; try nd; try apply Permutation_refl; try (intuition lia).

  Ltac ord := cbn; repeat split; intros u l H E; repeat (destruct H as [<-|H]; [cbn in E; injection E as <-; cbn; intuition discriminate|]); destruct H.

  Example C92_case :
    (forall t, In t prog -> wf Z t) /\ in_order Z prog /\ fresh_labels Z gen prog /\
    (forall s t, antisym s -> In t prog -> antisym (assign Z 0 Z.add Z.mul dm s t)) /\
    (forall t u, In t (flat_map (internal Z) prog) -> In u (flat_map (internal Z) prog) -> cmp t u = true -> zsame antisym t u) /\
    defs prog = [n1] /\ snd (elim prog) = [0%nat] /\
    map (target Z) (fst (elim prog)) = [Some 101%nat; Some R; Some S] /\
    map (reads Z) (fst (elim prog)) = [[A; B]; [101%nat]; [101%nat]].
  Proof.
    split; [|split; [|split; [|split; [|split]]]].
    - intros t [<-|[<-|[]]]; wfs.
    - ord.
    - split; [unfold gen; intros; lia|]. intros t n u [<-|[<-|[]]]; cbn; unfold gen, A, B, R, S; (split; [intuition lia|]); intros H; injection H; lia.
    - intros s t H [<-|[<-|[]]] a b c; unfold assign; cbn; apply H.
    - assert (NB : zsame antisym n1 n2 /\ zsame antisym n2 n1).
      { split; repeat split; auto; intros s [|v [|w [|]]] Hs L; try discriminate; cbn; unfold set; cbn;
          rewrite (Hs 0%nat v w), (Hs 1%nat v w); ring. }
      intros t u Ht Hu. cbn in Ht, Hu.
      repeat (destruct Ht as [<-|Ht]; [repeat (destruct Hu as [<-|Hu]; [intros Hc; try discriminate Hc; try apply same_refl; apply NB|]); destruct Hu|]).
      destruct Ht.
    - repeat split; reflexivity.
  Qed.

  (** *** What is missing in C92 *)

  (** If the node that the intermediate is made of has a phase, the first result has the wrong sign:
      the definition stores the value of the node, but every use has the phase of the node that it
      replaces. Here R = 2 A_k B_k21 comes first. *)
  Definition prog2 : list tree := [res R [1; 2]%nat (scale 2 n2); res S [1; 2]%nat (scale 3 n1)].
  Definition s0 : store Z := fun l vs =>
    match vs with
    | [_] => 1
    | [_; b; c] => Z.of_nat b - Z.of_nat c
    | _ => 0
    end.

  Theorem C92_negative_definer_refuted :
    (forall t, In t prog2 -> wf Z t) /\ in_order Z prog2 /\ fresh_labels Z gen prog2 /\ antisym s0 /\
    (forall s t, antisym s -> In t prog2 -> antisym (assign Z 0 Z.add Z.mul dm s t)) /\
    (forall t u, In t (flat_map (internal Z) prog2) -> In u (flat_map (internal Z) prog2) -> cmp t u = true -> zsame antisym t u) /\
    final Z 0 Z.add Z.mul dm s0 (fst (elim prog2)) R [0; 1]%nat <> final Z 0 Z.add Z.mul dm s0 prog2 R [0; 1]%nat.
  Proof.
    split; [|split; [|split; [|split; [|split; [|split]]]]].
    - intros t [<-|[<-|[]]]; wfs.
    - ord.
    - split; [unfold gen; intros; lia|]. intros t n u [<-|[<-|[]]]; cbn; unfold gen, A, B, R, S; (split; [intuition lia|]); intros H; injection H; lia.
    - intros a b c. cbn. lia.
    - intros s t H [<-|[<-|[]]] a b c; unfold assign; cbn; apply H.
    - assert (NB : zsame antisym n1 n2 /\ zsame antisym n2 n1).
      { split; repeat split; auto; intros s [|v [|w [|]]] Hs L; try discriminate; cbn; unfold set; cbn;
          rewrite (Hs 0%nat v w), (Hs 1%nat v w); ring. }
      intros t u Ht Hu. cbn in Ht, Hu.
      repeat (destruct Ht as [<-|Ht]; [repeat (destruct Hu as [<-|Hu]; [intros Hc; try discriminate Hc; try apply same_refl; apply NB|]); destruct Hu|]).
      destruct Ht.
    - vm_compute. discriminate.
  Qed.

  (** *** What the comparison of nodes does not see *)

  Example C93_case :
    let t := plus (ten A [1; 2]%nat) (ten B [1; 2]%nat) in
    let u := plus (ten A [3; 4]%nat) (ten B [3; 4]%nat) in
    wf Z t /\ wf Z u /\ made Z t /\ made Z u /\ cmp t u = true /\ alike Z t u /\ zsame (fun _ => True) t u.
  Proof.
    cbv zeta. split; [wfs|]. split; [wfs|]. repeat split; auto.
    intros s [|v [|w [|]]] _ L; try discriminate. cbn. unfold set. cbn. reflexivity.
  Qed.

  (** Whatever the hash functions are, A_12 + B_12 and A_12 + B_21 compare equal. *)
  Theorem C93_transposed_sum_refuted : forall hr hb,
    let t b := build_sum Z hr It Is mg (leaf_ten Z sp hb A [1; 2]%nat) [hb A [0; 0]%nat] [leaf_ten Z sp hb B b] in
    let u := t [1; 2]%nat in let v := t [2; 1]%nat in
    wf Z u /\ wf Z v /\ made Z u /\ made Z v /\ cmp u v = true /\ ~ zsame (fun _ => True) u v.
  Proof.
    intros hr hb. cbv zeta. split; [wfs|]. split; [wfs|]. split; [cbn; auto|]. split; [cbn; auto|]. split.
    - unfold same_node, same_info; cbn; unfold sp; rewrite !Nat.eqb_refl; reflexivity.
    - intros (_ & _ & H). specialize (H (fun l vs => match vs with [a; _] => Z.of_nat a * Z.of_nat l | _ => 0 end) [0; 1]%nat Logic.I eq_refl). vm_compute in H. discriminate.
  Qed.

  (** Whatever the hash functions are, the sum and the product of two variables compare equal. *)
  Theorem C93_sum_and_product_refuted : forall hr hv,
    let u := build_sum Z hr It Is mg (leaf_var Z hv X) [hv X] [leaf_var Z hv Y] in
    let v := build_scaled Z hr It Is mg (leaf_var Z hv X) [hv X] [leaf_var Z hv Y] in
    wf Z u /\ wf Z v /\ made Z u /\ made Z v /\ cmp u v = true /\ ~ zsame (fun _ => True) u v.
  Proof.
    intros hr hv. cbv zeta. split; [wfs|]. split; [wfs|]. split; [cbn; auto|]. split; [cbn; auto|]. split.
    - unfold same_node, same_info; cbn; unfold sp; rewrite !Nat.eqb_refl; reflexivity.
    - intros (_ & _ & H). specialize (H (fun l vs => 1) [] Logic.I eq_refl). vm_compute in H. discriminate.
  Qed.

  (** So the elimination can change a result: R = 2 (A_12 + B_12), S = 3 (A_12 + B_21). *)
  Definition prog3 : list tree :=
    [res R [1; 2]%nat (scale 2 (plus (ten A [1; 2]%nat) (ten B [1; 2]%nat)));
     res S [1; 2]%nat (scale 3 (plus (ten A [1; 2]%nat) (ten B [2; 1]%nat)))].
  Theorem C92_wrong_sum_refuted :
    (forall t, In t prog3 -> wf Z t) /\ in_order Z prog3 /\ fresh_labels Z gen prog3 /\
    (forall t, In t (defs prog3) -> tneg t = false) /\
    exists s, final Z 0 Z.add Z.mul dm s (fst (elim prog3)) S [0; 1]%nat <> final Z 0 Z.add Z.mul dm s prog3 S [0; 1]%nat.
  Proof.
    split; [|split; [|split; [|split]]].
    - intros t [<-|[<-|[]]]; wfs.
    - ord.
    - split; [unfold gen; intros; lia|]. intros t n u [<-|[<-|[]]]; cbn; unfold gen, A, B, R, S; (split; [intuition lia|]); intros H; injection H; lia.
    - intros t H. vm_compute in H. destruct H as [<-|[]]. reflexivity.
    - exists (fun l vs => match vs with [a; _] => Z.of_nat a * Z.of_nat l | _ => 0 end). vm_compute. discriminate.
  Qed.

  (** An intermediate can be used only once: R = 2 (X_1 Y_2 A_12), S = 3 (X_1 Y_2 A_12),
      T = 5 (X_1 Y_2 B_12). The product of X and Y is counted twice, but one of these is inside the
      definition of another intermediate. *)
  Definition xy := contr [1; 2]%nat [1; 2]%nat false 11 (ten X [1]%nat) (ten Y [2]%nat).
  Definition pa := contr [] [] false 12 xy (ten A [1; 2]%nat).
  Definition pb := contr [] [] false 13 xy (ten B [1; 2]%nat).
  Definition prog4 : list tree := [res R [] (scale 2 pa); res S [] (scale 3 pa); res T [] (scale 5 pb)].
  Theorem C92_used_once_refuted :
    (forall t, In t prog4 -> wf Z t) /\ in_order Z prog4 /\ fresh_labels Z gen prog4 /\
    exists l, In (Some l) (map (target Z) (fst (elim prog4))) /\ (exists t n, l = gen t n) /\
      length (filter (Nat.eqb l) (flat_map (reads Z) (fst (elim prog4)))) = 1%nat.
  Proof.
    split; [|split; [|split]].
    - intros t [<-|[<-|[<-|[]]]]; wfs.
    - ord.
    - split; [unfold gen; intros; lia|]. intros t n u [<-|[<-|[<-|[]]]]; cbn; unfold gen, A, B, X, Y, R, S, T; (split; [intuition lia|]); intros H; injection H; lia.
    - exists 102%nat. split; [vm_compute; auto 8|]. split; [exists xy, 2%nat; reflexivity|]. reflexivity.
  Qed.
End CseExamples.
