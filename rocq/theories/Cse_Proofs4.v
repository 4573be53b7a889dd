(** Proofs for the elimination of common subexpressions, 4: nodes that compare equal. *)
From Coq Require Import List Arith Bool Lia Permutation Ring Ring_theory.
From Verif Require Import Idx_Model Bin_Model Bin_Spec Bin_Sums Cse_Model Cse_Spec Cse_Proofs1.
Import ListNotations.

Lemma list_eqb_eq : forall l m, list_eqb l m = true -> l = m.
Proof.
  induction l as [|x l IH]; intros [|y m] H; cbn in H; try discriminate; auto.
  apply andb_true_iff in H. destruct H as (A & B). apply Nat.eqb_eq in A. subst. f_equal. auto.
Qed.
Lemma bind_nth : forall ix vs x, length vs = length ix -> bind ix vs x = nth (position x ix) vs 0.
Proof.
  induction ix as [|y ix IH]; intros [|v vs] x L; cbn in *; auto; try discriminate.
  unfold set. destruct (Nat.eqb x y); auto.
Qed.
Lemma bind_map : forall ix vs, NoDup ix -> length vs = length ix -> map (bind ix vs) ix = vs.
Proof.
  induction ix as [|y ix IH]; intros [|v vs] N L; cbn in *; auto; try discriminate. inversion N; subst.
  unfold set at 1. rewrite Nat.eqb_refl. f_equal. rewrite <- (IH vs) at 2 by auto. apply map_ext_in. intros x Hx. unfold set.
  destruct (Nat.eqb_spec x y); auto. subst. contradiction.
Qed.

Section Same.
  Variable K : Type.
  Variables (zero one : K) (add mul sub : K -> K -> K) (opp : K -> K).
  Variable RT : ring_theory zero one add mul sub opp eq.
  Add Ring Kring29 : RT.
  Variable keqb : K -> K -> bool.
  Hypothesis keqb_eq : forall c d, keqb c d = true -> c = d.
  Variable dom : idx -> list nat.
  Variable space : idx -> nat.
  Notation tree := (Cse_Model.tree K).
  Notation val := (val K zero add mul dom).
  Notation wf := (wf K).
  Notation tidx := (tidx K).
  Notation signed := (signed K opp).
  Notation same_node := (same_node K keqb space).
  Variable symmetric : store K -> Prop.
  Notation same_value := (same_value K zero add mul opp dom space symmetric).

  Lemma signed_mul a b x y : signed (xorb a b) (mul x y) = mul (signed a x) (signed b y).
  Proof. destruct a, b; cbn; ring. Qed.
  Lemma signed_add a x y : signed a (add x y) = add (signed a x) (signed a y).
  Proof. destruct a; cbn; ring. Qed.
  Lemma signed_xor a b x : signed (xorb a b) x = signed a (signed b x).
  Proof. destruct a, b; cbn; ring. Qed.

  Lemma same_info_type batch i j : same_info K keqb space batch i j = true -> is_ten (i_expr i) = is_ten (i_expr j) /\ i_graph i = i_graph j.
  Proof.
    unfold same_info. intros H. apply andb_true_iff in H. destruct H as (H & G). apply andb_true_iff in H. destruct H as (H & _).
    apply andb_true_iff in H. destruct H as (_ & H). split.
    - destruct (i_expr i), (i_expr j); cbn in *; auto; discriminate.
    - unfold graph_eqb in G. destruct (i_graph i), (i_graph j); auto; try discriminate. apply Nat.eqb_eq in G. subst. auto.
  Qed.
  Lemma scalar_canon t : wf t -> is_ten (texpr t) = false -> tcanon t = [] /\ tidx t = [].
  Proof.
    intros W H. destruct (wf_tinfo K t W) as (_ & P). unfold Cse_Spec.tidx, texpr, tcanon in *.
    destruct (i_expr (tinfo t)); cbn in *; try discriminate; split; auto; apply Permutation_nil, Permutation_sym; auto.
  Qed.
  Lemma canon_idx t : wf t -> forall x, In x (tcanon t) <-> In x (tidx t).
  Proof.
    intros W x. destruct (wf_tinfo K t W) as (_ & P). unfold tcanon, Cse_Spec.tidx, texpr.
    split; apply Permutation_in; auto. apply Permutation_sym; auto.
  Qed.
  Lemma canon_nodup t : wf t -> NoDup (tcanon t).
  Proof. intros W. destruct (wf_tinfo K t W) as (N & P). eapply Permutation_NoDup; [apply Permutation_sym; exact P|exact N]. Qed.
  Lemma scalar_val s t r r' : wf t -> is_ten (texpr t) = false -> val s t r = val s t r'.
  Proof. intros W H. apply val_indep; auto. destruct (scalar_canon t W H) as (_ & ->). intros x []. Qed.

  Lemma no_contraction s i a b r : (forall x, In x (tidx a) \/ In x (tidx b) -> In x (xidx (i_expr i))) ->
    val s (Cse_Model.Node Cse_Model.OProd i a b) r = mul (val s a r) (val s b r).
  Proof.
    intros H. cbn [Cse_Spec.val]. assert (Z : contracted (tidx a) (tidx b) (xidx (i_expr i)) = []).
    { destruct (contracted (tidx a) (tidx b) (xidx (i_expr i))) as [|z w] eqn:E; auto. exfalso.
      assert (Q : In z (contracted (tidx a) (tidx b) (xidx (i_expr i)))) by (rewrite E; left; auto).
      apply (contracted_in dom) in Q. destruct Q as (Q & Q'). apply Q'. auto. }
    rewrite Z. reflexivity.
  Qed.

  (** Graphs are compared as they should. *)
  Variable batch : list idx.
  Hypothesis graphs : forall t u, wf t -> wf u -> made K t -> made K u -> tgraph t <> None -> same_node batch t u = true -> same_value t u.

  Theorem same_node_value : forall t u, wf t -> wf u -> made K t -> made K u -> same_node batch t u = true -> alike K t u -> same_value t u.
  Proof.
    induction t as [i|o i a IHa b IHb]; intros u Wt Wu Mt Mu Sm Al.
    - destruct u as [j|]; [|discriminate]. cbn in Sm, Wt, Wu, Mt, Mu, Al. destruct (same_info_type _ _ _ Sm) as (T & G).
      destruct (i_graph i) eqn:Gi.
      { apply graphs; cbn; auto. unfold tgraph. cbn. congruence. }
      unfold Cse_Spec.same_value, texpr, tcanon, tneg, tinfo. split; auto. rewrite Mt, Mu, Al.
      unfold same_info in Sm. apply andb_true_iff in Sm. destruct Sm as (Sm & _). apply andb_true_iff in Sm. destruct Sm as (_ & Sm).
      destruct Wt as (Nt & _). destruct Wu as (Nu & _).
      destruct (i_expr i) as [c|l|l ix] eqn:Ei, (i_expr j) as [d|m|m jx] eqn:Ej; try discriminate; cbn [xidx] in *.
      + split; auto. intros s vs Sy L. cbn. rewrite Ei, Ej. cbn. apply keqb_eq in Sm. subst. auto.
      + split; auto. intros s vs Sy L. cbn. rewrite Ei, Ej. cbn. apply Nat.eqb_eq in Sm. subst. auto.
      + unfold has_graph in Sm. rewrite Gi in Sm. cbn in Sm. apply andb_true_iff in Sm. destruct Sm as (Sm & _).
        unfold block_eqb in Sm. apply andb_true_iff in Sm. destruct Sm as (A & B). apply Nat.eqb_eq in A. apply list_eqb_eq in B. subst m.
        split; auto. intros s vs Sy L. cbn. rewrite Ei, Ej. cbn. rewrite !bind_map; auto.
        rewrite <- (map_length space jx), <- B, map_length. auto.
    - destruct u as [|o' j a' b']; [discriminate|]. pose proof Sm as Sm0. cbn [Cse_Model.same_node] in Sm.
      apply andb_true_iff in Sm. destruct Sm as (Sm & Sb). apply andb_true_iff in Sm. destruct Sm as (Sm & Sa).
      apply andb_true_iff in Sm. destruct Sm as (_ & Sm). destruct (same_info_type _ _ _ Sm) as (T & G).
      destruct (i_graph i) eqn:Gi.
      { apply graphs; auto. unfold tgraph. cbn. congruence. }
      cbn in Al. specialize (Al Gi). destruct Al as (<- & Ala & Alb & Al).
      cbn in Mt, Mu. destruct Mt as (Mt & Mta & Mtb). destruct Mu as (Mu & Mua & Mub). specialize (Mt Gi). symmetry in G. specialize (Mu G).
      assert (Wab : wf a /\ wf b /\ wf a' /\ wf b') by (destruct o; cbn in Wt, Wu; tauto). destruct Wab as (Wa & Wb & Wa' & Wb').
      destruct (IHa a' Wa Wa' Mta Mua Sa Ala) as (Ta & Spa & Va). destruct (IHb b' Wb Wb' Mtb Mub Sb Alb) as (Tb & Spb & Vb).
      assert (Lena : length (tcanon a) = length (tcanon a')) by (rewrite <- (map_length space), Spa, map_length; auto).
      assert (Lenb : length (tcanon b) = length (tcanon b')) by (rewrite <- (map_length space), Spb, map_length; auto).
      unfold Cse_Spec.same_value. split; [exact T|].
      unfold tcanon at 1 2 3 4 5. unfold tneg at 1 2. cbn [tinfo].
      destruct o; cbn [made_info] in Mt, Mu.
      + (* sum *)
        rewrite Mt, Mu. split; auto. intros s vs Sy L. destruct Al as (A1 & A2 & A3).
        destruct Wt as (Wi & Ia & Ib & _). destruct Wu as (Wj & Ja & Jb & _).
        cbn [Cse_Spec.val]. rewrite !signed_add.
        assert (Right : forall r i0 p q, wf r -> wf p -> same_indices (tidx p) i0 -> same_indices (tidx r) i0 -> q = map (bind (tcanon p) vs) (tcanon r) ->
                        val s r (bind (tcanon p) vs) = val s r (bind (tcanon r) q)).
        { intros r i0 p q Wr Wp S1 S2 ->. apply val_indep; auto. intros x Hx. symmetry. apply bind_in. apply canon_idx; auto. }
        f_equal.
        * specialize (Va s vs Sy L). rewrite <- (xorb_false_r (i_neg i)), <- (xorb_false_r (i_neg j)), <- (xorb_nilpotent (tneg a)) at 1.
          rewrite <- xorb_assoc, signed_xor, Va, A1, <- signed_xor, xorb_assoc, xorb_nilpotent. auto.
        * set (q := map (bind (tcanon a) vs) (tcanon b)).
          assert (Q : q = map (bind (tcanon a') vs) (tcanon b')).
          { unfold q. rewrite (map_ext _ (fun x => nth (position x (tcanon a)) vs 0)) by (intros; apply bind_nth; auto).
            rewrite (map_ext (bind (tcanon a') vs) (fun x => nth (position x (tcanon a')) vs 0)) by (intros; apply bind_nth; congruence).
            rewrite <- (map_map (fun x => position x (tcanon a)) (fun n => nth n vs 0)).
            rewrite <- (map_map (fun x => position x (tcanon a')) (fun n => nth n vs 0)). rewrite A3. auto. }
          rewrite (Right b _ a q Wb Wa Ia Ib eq_refl), (Right b' _ a' q Wb' Wa' Ja Jb Q).
          assert (Lq : length q = length (tcanon b)) by (unfold q; apply map_length).
          specialize (Vb s q Sy Lq). rewrite <- (xorb_false_r (i_neg i)), <- (xorb_false_r (i_neg j)), <- (xorb_nilpotent (tneg b)) at 1.
          rewrite <- xorb_assoc, signed_xor, Vb, A2, <- signed_xor, xorb_assoc, xorb_nilpotent. auto.
      + (* product *)
        destruct Wt as (Wi & Wt & _). destruct Wu as (Wj & Wu & _). destruct Wi as (_ & Pi). destruct Wj as (_ & Pj).
        rewrite <- Ta, <- Tb in Mu.
        assert (Final : map space (i_canon i) = map space (i_canon j) /\
          (forall x, In x (tidx a) \/ In x (tidx b) -> In x (xidx (i_expr i))) /\ (forall x, In x (tidx a') \/ In x (tidx b') -> In x (xidx (i_expr j))) /\
          (forall s vs, symmetric s -> length vs = length (i_canon i) ->
             signed (tneg a) (val s a (bind (i_canon i) vs)) = signed (tneg a') (val s a' (bind (i_canon j) vs)) /\
             signed (tneg b) (val s b (bind (i_canon i) vs)) = signed (tneg b') (val s b' (bind (i_canon j) vs)))).
        { assert (Sub : forall (k : info K) c, Permutation (i_canon k) (xidx (i_expr k)) -> wf c -> i_canon k = tcanon c -> forall x, In x (tidx c) -> In x (xidx (i_expr k))).
          { intros k c P W E x Hx. eapply Permutation_in; [exact P|]. rewrite E. apply canon_idx; auto. }
          destruct (is_ten (texpr a)) eqn:Xa, (is_ten (texpr b)) eqn:Xb; [contradiction|..]; symmetry in Ta, Tb.
          - destruct (scalar_canon b Wb Xb) as (Cb & Zb). destruct (scalar_canon b' Wb' Tb) as (Cb' & Zb').
            rewrite Zb, Zb'. split; [congruence|]. split; [intros x [Hx|[]]; apply (Sub i a); auto|]. split; [intros x [Hx|[]]; apply (Sub j a'); auto|].
            intros s vs Sy L. rewrite Mt, Mu. split; [apply Va; [auto|congruence]|].
            rewrite (scalar_val s b _ (bind [] []) Wb Xb), (scalar_val s b' _ (bind [] []) Wb' Tb).
            specialize (Vb s [] Sy). rewrite Cb, Cb' in Vb. apply Vb. auto.
          - destruct (scalar_canon a Wa Xa) as (Ca & Za). destruct (scalar_canon a' Wa' Ta) as (Ca' & Za').
            rewrite Za, Za'. split; [congruence|]. split; [intros x [[]|Hx]; apply (Sub i b); auto|]. split; [intros x [[]|Hx]; apply (Sub j b'); auto|].
            intros s vs Sy L. rewrite Mt, Mu. split; [|apply Vb; [auto|congruence]].
            rewrite (scalar_val s a _ (bind [] []) Wa Xa), (scalar_val s a' _ (bind [] []) Wa' Ta).
            specialize (Va s [] Sy). rewrite Ca, Ca' in Va. apply Va. auto.
          - destruct (scalar_canon a Wa Xa) as (Ca & Za). destruct (scalar_canon a' Wa' Ta) as (Ca' & Za').
            destruct (scalar_canon b Wb Xb) as (Cb & Zb). destruct (scalar_canon b' Wb' Tb) as (Cb' & Zb').
            rewrite Za, Za', Zb, Zb', Mt, Mu. split; auto. split; [intros x [[]|[]]|]. split; [intros x [[]|[]]|].
            intros s vs Sy L. destruct vs; [|discriminate]. specialize (Va s [] Sy). specialize (Vb s [] Sy). rewrite Ca, Ca' in Va. rewrite Cb, Cb' in Vb.
            split; [apply Va|apply Vb]; auto. }
        destruct Final as (F1 & F2 & F3 & F4). split; auto. intros s vs Sy L. rewrite !no_contraction by auto.
        destruct (F4 s vs Sy L) as (E1 & E2).
        set (va := val s a (bind (i_canon i) vs)) in *. set (vb := val s b (bind (i_canon i) vs)) in *.
        set (va' := val s a' (bind (i_canon j) vs)) in *. set (vb' := val s b' (bind (i_canon j) vs)) in *.
        assert (H : forall n p q x y, signed n (mul x y) = signed (xorb n (xorb p q)) (mul (signed p x) (signed q y))).
        { intros n p q x y. rewrite <- signed_mul, <- signed_xor. f_equal. destruct n, p, q; auto. }
        rewrite (H (i_neg i) (tneg a) (tneg b)), (H (i_neg j) (tneg a') (tneg b')). rewrite E1, E2, Al. auto.
  Qed.
End Same.
