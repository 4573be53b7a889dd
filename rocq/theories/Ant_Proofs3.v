(** * Proofs about [antisymm_element] *)
From Coq Require Import List Arith Lia Bool ZArith Permutation Sorted Factorial.
From Verif Require Import Wick_Spec Wick_Ring.
From Verif Require Import Alg_Model Alg_Spec Alg_Props Ant_Model Ant_Spec Ant_Proofs Ant_Proofs2.
Import ListNotations.

Section Element.
  Variables (I C : Type) (d : I) (c1 : C) (cmul : C -> C -> C) (cneg : C -> C).
  Notation factor := (factor I C).
  Notation product := (product I C).

  Lemma index_group_ranks (fs : list factor) : forall s, index_group s fs = groups_of s (ranks fs).
  Proof.
    induction fs as [|f fs IH]; intros s; [reflexivity|]. unfold ranks. destruct f; cbn; fold (ranks fs); rewrite ?IH; reflexivity.
  Qed.

  Lemma lower_bra (fs : list factor) : concat (map f_bra fs) = lower fs.
  Proof. reflexivity. Qed.
  Lemma upper_ket (fs : list factor) : concat (map f_ket fs) = upper fs.
  Proof. reflexivity. Qed.

  Lemma ranks_ok_balanced (fs : list factor) : forallb ranks_ok fs = true <-> balanced fs.
  Proof.
    unfold balanced. rewrite forallb_forall, Forall_forall. split; intros H f Hf; specialize (H f Hf);
      unfold ranks_ok in *; destruct f; cbn in *; auto.
    - apply Nat.eqb_eq. exact H. - symmetry. apply Nat.eqb_eq. exact H.
    - apply Nat.eqb_eq. exact H. - apply Nat.eqb_eq. symmetry. exact H.
  Qed.

  Lemma lower_length (fs : list factor) : length (lower fs) = list_sum (ranks fs).
  Proof.
    induction fs as [|f fs IH]; [reflexivity|]. unfold lower, ranks in *. destruct f; cbn; rewrite ?app_length, IH; reflexivity.
  Qed.
  Lemma upper_length (fs : list factor) : balanced fs -> length (upper fs) = length (lower fs).
  Proof.
    unfold upper, lower. induction 1 as [|f fs H B IH]; [reflexivity|]. cbn [map concat]. rewrite !app_length, IH.
    destruct f; cbn; lia.
  Qed.

  (** The list of pairs for a given list of arrangements. *)
  Definition arrs (L : list (list nat)) (b : list I) : list (Z * list I) :=
    map (fun q => (parity_sign q, arr I d b q)) L.

  Lemma arr_id (b : list I) : arr I d b (seq 0 (length b)) = b.
  Proof.
    unfold arr. apply (nth_ext _ _ d d); [rewrite map_length, seq_length; reflexivity|].
    intros k Hk. rewrite map_length, seq_length in Hk.
    rewrite (nth_indep _ d (nth 0 b d)) by (rewrite map_length, seq_length; exact Hk).
    rewrite (map_nth (fun j => nth j b d)). rewrite seq_nth by exact Hk. reflexivity.
  Qed.

  Lemma gen_unique_spec rs n fuel : fact n <= fuel ->
    exists L, hd_error L = Some (seq 0 n) /\ NoDup L /\
      (forall q, In q L <-> distinct_arrangement rs n q) /\
      forall b : list I, length b = n -> gen_antisymm_unique d (groups_of 0 rs) fuel b = Some (arrs L b).
  Proof.
    intros Hf. destruct (gen_loop_spec rs n fuel Hf) as (r & E & ND & CC & S).
    exists (map snd ((1%Z, seq 0 n) :: r)). split; [reflexivity|]. split; [exact ND|]. split; [exact CC|].
    intros b Lb. unfold gen_antisymm_unique. rewrite Lb, E. f_equal. unfold arrs. cbn [map snd].
    f_equal.
    - f_equal; [|rewrite <- Lb; symmetry; apply arr_id].
      apply S. left. reflexivity.
    - rewrite map_map. apply map_ext_in. intros [s q] H. cbn [fst snd]. f_equal. apply S. right. exact H.
  Qed.

  Lemma collect_some {A} (l : list A) : collect (map Some l) = Some l.
  Proof. induction l as [|a l IH]; cbn; [reflexivity|]. rewrite IH. reflexivity. Qed.

  Definition term (fs : list factor) (bq kq : list nat) : product :=
    mkProduct (signed cneg (parity_sign bq * parity_sign kq) (starting_constant c1 cmul fs))
              (rebuild fs (arr I d (lower fs) bq) (arr I d (upper fs) kq) []).

  Lemma map_seq_nth {A B} (g : A -> B) (f : nat -> B) : forall (l : list A) (s : nat),
    (forall i a, nth_error l i = Some a -> f (s + i) = g a) -> map f (seq s (length l)) = map g l.
  Proof.
    induction l as [|a l IH]; intros s H; [reflexivity|]. cbn [length seq map]. f_equal.
    - rewrite <- (Nat.add_0_r s). apply H. reflexivity.
    - apply IH. intros i x Hx. rewrite Nat.add_succ_comm. apply H. exact Hx.
  Qed.

  (** The terms before repeated ones are dropped. *)
  Lemma all_terms_spec (p : product) fuel : balanced (p_factors p) -> fact (length (lower (p_factors p))) <= fuel ->
    exists L, hd_error L = Some (seq 0 (length (lower (p_factors p)))) /\ NoDup L /\
      (forall q, In q L <-> distinct_arrangement (ranks (p_factors p)) (length (lower (p_factors p))) q) /\
      all_terms d c1 cmul cneg fuel p =
        Some (concat (map (fun bq => map (fun kq => term (p_factors p) bq kq) L) L)).
  Proof.
    intros B Hf. destruct (gen_unique_spec (ranks (p_factors p)) _ fuel Hf) as (L & H0 & ND & CC & G).
    exists L. split; [exact H0|]. split; [exact ND|]. split; [exact CC|].
    unfold all_terms. rewrite (proj2 (ranks_ok_balanced _) B), index_group_ranks, lower_bra, upper_ket.
    rewrite (G (lower (p_factors p)) eq_refl), (G (upper (p_factors p)) (upper_length _ B)).
    rewrite <- collect_some. f_equal. rewrite concat_map, map_map. f_equal.
    assert (Len : forall b, length (arrs L b) = length L) by (intros b; apply map_length).
    rewrite !Len. apply map_seq_nth. intros i bq Hb. cbn [Nat.add]. rewrite map_map.
    apply map_seq_nth. intros j kq Hk. cbn [Nat.add]. unfold one_term, arrs.
    rewrite !nth_error_map, Hb, Hk. reflexivity.
  Qed.

  (** Rebuilding gives the factors with new indices. *)
  Lemma rebuild_perm (fs : list factor) : forall bs ks acc,
    Permutation (rebuild fs bs ks acc) (acc ++ refill fs bs ks) /\
    filter is_op (rebuild fs bs ks acc) = filter is_op acc ++ filter is_op (refill fs bs ks).
  Proof.
    induction fs as [|f fs IH]; intros bs ks acc; cbn [rebuild refill].
    - rewrite !app_nil_r. split; [apply Permutation_refl|reflexivity].
    - destruct f as [lab b k|c|c a].
      + destruct (IH (skipn (length b) bs) (skipn (length b) ks)
          (FTensor lab (firstn (length b) bs) (firstn (length b) ks) :: acc)) as [P F].
        split; [|rewrite F; reflexivity]. rewrite P. cbn. apply Permutation_middle.
      + apply IH.
      + destruct (IH (skipn (length a) bs) (skipn (length a) ks)
          (acc ++ [FOp (firstn (length a) ks) (firstn (length a) bs)])) as [P F].
        split; [rewrite P, <- app_assoc; reflexivity|]. rewrite F, filter_app, <- app_assoc. reflexivity.
  Qed.

  Lemma rebuild_same (fs : list factor) bs ks : same_factors (rebuild fs bs ks []) (refill fs bs ks).
  Proof. destruct (rebuild_perm fs bs ks []) as [P F]. split; assumption. Qed.

  Lemma rebuild_shape (fs gs : list factor) : same_shape fs gs -> forall bs ks acc, rebuild fs bs ks acc = rebuild gs bs ks acc.
  Proof.
    induction 1 as [|f g fs gs H _ IH]; intros bs ks acc; [reflexivity|]. destruct f, g; cbn in H; try tauto.
    - destruct H as (-> & E & _). cbn. rewrite E. apply IH.
    - cbn. apply IH.
    - destruct H as (_ & E). cbn. rewrite E. apply IH.
  Qed.
  Lemma shape_ranks (fs gs : list factor) : same_shape fs gs -> ranks fs = ranks gs.
  Proof.
    unfold ranks. induction 1 as [|f g fs gs H _ IH]; [reflexivity|]. destruct f, g; cbn in H; try tauto; cbn; rewrite IH; f_equal; tauto.
  Qed.
  Lemma shape_const (fs gs : list factor) : same_shape fs gs -> starting_constant c1 cmul fs = starting_constant c1 cmul gs.
  Proof.
    unfold starting_constant. intros H. generalize c1. induction H as [|f g fs gs H _ IH]; intros c; [reflexivity|].
    destruct f, g; cbn in H; try tauto; cbn; [|subst|]; apply IH.
  Qed.
  Lemma shape_balanced (fs gs : list factor) : same_shape fs gs -> balanced fs -> balanced gs.
  Proof.
    intros H B. induction H as [|f g fs gs H _ IH]; [constructor|]. inversion B; subst. constructor; [|apply IH; assumption].
    destruct f, g; cbn in H; try tauto; lia.
  Qed.

  (** ** Values *)
  Section Val.
    Context {R : ring} (vf : factor -> car R) (vc : C -> car R).
    Hypothesis vc_neg : forall c, vc (cneg c) = ropp R (vc c).
    Notation vprod fs := (fold_right (rmul R) (r1 R) (map vf fs)).

    Lemma mul_neg_l x y : rmul R (ropp R x) y = ropp R (rmul R x y).
    Proof. ncr. Qed.
    Lemma mul_neg_r x y : rmul R x (ropp R y) = ropp R (rmul R x y).
    Proof. ncr. Qed.

    Lemma vprod_app fs gs : vprod (fs ++ gs) = rmul R (vprod fs) (vprod gs).
    Proof.
      induction fs as [|f fs IH]; cbn [app map fold_right]; [symmetry; apply rmul_1_l|].
      rewrite IH. apply rmul_assoc.
    Qed.

    Lemma rebuild_neg (fs : list factor) : forall bs ks acc acc', vprod acc' = ropp R (vprod acc) ->
      vprod (rebuild fs bs ks acc') = ropp R (vprod (rebuild fs bs ks acc)).
    Proof.
      induction fs as [|f fs IH]; intros bs ks acc acc' H; [exact H|]. destruct f; cbn [rebuild]; apply IH.
      - cbn [map fold_right]. rewrite H. apply mul_neg_r.
      - exact H.
      - rewrite !vprod_app, H. apply mul_neg_l.
    Qed.

    Lemma cut_inside {A} r (u : list A) x y v : S (length u) < r ->
      firstn r (u ++ x :: y :: v) = u ++ x :: y :: firstn (r - length u - 2) v /\
      skipn r (u ++ x :: y :: v) = skipn (r - length u - 2) v.
    Proof.
      intros H. rewrite firstn_app, skipn_app. rewrite firstn_all2, skipn_all2 by lia.
      replace (r - length u) with (S (S (r - length u - 2))) by lia.
      replace (S (S (r - length u - 2)) - 2) with (r - length u - 2) by lia. split; reflexivity.
    Qed.
    Lemma cut_before {A} r (u v : list A) : r <= length u ->
      firstn r (u ++ v) = firstn r u /\ skipn r (u ++ v) = skipn r u ++ v.
    Proof.
      intros H. rewrite firstn_app, skipn_app. replace (r - length u) with 0 by lia. cbn. rewrite app_nil_r. split; reflexivity.
    Qed.

    Lemma in_group_later rs s p : in_group (groups_of s rs) p -> s <= p.
    Proof.
      intros (g1 & g2 & H & G1 & _). assert (forall rs s g1 g2, In (g1, g2) (groups_of s rs) -> s <= g1) as K.
      { clear. induction rs as [|r rs IH]; intros s g1 g2 H; [destruct H|]. cbn in H. destruct H as [H|H].
        - injection H as <- <-. lia. - apply IH in H. lia. }
      apply K in H. lia.
    Qed.

    Lemma rebuild_antisym_lower (fs : list factor) : antisymmetric_factors vf fs ->
      forall s u x y v ks acc, in_group (groups_of s (ranks fs)) (s + length u) ->
      vprod (rebuild fs (u ++ y :: x :: v) ks acc) = ropp R (vprod (rebuild fs (u ++ x :: y :: v) ks acc)).
    Proof.
      induction fs as [|f fs IH]; intros A s u x y v ks acc (g1 & g2 & Hin & G1 & G2); [destruct Hin|].
      assert (A' : antisymmetric_factors vf fs).
      { destruct A as [A1 A2]. split; [|exact A2]. intros lab b0 k0 u0 x0 y0 v0 w Hf. eapply A1. right. exact Hf. }
      specialize (IH A').
      assert (Later : forall (r : nat), In (g1, g2) (groups_of (s + r) (ranks fs)) -> r <= length u /\
         in_group (groups_of (s + r) (ranks fs)) (s + r + length (skipn r u))).
      { intros r H. assert (s + r <= s + length u) by (apply (in_group_later (ranks fs)); exists g1, g2; auto).
        split; [lia|]. exists g1, g2. rewrite skipn_length. split; [exact H|lia]. }
      destruct f as [lab b k|c|c a]; cbn [rebuild].
      - change (ranks (FTensor lab b k :: fs)) with (length b :: ranks fs) in Hin. cbn [groups_of In] in Hin.
        destruct Hin as [E|Hin].
        + injection E as <- <-. destruct (cut_inside (length b) u x y v) as [-> ->]; [lia|].
          destruct (cut_inside (length b) u y x v) as [-> ->]; [lia|]. apply rebuild_neg. cbn [map fold_right].
          rewrite (proj1 (proj1 A lab b k u x y _ _ (or_introl eq_refl))). apply mul_neg_l.
        + destruct (Later _ Hin) as [Lu Hg].
          destruct (cut_before (length b) u (x :: y :: v) Lu) as [-> ->].
          destruct (cut_before (length b) u (y :: x :: v) Lu) as [-> ->]. apply (IH (s + length b)). exact Hg.
      - apply (IH s). exists g1, g2. auto.
      - change (ranks (FOp c a :: fs)) with (length a :: ranks fs) in Hin. cbn [groups_of In] in Hin.
        destruct Hin as [E|Hin].
        + injection E as <- <-. destruct (cut_inside (length a) u x y v) as [-> ->]; [lia|].
          destruct (cut_inside (length a) u y x v) as [-> ->]; [lia|]. apply rebuild_neg. rewrite !vprod_app. cbn [map fold_right].
          rewrite (proj2 (proj2 A u x y _ _)). rewrite mul_neg_l, mul_neg_r. reflexivity.
        + destruct (Later _ Hin) as [Lu Hg].
          destruct (cut_before (length a) u (x :: y :: v) Lu) as [-> ->].
          destruct (cut_before (length a) u (y :: x :: v) Lu) as [-> ->]. apply (IH (s + length a)). exact Hg.
    Qed.

    Lemma rebuild_antisym_upper (fs : list factor) : antisymmetric_factors vf fs ->
      forall s u x y v bs acc, in_group (groups_of s (ranks fs)) (s + length u) ->
      vprod (rebuild fs bs (u ++ y :: x :: v) acc) = ropp R (vprod (rebuild fs bs (u ++ x :: y :: v) acc)).
    Proof.
      induction fs as [|f fs IH]; intros A s u x y v ks acc (g1 & g2 & Hin & G1 & G2); [destruct Hin|].
      assert (A' : antisymmetric_factors vf fs).
      { destruct A as [A1 A2]. split; [|exact A2]. intros lab b0 k0 u0 x0 y0 v0 w Hf. eapply A1. right. exact Hf. }
      specialize (IH A').
      assert (Later : forall (r : nat), In (g1, g2) (groups_of (s + r) (ranks fs)) -> r <= length u /\
         in_group (groups_of (s + r) (ranks fs)) (s + r + length (skipn r u))).
      { intros r H. assert (s + r <= s + length u) by (apply (in_group_later (ranks fs)); exists g1, g2; auto).
        split; [lia|]. exists g1, g2. rewrite skipn_length. split; [exact H|lia]. }
      destruct f as [lab b k|c|c a]; cbn [rebuild].
      - change (ranks (FTensor lab b k :: fs)) with (length b :: ranks fs) in Hin. cbn [groups_of In] in Hin.
        destruct Hin as [E|Hin].
        + injection E as <- <-. destruct (cut_inside (length b) u x y v) as [-> ->]; [lia|].
          destruct (cut_inside (length b) u y x v) as [-> ->]; [lia|]. apply rebuild_neg. cbn [map fold_right].
          rewrite (proj2 (proj1 A lab b k u x y _ _ (or_introl eq_refl))). apply mul_neg_l.
        + destruct (Later _ Hin) as [Lu Hg].
          destruct (cut_before (length b) u (x :: y :: v) Lu) as [-> ->].
          destruct (cut_before (length b) u (y :: x :: v) Lu) as [-> ->]. apply (IH (s + length b)). exact Hg.
      - apply (IH s). exists g1, g2. auto.
      - change (ranks (FOp c a :: fs)) with (length a :: ranks fs) in Hin. cbn [groups_of In] in Hin.
        destruct Hin as [E|Hin].
        + injection E as <- <-. destruct (cut_inside (length a) u x y v) as [-> ->]; [lia|].
          destruct (cut_inside (length a) u y x v) as [-> ->]; [lia|]. apply rebuild_neg. rewrite !vprod_app. cbn [map fold_right].
          rewrite (proj1 (proj2 A u x y _ _)). rewrite mul_neg_l, mul_neg_r. reflexivity.
        + destruct (Later _ Hin) as [Lu Hg].
          destruct (cut_before (length a) u (x :: y :: v) Lu) as [-> ->].
          destruct (cut_before (length a) u (y :: x :: v) Lu) as [-> ->]. apply (IH (s + length a)). exact Hg.
    Qed.

    (** The sum as a double sum of signed values. *)
    Notation gs := (gsum (car R) (r0 R) (radd R)).
    Notation sg := (sgn (car R) (ropp R)).
    Definition pval (fs : list factor) (b k : list I) : car R :=
      rmul R (vc (starting_constant c1 cmul fs)) (vprod (rebuild fs b k [])).

    Lemma term_value fs bq kq :
      product_value vf vc (term fs bq kq) =
      sg (parity_sign bq) (sg (parity_sign kq) (pval fs (arr I d (lower fs) bq) (arr I d (upper fs) kq))).
    Proof.
      rewrite <- (sgn_mul _ (r0 R) (radd R) (ropp R)); [|apply radd_assoc|apply radd_comm|apply radd_0|apply radd_opp].
      unfold product_value, term, pval. cbn [p_scalar p_factors]. unfold signed, sgn.
      destruct (Z.eqb (parity_sign bq * parity_sign kq) 1); [reflexivity|]. rewrite vc_neg. apply mul_neg_l.
    Qed.

    Lemma sum_value_double fs L :
      sum_value vf vc (concat (map (fun bq => map (fun kq => term fs bq kq) L) L)) =
      gs (map (fun bq => sg (parity_sign bq)
                 (gs (map (fun kq => sg (parity_sign kq) (pval fs (arr I d (lower fs) bq) (arr I d (upper fs) kq))) L))) L).
    Proof.
      unfold sum_value. fold (gs (map (product_value vf vc) (concat (map (fun bq => map (fun kq => term fs bq kq) L) L)))).
      generalize L at 2 4. intros L'. induction L' as [|bq L' IH]; [reflexivity|]. cbn [map concat].
      rewrite map_app, (gsum_app _ (r0 R) (radd R)); [|apply radd_assoc|apply radd_0].
      rewrite IH. cbn [gsum fold_right]. fold (gs (map (fun bq => sg (parity_sign bq)
                 (gs (map (fun kq => sg (parity_sign kq) (pval fs (arr I d (lower fs) bq) (arr I d (upper fs) kq))) L))) L')).
      f_equal. rewrite (sgn_gsum _ (r0 R) (radd R)); [|apply radd_assoc|apply radd_comm|apply radd_0|apply radd_opp].
      rewrite !map_map. f_equal. apply map_ext. intros kq. apply term_value.
    Qed.

    Lemma sum_value_double' fs L :
      sum_value vf vc (concat (map (fun bq => map (fun kq => term fs bq kq) L) L)) =
      gs (map (fun kq => sg (parity_sign kq)
                 (gs (map (fun bq => sg (parity_sign bq) (pval fs (arr I d (lower fs) bq) (arr I d (upper fs) kq))) L))) L).
    Proof.
      rewrite sum_value_double.
      assert (Sw : forall (h : list nat -> list nat -> car R) L1 L2,
                gs (map (fun a => gs (map (fun b => h a b) L2)) L1) = gs (map (fun b => gs (map (fun a => h a b) L1)) L2)).
      { intros h L1 L2. induction L1 as [|a L1 IH]; cbn [map].
        - unfold gsum at 1. cbn. induction L2 as [|b L2 IH]; [reflexivity|]. cbn [map gsum fold_right]. unfold gsum in *. cbn. rewrite radd_0. exact IH.
        - cbn [gsum fold_right]. fold (gs (map (fun a => gs (map (fun b => h a b) L2)) L1)). rewrite IH. clear IH.
          induction L2 as [|b L2 IH]; cbn [map].
          + unfold gsum. cbn. apply radd_0.
          + unfold gsum in *. cbn [fold_right map]. rewrite <- IH. ncr. }
      assert (Hs : forall s l, sg s (gs l) = gs (map (sg s) l)).
      { intros s l. apply (sgn_gsum _ (r0 R) (radd R)); [apply radd_assoc|apply radd_comm|apply radd_0|apply radd_opp]. }
      transitivity (gs (map (fun bq => gs (map (fun kq => sg (parity_sign bq) (sg (parity_sign kq)
                      (pval fs (arr I d (lower fs) bq) (arr I d (upper fs) kq)))) L)) L)).
      { f_equal. apply map_ext. intros bq. rewrite Hs, map_map. reflexivity. }
      rewrite Sw. f_equal. apply map_ext. intros kq. rewrite Hs, map_map. f_equal. apply map_ext. intros bq.
      unfold sgn. destruct (Z.eqb (parity_sign bq) 1), (Z.eqb (parity_sign kq) 1); reflexivity.
    Qed.

    Lemma element_antisymmetric (p p' : product) fuel a :
      balanced (p_factors p) -> fact (length (lower (p_factors p))) <= fuel ->
      antisymmetric_factors vf (p_factors p) -> same_shape (p_factors p) (p_factors p') ->
      (exchanged a (lower (p_factors p)) (lower (p_factors p')) /\ upper (p_factors p') = upper (p_factors p)) \/
      (exchanged a (upper (p_factors p)) (upper (p_factors p')) /\ lower (p_factors p') = lower (p_factors p)) ->
      exists ts ts', all_terms d c1 cmul cneg fuel p = Some ts /\ all_terms d c1 cmul cneg fuel p' = Some ts' /\
        sum_value vf vc ts' = ropp R (sum_value vf vc ts).
    Proof.
      intros B Hf A Sh Ex.
      assert (B' := shape_balanced _ _ Sh B).
      assert (Ln : length (lower (p_factors p')) = length (lower (p_factors p))).
      { rewrite !lower_length, (shape_ranks _ _ Sh). reflexivity. }
      destruct (gen_unique_spec (ranks (p_factors p)) _ fuel Hf) as (L & _ & ND & CC & G).
      assert (T : forall q : product, same_shape (p_factors p) (p_factors q) -> balanced (p_factors q) ->
                length (lower (p_factors q)) = length (lower (p_factors p)) ->
                all_terms d c1 cmul cneg fuel q = Some (concat (map (fun bq => map (fun kq => term (p_factors q) bq kq) L) L))).
      { intros q Sq Bq Lq. unfold all_terms. rewrite (proj2 (ranks_ok_balanced _) Bq), index_group_ranks, lower_bra, upper_ket.
        rewrite <- (shape_ranks _ _ Sq).
        rewrite (G (lower (p_factors q)) Lq), (G (upper (p_factors q))) by (rewrite upper_length; assumption).
        rewrite <- collect_some. f_equal. rewrite concat_map, map_map. f_equal.
        assert (Len : forall b, length (arrs L b) = length L) by (intros b; apply map_length).
        rewrite !Len. apply map_seq_nth. intros i bq Hb. cbn [Nat.add]. rewrite map_map.
        apply map_seq_nth. intros j kq Hk. cbn [Nat.add]. unfold one_term, arrs.
        rewrite !nth_error_map, Hb, Hk. reflexivity. }
      eexists. eexists. split; [apply T; auto|].
      { clear. induction (p_factors p) as [|f fs IH]; constructor; [destruct f; auto|exact IH]. }
      split; [apply T; auto|].
      assert (PV : forall b k, pval (p_factors p') b k = pval (p_factors p) b k).
      { intros b k. unfold pval. rewrite (rebuild_shape _ _ Sh), (shape_const _ _ Sh). reflexivity. }
      destruct Ex as [[Ex E]|[Ex E]].
      - rewrite !sum_value_double'. rewrite <- (gsum_neg _ (r0 R) (radd R)); [|apply radd_assoc|apply radd_comm|apply radd_0|apply radd_opp].
        rewrite map_map. f_equal. apply map_ext. intros kq.
        rewrite <- (sgn_neg_arg _ (ropp R)). f_equal. rewrite E.
        erewrite map_ext; [|intros bq; rewrite PV; reflexivity].
        apply (signed_sum_antisymmetric _ (r0 R) (radd R) (ropp R) (radd_assoc R) (radd_comm R) (radd_0 R) (radd_opp R) I d
          (ranks (p_factors p)) (length (lower (p_factors p))) L
          (fun l => pval (p_factors p) l (arr I d (upper (p_factors p)) kq)) _ _ a); auto.
        intros l l' pp _ (u & x & y & v & <- & -> & ->) Hg. unfold pval.
        rewrite (rebuild_antisym_lower _ A 0) by exact Hg. apply mul_neg_r.
      - rewrite !sum_value_double. rewrite <- (gsum_neg _ (r0 R) (radd R)); [|apply radd_assoc|apply radd_comm|apply radd_0|apply radd_opp].
        rewrite map_map. f_equal. apply map_ext. intros bq.
        rewrite <- (sgn_neg_arg _ (ropp R)). f_equal. rewrite E.
        erewrite map_ext; [|intros kq; rewrite PV; reflexivity].
        apply (signed_sum_antisymmetric _ (r0 R) (radd R) (ropp R) (radd_assoc R) (radd_comm R) (radd_0 R) (radd_opp R) I d
          (ranks (p_factors p)) (length (lower (p_factors p))) L
          (fun l => pval (p_factors p) (arr I d (lower (p_factors p)) bq) l) _ _ a); auto.
        + rewrite upper_length; auto.
        + intros l l' pp _ (u & x & y & v & <- & -> & ->) Hg. unfold pval.
          rewrite (rebuild_antisym_upper _ A 0) by exact Hg. apply mul_neg_r.
    Qed.
  End Val.

  (** ** Screening *)
  Lemma screen_spec (same : product -> product -> bool) ts :
    (forall t, same t t = true) ->
    incl (screen same ts) ts /\
    (forall t, In t ts -> exists t', In t' (screen same ts) /\ (same t t' = true)) /\
    ForallOrdPairs (fun x y => same y x = false) (screen same ts).
  Proof.
    intros Rf. unfold screen.
    assert (Gen : forall ts acc, ForallOrdPairs (fun x y => same y x = false) acc ->
      let r := fold_left (fun acc t => if existsb (same t) acc then acc else acc ++ [t]) ts acc in
      incl r (acc ++ ts) /\ incl acc r /\
      (forall t, In t ts -> exists t', In t' r /\ same t t' = true) /\
      ForallOrdPairs (fun x y => same y x = false) r).
    { clear ts. induction ts as [|t ts IH]; intros acc HF; cbn [fold_left].
      - cbn. split; [rewrite app_nil_r; apply incl_refl|]. split; [apply incl_refl|]. split; [intros t []|exact HF].
      - destruct (existsb (same t) acc) eqn:E.
        + destruct (IH acc HF) as (I1 & I2 & I3 & I4). cbv zeta in *. split; [|split; [exact I2|split; [|exact I4]]].
          * intros x Hx. apply I1 in Hx. rewrite in_app_iff in *. cbn. tauto.
          * intros x [<-|Hx]; [|auto]. apply existsb_exists in E as (y & Hy & E). exists y. auto.
        + assert (HF' : ForallOrdPairs (fun x y => same y x = false) (acc ++ [t])).
          { clear - HF E. induction HF as [|x l Hx HF IH]; cbn; [repeat constructor|].
            cbn in E. apply orb_false_elim in E as [E1 E2]. constructor; [|apply IH; exact E2].
            apply Forall_app. split; [exact Hx|]. constructor; [exact E1|constructor]. }
          destruct (IH _ HF') as (I1 & I2 & I3 & I4). cbv zeta in *. split; [|split; [|split; [|exact I4]]].
          * intros x Hx. apply I1 in Hx. rewrite !in_app_iff in *. cbn in *. tauto.
          * intros x Hx. apply I2, in_or_app. auto.
          * intros x [<-|Hx]; [|auto]. exists t. split; [|apply Rf]. apply I2, in_or_app. right. left. reflexivity. }
    destruct (Gen ts [] (FOP_nil _)) as (I1 & _ & I3 & I4). cbv zeta in *. split; [exact I1|]. split; [exact I3|exact I4].
  Qed.
End Element.
