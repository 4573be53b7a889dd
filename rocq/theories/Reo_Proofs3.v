(** * Cache locality of the storage order; integrals through both rewriting steps *)
From Coq Require Import List Arith Lia Bool Permutation Sorted.
From Verif Require Import Reo_Model Reo_Spec Reo_Proofs Reo_Proofs2.
Import ListNotations.

Section Locality.
  Variable asize : nat -> nat.
  Variable lay : layout.
  Hypothesis lay_ok : lay <> Unspecified.
  Variable isort : (idx -> idx -> bool) -> list idx -> list idx.
  Variable psort : (idx * idx -> idx * idx -> bool) -> list (idx * idx) -> list (idx * idx).
  Hypothesis Hi : sorting isort.
  Hypothesis Hp : sorting psort.
  Notation sz i := (asize (i_space i)).
  Notation le := (le asize lay).

  Definition is_max (m : nat) (l : list idx) : Prop := (forall i, In i l -> sz i <= m) /\ exists i, In i l /\ sz i = m.

  Lemma max_space_ge : forall l s, osize asize s <= osize asize (fold_left (fun m i => if osize asize m <? sz i then Some (i_space i) else m) l s) /\
    (forall i, In i l -> sz i <= osize asize (fold_left (fun m i => if osize asize m <? sz i then Some (i_space i) else m) l s)) /\
    (osize asize (fold_left (fun m i => if osize asize m <? sz i then Some (i_space i) else m) l s) = osize asize s \/
     exists i, In i l /\ sz i = osize asize (fold_left (fun m i => if osize asize m <? sz i then Some (i_space i) else m) l s)).
  Proof.
    induction l as [|x l IH]; intros s; cbn [fold_left].
    - split; [lia|]. split; [intros i []|auto].
    - destruct (IH (if osize asize s <? sz x then Some (i_space x) else s)) as (A & B & C).
      destruct (Nat.ltb_spec (osize asize s) (sz x)); cbn [osize] in A.
      + split; [lia|]. split.
        * intros i [<-|Hin]; [exact A|auto].
        * right. destruct C as [C|(i & Hin & C)]; [exists x; split; [now left|]; rewrite C; reflexivity|].
          exists i. split; [now right|exact C].
      + split; [lia|]. split.
        * intros i [<-|Hin]; [lia|auto].
        * destruct C as [C|(i & Hin & C)]; [now left|]. right. exists i. split; [now right|exact C].
  Qed.

  Lemma max_space_max : forall l, l <> [] -> is_max (osize asize (max_space asize l)) l.
  Proof.
    intros l N. unfold max_space. destruct (max_space_ge l None) as (_ & B & C). split; [exact B|].
    destruct C as [C|C]; [|exact C]. destruct l as [|x l]; [congruence|]. exists x. split; [now left|].
    pose proof (B x (or_introl Logic.eq_refl)) as D. cbn [osize] in C. rewrite C in *. lia.
  Qed.

  Lemma is_max_perm : forall m l l', Permutation l l' -> is_max m l -> is_max m l'.
  Proof.
    intros m l l' P [A (i & B & C)]. split.
    - intros j Hj. apply A. now apply (Permutation_in j (Permutation_sym P)).
    - exists i. split; [now apply (Permutation_in i P)|exact C].
  Qed.
  Lemma is_max_unique : forall m m' l, is_max m l -> is_max m' l -> m = m'.
  Proof. intros m m' l [A (i & B & <-)] [A' (j & B' & <-)]. apply Nat.le_antisymm; [now apply A'|now apply A]. Qed.

  (** The fastest index of a sorted group. *)
  Lemma last_cons : forall (l : list idx) x y, last (y :: l) x = last l y.
  Proof.
    induction l as [|z l IH]; intros x y; [reflexivity|].
    change (last (z :: l) x = last (z :: l) y). now rewrite !IH.
  Qed.
  Lemma last_rev : forall (l : list idx) x, nth_error (rev (x :: l)) 0 = Some (last l x).
  Proof.
    induction l as [|y l IH]; intros x; [reflexivity|].
    rewrite last_cons, <- IH. cbn [rev]. destruct (rev l); reflexivity.
  Qed.
  Lemma le_row : forall x y, lay = RowMajor -> le x y -> sz x <= sz y.
  Proof. intros x y E. unfold Reo_Proofs.le, cmp, is_less, osize. rewrite E. apply Nat.ltb_ge. Qed.
  Lemma le_col : forall x y, lay = ColumnMajor -> le x y -> sz y <= sz x.
  Proof. intros x y E. unfold Reo_Proofs.le, cmp, is_less, osize. rewrite E. apply Nat.ltb_ge. Qed.

  Lemma sorted_last : lay = RowMajor -> forall l x, StronglySorted le (x :: l) ->
    In (last l x) (x :: l) /\ forall i, In i (x :: l) -> sz i <= sz (last l x).
  Proof.
    intros EL l. induction l as [|y l IH]; intros x S.
    - split; [now left|]. intros i [<-|[]]. cbn. lia.
    - inversion S as [|? ? S1 F]. rewrite last_cons. destruct (IH y S1) as [A B]. split; [now right|].
      intros i [<-|Hin]; [|now apply B]. inversion F as [|? ? G _].
      transitivity (sz y); [now apply le_row|]. apply B. now left.
  Qed.

  Lemma fastest_sorted : forall l, l <> [] -> StronglySorted le l ->
    exists i, fastest lay l = Some i /\ is_max (sz i) l /\ relevant_space lay l = Some (i_space i).
  Proof.
    intros [|x l] N S; [congruence|]. unfold fastest, relevant_space. destruct lay eqn:EL; [| |congruence].
    - destruct (sorted_last EL l x) as [A B]; [now rewrite EL|].
      exists (last l x). split; [apply last_rev|]. split; [|reflexivity]. split; [exact B|]. eauto.
    - exists x. split; [reflexivity|]. split; [|reflexivity]. split; [|exists x; split; [now left|reflexivity]].
      intros i [<-|Hin]; [lia|]. inversion S as [|? ? S1 F]. rewrite Forall_forall in F.
      apply le_col; [exact EL|]. rewrite EL. now apply F.
  Qed.

  Lemma sortedb_sorted : forall l, sortedb (cmp asize lay) l = true -> StronglySorted le l.
  Proof.
    induction l as [|x l IH]; intros S; [constructor|]. cbn [sortedb] in S. destruct l as [|y l].
    - repeat constructor.
    - apply andb_true_iff in S. destruct S as [A B]. apply negb_true_iff in A. specialize (IH B).
      constructor; [exact IH|]. constructor; [exact A|]. inversion IH as [|? ? S1 F].
      eapply Forall_impl; [|exact F]. intros z Hz. eapply le_trans; [exact A|exact Hz].
  Qed.

  Lemma sorted_zip : forall f b k, sortedb (cmp asize lay) b = true -> sortedb (cmp asize lay) k = true ->
    sortedb (pair_cmp asize lay f) (combine b k) = true.
  Proof.
    intros f. induction b as [|x b IH]; intros k Sb Sk; [reflexivity|]. destruct k as [|y k]; [reflexivity|].
    destruct b as [|x' b]; [reflexivity|]. destruct k as [|y' k]; [reflexivity|].
    cbn [sortedb] in Sb, Sk. apply andb_true_iff in Sb, Sk. destruct Sb as [A Sb], Sk as [B Sk].
    specialize (IH (y' :: k) Sb Sk). cbn [combine sortedb] in *. rewrite IH, andb_true_r.
    apply negb_true_iff in A, B. unfold pair_cmp. rewrite A, B.
    destruct f; [destruct (cmp asize lay x x')|destruct (cmp asize lay y y')]; reflexivity.
  Qed.

  Variable t : tensor.
  Hypothesis TS : t_symm t = Symm.

  Lemma no_particles : sort_particles asize lay t = false.
  Proof.
    destruct (sort_particles asize lay t) eqn:E; [|reflexivity].
    destruct (particles_facts asize lay t E) as (A & B & _).
    unfold sort_particles in E. rewrite A, B in E.
    unfold sort_bra, sort_ket, is_Symm in A, B. rewrite TS in A, B. cbn [andb] in A, B.
    apply negb_false_iff in A, B. rewrite (sorted_zip _ _ _ A B) in E. cbn [negb] in E.
    rewrite andb_false_r in E. discriminate.
  Qed.

  Definition bra' := if sort_bra asize lay t then isort (cmp asize lay) (t_bra t) else t_bra t.
  Definition ket' := if sort_ket asize lay t then isort (cmp asize lay) (t_ket t) else t_ket t.

  Lemma bra'_sorted : StronglySorted le bra' /\ Permutation (t_bra t) bra'.
  Proof.
    unfold bra'. destruct (sort_bra asize lay t) eqn:E.
    - split; apply (Hi _ _ (cmp_weak asize lay)).
    - split; [|reflexivity]. unfold sort_bra, is_Symm in E. rewrite TS in E. cbn in E.
      apply negb_false_iff in E. now apply sortedb_sorted.
  Qed.
  Lemma ket'_sorted : StronglySorted le ket' /\ Permutation (t_ket t) ket'.
  Proof.
    unfold ket'. destruct (sort_ket asize lay t) eqn:E.
    - split; apply (Hi _ _ (cmp_weak asize lay)).
    - split; [|reflexivity]. unfold sort_ket, is_Symm in E. rewrite TS in E. cbn in E.
      apply negb_false_iff in E. now apply sortedb_sorted.
  Qed.

  Lemma relevant_bra_max : t_bra t <> [] -> is_max (osize asize (relevant_bra asize lay t)) (t_bra t).
  Proof.
    intros N. unfold relevant_bra. rewrite no_particles. cbn [andb]. rewrite orb_false_r.
    destruct (sort_bra asize lay t) eqn:E; [now apply max_space_max|].
    destruct bra'_sorted as [S _]. unfold bra' in S. rewrite E in S.
    destruct (fastest_sorted _ N S) as (i & _ & M & ->). exact M.
  Qed.
  Lemma relevant_ket_max : t_ket t <> [] -> is_max (osize asize (relevant_ket asize lay t)) (t_ket t).
  Proof.
    intros N. unfold relevant_ket. rewrite no_particles. cbn [andb]. rewrite orb_false_r.
    destruct (sort_ket asize lay t) eqn:E; [now apply max_space_max|].
    destruct ket'_sorted as [S _]. unfold ket' in S. rewrite E in S.
    destruct (fastest_sorted _ N S) as (i & _ & M & ->). exact M.
  Qed.

  Hypothesis NA : t_aux t = [].

  Lemma storage_sym : storage_order asize lay isort psort true t =
    (if swap_braket asize lay t then ket' ++ bra' else bra' ++ ket').
  Proof.
    unfold storage_order, rewrite_tensor, sorted_braket. rewrite no_particles. cbn [negb].
    assert (prioritize_aux asize lay t = false) as -> by (unfold prioritize_aux; now rewrite NA).
    unfold all_indices, bra', ket'. rewrite NA. cbn [stable_sort negb andb].
    destruct (sort_bra asize lay t), (sort_ket asize lay t), (swap_braket asize lay t);
      cbn [negb andb t_bra t_ket t_aux app]; rewrite ?app_nil_r; reflexivity.
  Qed.

  Lemma fastest_app_col : forall f s i, lay = ColumnMajor -> fastest lay f = Some i -> fastest lay (f ++ s) = Some i.
  Proof. intros f s i E. unfold fastest. rewrite E. destruct f; [discriminate|auto]. Qed.
  Lemma fastest_app_row : forall f s i, lay = RowMajor -> fastest lay s = Some i -> fastest lay (f ++ s) = Some i.
  Proof.
    intros f s i E. unfold fastest. rewrite E, rev_app_distr. destruct (rev s); [discriminate|auto].
  Qed.

  Lemma needs_swap_size : forall l r, needs_swap asize lay l r =
    match lay with RowMajor => osize asize r <? osize asize l | ColumnMajor => osize asize l <? osize asize r
                 | Unspecified => needs_swap asize lay l r end.
  Proof.
    intros l r. unfold needs_swap, is_ordered, is_less.
    assert (Q : oeqb l r = true -> l = r).
    { destruct l, r; cbn; try discriminate; [|reflexivity]. intros H. apply Nat.eqb_eq in H. now subst. }
    destruct lay; [| |reflexivity].
    - destruct (oeqb l r) eqn:E; [rewrite (Q Logic.eq_refl); cbn; symmetry; apply Nat.ltb_irrefl|].
      destruct (Nat.ltb_spec (osize asize l) (osize asize r)); destruct (Nat.eqb_spec (osize asize l) (osize asize r));
      destruct (Nat.ltb_spec (osize asize r) (osize asize l)); cbn; try lia; reflexivity.
    - destruct (oeqb l r) eqn:E; [rewrite (Q Logic.eq_refl); cbn; symmetry; apply Nat.ltb_irrefl|].
      destruct (Nat.ltb_spec (osize asize l) (osize asize r)); destruct (Nat.eqb_spec (osize asize l) (osize asize r));
      destruct (Nat.ltb_spec (osize asize r) (osize asize l)); cbn; try lia; reflexivity.
  Qed.

  Hypothesis TB : t_bksymm t = BKSymm.

  Lemma two_groups : forall f s, f <> [] -> s <> [] -> StronglySorted le f -> StronglySorted le s ->
    (forall m n, is_max m f -> is_max n s -> match lay with RowMajor => m <= n | _ => n <= m end) ->
    exists i, fastest lay (f ++ s) = Some i /\ forall j, In j (f ++ s) -> sz j <= sz i.
  Proof.
    intros f s Nf Ns Sf Ss M.
    destruct (fastest_sorted f Nf Sf) as (i & Fi & Mi & _). destruct (fastest_sorted s Ns Ss) as (j & Fj & Mj & _).
    specialize (M _ _ Mi Mj). destruct lay eqn:EL; [| |congruence].
    - exists j. split; [rewrite <- EL; apply fastest_app_row; [exact EL|now rewrite EL]|].
      intros k Hk. apply in_app_or in Hk. destruct Hk as [Hk|Hk]; [|now apply Mj].
      pose proof (proj1 Mi k Hk). lia.
    - exists i. split; [rewrite <- EL; apply fastest_app_col; [exact EL|now rewrite EL]|].
      intros k Hk. apply in_app_or in Hk. destruct Hk as [Hk|Hk]; [now apply Mi|].
      pose proof (proj1 Mj k Hk). lia.
  Qed.

  Lemma locality : t_bra t ++ t_ket t <> [] ->
    exists i, fastest lay (storage_order asize lay isort psort true t) = Some i /\
      forall j, In j (t_bra t ++ t_ket t) -> sz j <= sz i.
  Proof.
    intros N. rewrite storage_sym. destruct bra'_sorted as [Sb Pb], ket'_sorted as [Sk Pk].
    assert (P : forall j, In j (t_bra t ++ t_ket t) <-> In j (bra' ++ ket')).
    { intros j. pose proof (Permutation_app Pb Pk) as Q. split; [apply (Permutation_in j Q)|apply (Permutation_in j (Permutation_sym Q))]. }
    assert (P2 : forall j, In j (t_bra t ++ t_ket t) <-> In j (ket' ++ bra')).
    { intros j. rewrite P, !in_app_iff. tauto. }
    unfold swap_braket, is_BKSymm. rewrite TB, andb_true_r.
    destruct (t_bra t) as [|x b] eqn:Eb; cbn [nonempty andb].
    - apply Permutation_nil in Pb. rewrite Pb in *. cbn [app] in *.
      destruct (fastest_sorted ket') as (i & Fi & Mi & _); [|exact Sk|exists i; split; [exact Fi|]].
      + intros E. rewrite E in Pk. apply Permutation_sym, Permutation_nil in Pk. congruence.
      + intros j Hj. apply Mi. now apply P.
    - destruct (t_ket t) as [|y k] eqn:Ek; cbn [nonempty andb].
      + apply Permutation_nil in Pk. rewrite Pk in *. rewrite app_nil_r in *.
        destruct (fastest_sorted bra') as (i & Fi & Mi & _); [|exact Sb|exists i; split; [exact Fi|]].
        * intros E. rewrite E in Pb. apply Permutation_sym, Permutation_nil in Pb. congruence.
        * intros j Hj. apply Mi. rewrite app_nil_r in Hj. now apply P2 in Hj.
      + assert (Nb : bra' <> []) by (intros E; rewrite E in Pb; apply Permutation_sym, Permutation_nil in Pb; congruence).
        assert (Nk : ket' <> []) by (intros E; rewrite E in Pk; apply Permutation_sym, Permutation_nil in Pk; congruence).
        pose proof (relevant_bra_max) as Mb. rewrite Eb in Mb. specialize (Mb ltac:(discriminate)).
        pose proof (relevant_ket_max) as Mk. rewrite Ek in Mk. specialize (Mk ltac:(discriminate)).
        apply (is_max_perm _ _ _ Pb) in Mb. apply (is_max_perm _ _ _ Pk) in Mk.
        rewrite needs_swap_size.
        destruct (match lay with RowMajor => _ | ColumnMajor => _ | Unspecified => _ end) eqn:ES.
        * destruct (two_groups ket' bra' Nk Nb Sk Sb) as (i & Fi & Mi).
          { intros m n A B. rewrite (is_max_unique _ _ _ A Mk), (is_max_unique _ _ _ B Mb).
            destruct lay; [| |congruence]; apply Nat.ltb_lt in ES; lia. }
          exists i. split; [exact Fi|]. intros j Hj. apply Mi. now apply P2.
        * destruct (two_groups bra' ket' Nb Nk Sb Sk) as (i & Fi & Mi).
          { intros m n A B. rewrite (is_max_unique _ _ _ A Mb), (is_max_unique _ _ _ B Mk).
            destruct lay; [| |congruence]; apply Nat.ltb_ge in ES; lia. }
          exists i. split; [exact Fi|]. intros j Hj. apply Mi. now apply P.
  Qed.
End Locality.

Section Export.
  Variable asize : nat -> nat.
  Variable isort : (idx -> idx -> bool) -> list idx -> list idx.
  Variable psort : (idx * idx -> idx * idx -> bool) -> list (idx * idx) -> list (idx * idx).
  Hypothesis Hi : sorting isort.
  Hypothesis Hp : sorting psort.
  Context {V : Type} (eri : idx -> idx -> idx -> idx -> V).
  Hypothesis E8 : eightfold eri.

  Definition arrJ (b k x : list idx) : option V :=
    match b, k with [b0; b1], [k0; k1] => Some (eri b0 b1 k0 k1) | _, _ => None end.
  Definition arrK (b k x : list idx) : option V :=
    match b, k with [b0; b1], [k0; k1] => Some (eri b0 k0 b1 k1) | _, _ => None end.

  Lemma perm2 : forall A (x y : A) l, Permutation [x; y] l -> l = [x; y] \/ l = [y; x].
  Proof. intros A x y l P. apply Permutation_length_2_inv in P. exact P. Qed.

  Lemma not2 : forall A (l l' : list A), Permutation l l' -> length l <> 2 -> length l' <> 2.
  Proof. intros A l l' P N E. apply N. now rewrite (Permutation_length P). Qed.

  Lemma arrJ_none : forall b k x, length b <> 2 \/ length k <> 2 -> arrJ b k x = None.
  Proof.
    intros [|b0 [|b1 [|b2 b]]] [|k0 [|k1 [|k2 k]]] x [N|N]; try reflexivity; cbn in N; congruence.
  Qed.
  Lemma arrK_none : forall b k x, length b <> 2 \/ length k <> 2 -> arrK b k x = None.
  Proof.
    intros [|b0 [|b1 [|b2 b]]] [|k0 [|k1 [|k2 k]]] x [N|N]; try reflexivity; cbn in N; congruence.
  Qed.
  Lemma two : forall A (l : list A), length l = 2 -> exists a b, l = [a; b].
  Proof. intros A [|a [|b [|c l]]] E; try discriminate. eauto. Qed.

  Lemma arrJ_respects : forall s bk c, respects arrJ s bk c.
  Proof.
    intros s bk c. split; [|split].
    - intros _ b b' k k' x Pb Pk.
      destruct (Nat.eq_dec (length b) 2) as [Lb|Lb]; [|rewrite !arrJ_none; auto; left; now apply (not2 _ _ _ Pb)].
      destruct (Nat.eq_dec (length k) 2) as [Lk|Lk]; [|rewrite !arrJ_none; auto; right; now apply (not2 _ _ _ Pk)].
      destruct (two _ _ Lb) as (b0 & b1 & ->), (two _ _ Lk) as (k0 & k1 & ->).
      destruct (perm2 _ _ _ _ Pb) as [-> | ->], (perm2 _ _ _ _ Pk) as [-> | ->]; cbn; f_equal;
        rewrite ?(proj1 (E8 b0 b1 k0 k1)), ?(proj1 (E8 b0 b1 k1 k0)), ?(proj1 (proj2 (E8 b0 b1 k0 k1))); reflexivity.
    - intros _ ps ps' x P.
      destruct (Nat.eq_dec (length ps) 2) as [L|L].
      + destruct (two _ _ L) as ([p1 p2] & [q1 q2] & ->). destruct (perm2 _ _ _ _ P) as [-> | ->]; cbn; [reflexivity|].
        f_equal. rewrite (proj1 (E8 p1 q1 q2 p2)). apply (proj1 (proj2 (E8 p1 q1 p2 q2))).
      + rewrite !arrJ_none; auto; left; rewrite map_length; [exact L|now apply (not2 _ _ _ P)].
    - intros _ b k x.
      destruct (Nat.eq_dec (length b) 2) as [Lb|Lb]; [|rewrite !arrJ_none; auto].
      destruct (Nat.eq_dec (length k) 2) as [Lk|Lk]; [|rewrite !arrJ_none; auto].
      destruct (two _ _ Lb) as (b0 & b1 & ->), (two _ _ Lk) as (k0 & k1 & ->). cbn. f_equal.
      apply (proj2 (proj2 (E8 b0 b1 k0 k1))).
  Qed.

  Lemma arrK_respects : forall s bk c,
    (s = Symm -> forall b0 b1 k0 k1, eri b1 k0 b0 k1 = eri b0 k0 b1 k1) -> respects arrK s bk c.
  Proof.
    intros s bk c HS. split; [|split].
    - intros Es b b' k k' x Pb Pk. specialize (HS Es).
      destruct (Nat.eq_dec (length b) 2) as [Lb|Lb]; [|rewrite !arrK_none; auto; left; now apply (not2 _ _ _ Pb)].
      destruct (Nat.eq_dec (length k) 2) as [Lk|Lk]; [|rewrite !arrK_none; auto; right; now apply (not2 _ _ _ Pk)].
      destruct (two _ _ Lb) as (b0 & b1 & ->), (two _ _ Lk) as (k0 & k1 & ->).
      assert (X : eri b0 k1 b1 k0 = eri b0 k0 b1 k1).
      { rewrite <- (proj2 (proj2 (E8 b0 k1 b1 k0))). apply HS. }
      destruct (perm2 _ _ _ _ Pb) as [-> | ->], (perm2 _ _ _ _ Pk) as [-> | ->]; cbn; f_equal.
      + exact X.
      + apply HS.
      + apply (proj2 (proj2 (E8 b0 k0 b1 k1))).
    - intros _ ps ps' x P.
      destruct (Nat.eq_dec (length ps) 2) as [L|L].
      + destruct (two _ _ L) as ([p1 p2] & [q1 q2] & ->). destruct (perm2 _ _ _ _ P) as [-> | ->]; cbn; [reflexivity|].
        f_equal. apply (proj2 (proj2 (E8 p1 p2 q1 q2))).
      + rewrite !arrK_none; auto; left; rewrite map_length; [exact L|now apply (not2 _ _ _ P)].
    - intros _ b k x.
      destruct (Nat.eq_dec (length b) 2) as [Lb|Lb]; [|rewrite !arrK_none; auto].
      destruct (Nat.eq_dec (length k) 2) as [Lk|Lk]; [|rewrite !arrK_none; auto].
      destruct (two _ _ Lb) as (b0 & b1 & ->), (two _ _ Lk) as (k0 & k1 & ->). cbn. f_equal.
      rewrite (proj1 (E8 b0 k0 k1 b1)). apply (proj1 (proj2 (E8 b0 k0 b1 k1))).
  Qed.

  Lemma storage_two : forall lay on t c0 c1 l0 l1 (T : list idx -> list idx -> list idx -> option V),
    t_bra t = [c0; c1] -> t_ket t = [l0; l1] -> t_aux t = [] ->
    respects T (t_symm t) (t_bksymm t) (t_colsymm t) ->
    exists p q u v, storage_order asize lay isort psort on t = [p; q; u; v] /\ T [p; q] [u; v] [] = T [c0; c1] [l0; l1] [].
  Proof.
    intros lay on t c0 c1 l0 l1 T Eb Ek Ea RT.
    destruct (storage_form asize lay isort psort Hi Hp on t) as (b & k & x & Pb & Pk & Fx & Vt & f & s & FS & O).
    specialize (Vt _ T RT). rewrite Ea in Fx. cbn in Fx. assert (x = []) as -> by tauto.
    specialize (Vt []). rewrite Eb in Pb, Vt. rewrite Ek in Pk, Vt. destruct RT as (_ & _ & RB).
    destruct (perm2 _ _ _ _ Pb) as [Xb|Xb], (perm2 _ _ _ _ Pk) as [Xk|Xk]; subst b k;
    (destruct FS as [[-> ->]|(-> & -> & B)]; rewrite ?app_nil_r in O; cbn in O; destruct O as [O|O]; rewrite O; do 4 eexists;
      (split; [reflexivity|]); first [reflexivity | exact Vt | etransitivity; [apply (RB B)|first [reflexivity|exact Vt]]]).
  Qed.

  Lemma itf_value : forall glab jlab klab on t b0 b1 k0 k1,
    t_label t = glab -> t_bra t = [b0; b1] -> t_ket t = [k0; k1] -> t_aux t = [] ->
    (t_symm t = Symm -> forall b0 b1 k0 k1, eri b1 k0 b0 k1 = eri b0 k0 b1 k1) ->
    exists p q u v, let r := itf_rewrite asize ColumnMajor isort psort glab jlab klab on t in
      all_indices r = [p; q; u; v] /\
      ((t_label r = jlab /\ eri p q u v = g_value eri b0 b1 k0 k1) \/
       (t_label r = klab /\ eri p u q v = g_value eri b0 b1 k0 k1)).
  Proof.
    intros glab jlab klab on t b0 b1 k0 k1 Hl Eb Ek Ea HS.
    assert (II : is_integral glab t = true).
    { unfold is_integral, all_indices. rewrite Hl, Eb, Ek, Ea, Nat.eqb_refl. reflexivity. }
    unfold itf_rewrite. rewrite II. unfold to_integral. rewrite Eb, Ek.
    pose proof (rewrite_integral_value asize ColumnMajor V eri b0 b1 k0 k1 E8) as RV.
    destruct (rewrite_integral asize ColumnMajor b0 b1 k0 k1) as [c0 c1 l0 l1|c0 c1 l0 l1]; cbn [integral_value] in RV.
    - set (t1 := mkTensor jlab [c0; c1] [l0; l1] (t_aux t) (t_symm t) (t_bksymm t) (t_colsymm t)).
      destruct (storage_two ColumnMajor on t1 c0 c1 l0 l1 arrJ) as (p & q & u & v & S & EV);
        [reflexivity|reflexivity|exact Ea|apply arrJ_respects|].
      exists p, q, u, v. cbn [arrJ] in EV. injection EV as EV.
      unfold storage_order in S. destruct (rewrite_tensor asize ColumnMajor isort psort on t1) as [t2|] eqn:R.
      + cbv zeta. split; [exact S|]. left. split; [|congruence].
        unfold rewrite_tensor in R. destruct on; [|discriminate]. cbn [negb] in R. destruct (_ && _); [discriminate|].
        destruct (sorted_braket _ _ _ _ t1). injection R as <-. reflexivity.
      + cbv zeta. split; [exact S|]. left. split; [reflexivity|congruence].
    - set (t1 := mkTensor klab [c0; c1] [l0; l1] (t_aux t) (t_symm t) (t_bksymm t) (t_colsymm t)).
      destruct (storage_two ColumnMajor on t1 c0 c1 l0 l1 arrK) as (p & q & u & v & S & EV);
        [reflexivity|reflexivity|exact Ea|now apply arrK_respects|].
      exists p, q, u, v. cbn [arrK] in EV. injection EV as EV.
      unfold storage_order in S. destruct (rewrite_tensor asize ColumnMajor isort psort on t1) as [t2|] eqn:R.
      + cbv zeta. split; [exact S|]. right. split; [|congruence].
        unfold rewrite_tensor in R. destruct on; [|discriminate]. cbn [negb] in R. destruct (_ && _); [discriminate|].
        destruct (sorted_braket _ _ _ _ t1). injection R as <-. reflexivity.
      + cbv zeta. split; [exact S|]. right. split; [reflexivity|congruence].
  Qed.
End Export.
