(** next_permutation_parity and the permutation loops. *)
From Coq Require Import ZArith List Arith Bool Permutation Sorted Lia Factorial.
From Verif Require Import Alg_Model Alg_Spec Alg_Proofs1.
Import ListNotations.

Local Arguments Nat.div : simpl never.

(* ---------- exchanges ---------- *)
Lemma exchanges_trans {A} k j (l m n : list A) :
  exchanges k l m -> exchanges j m n -> exchanges (k + j) l n.
Proof. intros H1 H2. induction H1; cbn; auto. constructor. auto. Qed.

Lemma exchanges_ctx {A} k (l m p s : list A) : exchanges k l m -> exchanges k (p ++ l ++ s) (p ++ m ++ s).
Proof.
  intros H. induction H as [l|k a x b y c m H IH]; [constructor|].
  replace (p ++ (a ++ x :: b ++ y :: c) ++ s) with ((p ++ a) ++ x :: b ++ y :: (c ++ s))
    by (rewrite <- !app_assoc; cbn; rewrite <- !app_assoc; reflexivity).
  constructor.
  replace ((p ++ a) ++ y :: b ++ x :: c ++ s) with (p ++ (a ++ y :: b ++ x :: c) ++ s)
    by (rewrite <- !app_assoc; cbn; rewrite <- !app_assoc; reflexivity).
  exact IH.
Qed.

Lemma exchanges_perm {A} k (l m : list A) : exchanges k l m -> Permutation l m.
Proof.
  intros H. induction H as [l|k a x b y c m H IH]; auto. rewrite <- IH.
  apply Permutation_app_head.
  rewrite (Permutation_app_comm b (y :: c)). rewrite (Permutation_app_comm b (x :: c)). cbn.
  rewrite perm_swap. constructor. constructor. auto.
Qed.

Lemma exchanges_rev {A} n : forall s : list A, length s <= n -> exchanges (length s / 2) s (rev s).
Proof.
  induction n as [n IH] using lt_wf_ind. intros s Hs.
  destruct s as [|a s]; [constructor|].
  destruct (rev s) as [|b t] eqn:E.
  - apply (f_equal (@rev A)) in E. rewrite rev_involutive in E. cbn in E. subst s. cbn. constructor.
  - assert (Es : s = rev t ++ [b]) by (rewrite <- (rev_involutive s), E; reflexivity). clear E. subst s.
    assert (L : length (rev t) < n) by (cbn in Hs; rewrite app_length in Hs; cbn in Hs; lia).
    assert (D : length (a :: rev t ++ [b]) / 2 = S (length (rev t) / 2)).
    { cbn [length]. rewrite app_length. cbn [length]. replace (S (length (rev t) + 1)) with (1 * 2 + length (rev t)) by lia.
      rewrite Nat.div_add_l; lia. }
    rewrite D. change (a :: rev t ++ [b]) with ([] ++ a :: rev t ++ b :: []).
    constructor. cbn [app rev]. rewrite rev_app_distr, rev_involutive. cbn [rev app].
    pose proof (exchanges_ctx _ _ _ [b] [a] (IH _ L (rev t) (le_n _))) as H.
    rewrite rev_involutive in H. exact H.
Qed.

(* ---------- signs ---------- *)
Section Sign.
  Context {A : Type}.
  Variable lt : A -> A -> bool.
  Hypothesis irr : forall x, lt x x = false.
  Hypothesis tr : forall x y z, lt x y = true -> lt y z = true -> lt x z = true.

  Lemma lt_asym x y : lt x y = true -> lt y x = false.
  Proof. intros H. destruct (lt y x) eqn:E; auto. specialize (tr _ _ _ H E). rewrite irr in tr. discriminate. Qed.

  Lemma inv_app_cong a : forall l m, Permutation l m ->
    forall k, inversions lt l = inversions lt m + k -> inversions lt (a ++ l) = inversions lt (a ++ m) + k.
  Proof.
    induction a as [|x a IH]; intros l m P k H; auto. cbn.
    rewrite (IH l m P k H). rewrite (filter_perm_len _ (a ++ l) (a ++ m)); [lia|].
    apply Permutation_app_head. auto.
  Qed.

  Lemma inv_adj a x y c : (lt x y = true \/ lt y x = true) ->
    Nat.odd (inversions lt (a ++ x :: y :: c)) = negb (Nat.odd (inversions lt (a ++ y :: x :: c))).
  Proof.
    assert (K : forall x y, lt y x = true -> inversions lt (x :: y :: c) = inversions lt (y :: x :: c) + 1).
    { intros u v H. cbn. rewrite H, (lt_asym _ _ H). cbn. lia. }
    intros [H|H].
    - rewrite (inv_app_cong a (y :: x :: c) (x :: y :: c) (perm_swap _ _ _) 1 (K _ _ H)).
      rewrite Nat.add_1_r, Nat.odd_succ, <- Nat.negb_odd, negb_involutive. reflexivity.
    - rewrite (inv_app_cong a (x :: y :: c) (y :: x :: c) (perm_swap _ _ _) 1 (K _ _ H)).
      rewrite Nat.add_1_r, Nat.odd_succ, <- Nat.negb_odd. reflexivity.
  Qed.

  Lemma inv_move b : forall a x c, (forall z, In z b -> lt x z = true \/ lt z x = true) ->
    Nat.odd (inversions lt (a ++ x :: b ++ c)) = xorb (Nat.odd (length b)) (Nat.odd (inversions lt (a ++ b ++ x :: c))).
  Proof.
    induction b as [|y b IH]; intros a x c H; cbn [app length].
    - destruct (Nat.odd _); reflexivity.
    - rewrite inv_adj by (apply H; cbn; auto).
      change (a ++ y :: x :: b ++ c) with (a ++ [y] ++ x :: b ++ c). rewrite app_assoc.
      rewrite IH by (intros; apply H; cbn; auto). rewrite <- app_assoc. cbn [app].
      rewrite Nat.odd_succ, <- Nat.negb_odd.
      destruct (Nat.odd (length b)), (Nat.odd (inversions lt (a ++ y :: b ++ x :: c))); reflexivity.
  Qed.

  Lemma inv_swap a x b y c :
    (forall u v, In u (x :: b ++ [y]) -> In v (x :: b ++ [y]) -> u = v \/ lt u v = true \/ lt v u = true) ->
    NoDup (x :: b ++ [y]) ->
    Nat.odd (inversions lt (a ++ x :: b ++ y :: c)) = negb (Nat.odd (inversions lt (a ++ y :: b ++ x :: c))).
  Proof.
    intros T ND. inversion ND as [|? ? N1 N2]; subst.
    assert (Ny : ~ In y b).
    { intros H. apply NoDup_remove_2 in N2. rewrite app_nil_r in N2. auto. }
    assert (Iy : In y (b ++ [y])) by (apply in_or_app; cbn; auto).
    rewrite inv_move.
    2:{ intros z Hz. assert (In z (b ++ [y])) by (apply in_or_app; auto).
        destruct (T x z) as [E|E]; cbn; auto. subst. contradiction. }
    rewrite app_assoc. rewrite inv_adj.
    2:{ destruct (T x y) as [E|E]; cbn; auto. subst. contradiction. }
    rewrite <- app_assoc. rewrite inv_move with (x := y) (b := b).
    2:{ intros z Hz. assert (In z (b ++ [y])) by (apply in_or_app; auto).
        destruct (T y z) as [E|E]; cbn; auto. subst. contradiction. }
    destruct (Nat.odd (length b)), (Nat.odd (inversions lt (a ++ b ++ y :: x :: c))); reflexivity.
  Qed.

  Lemma exchanges_sign k l m : exchanges k l m -> NoDup l ->
    (forall u v, In u l -> In v l -> u = v \/ lt u v = true \/ lt v u = true) ->
    Nat.odd (inversions lt m) = xorb (Nat.odd (inversions lt l)) (Nat.odd k).
  Proof.
    intros H. induction H as [l|k a x b y c m H IH]; intros ND T.
    - destruct (Nat.odd (inversions lt l)); reflexivity.
    - assert (P : Permutation (a ++ x :: b ++ y :: c) (a ++ y :: b ++ x :: c)).
      { apply exchanges_perm with 1. constructor. constructor. }
      assert (Inc : forall u, In u (x :: b ++ [y]) -> In u (a ++ x :: b ++ y :: c)).
      { intros u. rewrite in_app_iff. cbn. rewrite !in_app_iff. cbn. tauto. }
      rewrite IH.
      + rewrite (inv_swap a x b y c).
        * rewrite Nat.odd_succ, <- Nat.negb_odd.
          destruct (Nat.odd k), (Nat.odd (inversions lt (a ++ y :: b ++ x :: c))); reflexivity.
        * intros u v Hu Hv. apply T; auto.
        * clear - ND. induction a as [|z a IHa]; cbn in ND.
          -- change (x :: b ++ y :: c) with (x :: b ++ [y] ++ c) in ND. rewrite app_assoc in ND.
             change (NoDup ((x :: b ++ [y]) ++ c)) in ND.
             clear - ND. set (p := x :: b ++ [y]) in *. clearbody p.
             induction p as [|w p IHp]; [constructor|]. inversion ND; subst. constructor; auto.
             intros Hw. apply H1. apply in_or_app. auto.
          -- inversion ND; auto.
      + eapply Permutation_NoDup; eauto.
      + intros u v Hu Hv. apply T; eapply Permutation_in; try symmetry; eauto.
  Qed.
End Sign.

(* ---------- lexicographic successor ---------- *)
Section Next.
  Context {A : Type}.
  Variable lt : A -> A -> bool.
  Variable U : list A.
  Hypothesis irr : forall x, lt x x = false.
  Hypothesis tr : forall x y z, lt x y = true -> lt y z = true -> lt x z = true.
  Hypothesis tri : forall x y, In x U -> In y U -> x = y \/ lt x y = true \/ lt y x = true.

  Local Notation asc := (StronglySorted (fun a b => lt b a = false)).
  Local Notation desc := (StronglySorted (fun a b => lt a b = false)).

  Lemma asym x y : lt x y = true -> lt y x = false.
  Proof. apply lt_asym; auto. Qed.

  Lemma lex_irr l : ~ lex lt l l.
  Proof. induction l as [|x l IH]; cbn; auto. rewrite irr. intros [H|[_ H]]; [discriminate|auto]. Qed.

  Lemma lex_trans l : forall m n, lex lt l m -> lex lt m n -> lex lt l n.
  Proof.
    induction l as [|x l IH]; intros [|y m] [|z n]; cbn; auto; try contradiction.
    intros [H|[-> H]] [H'|[-> H']]; auto.
    - left. eapply tr; eauto.
    - right. split; auto. eapply IH; eauto.
  Qed.

  Lemma sub_U s q : Permutation s q -> incl s U -> incl q U.
  Proof. intros P I x Hx. apply I. eapply Permutation_in; [symmetry; exact P|auto]. Qed.

  (** An ascending list is the smallest rearrangement, a descending one the largest. *)
  Lemma asc_min s : forall q, asc s -> incl s U -> Permutation s q -> s = q \/ lex lt s q.
  Proof.
    induction s as [|a s IH]; intros q S I P.
    - apply Permutation_nil in P. auto.
    - destruct q as [|b q]; [symmetry in P; apply Permutation_nil in P; discriminate|].
      inversion S as [|? ? S1 S2]; subst. cbn.
      assert (Ib : In b (a :: s)) by (eapply Permutation_in; [symmetry; exact P|cbn; auto]).
      destruct (tri a b) as [E|[E|E]]; [apply I; cbn; auto|apply I; auto| | |].
      + subst b. apply Permutation_cons_inv in P. destruct (IH q S1) as [->|H]; auto.
        intros x Hx. apply I. cbn. auto.
      + auto.
      + exfalso. cbn in Ib. destruct Ib as [->|Ib]; [rewrite irr in E; discriminate|].
        rewrite Forall_forall in S2. rewrite (S2 _ Ib) in E. discriminate.
  Qed.

  Lemma desc_max s : forall q, desc s -> incl s U -> Permutation s q -> ~ lex lt s q.
  Proof.
    induction s as [|a s IH]; intros q S I P L.
    - apply Permutation_nil in P. subst. exact L.
    - destruct q as [|b q]; [exact L|].
      inversion S as [|? ? S1 S2]; subst. cbn in L.
      assert (Ib : In b (a :: s)) by (eapply Permutation_in; [symmetry; exact P|cbn; auto]).
      destruct L as [E|[<- L]].
      + cbn in Ib. destruct Ib as [->|Ib]; [rewrite irr in E; discriminate|].
        rewrite Forall_forall in S2. rewrite (S2 _ Ib) in E. discriminate.
      + apply Permutation_cons_inv in P. eapply IH; eauto. intros x Hx. apply I. cbn. auto.
  Qed.

  Lemma SS_rev (R : A -> A -> Prop) s : StronglySorted R s -> StronglySorted (fun a b => R b a) (rev s).
  Proof.
    induction s as [|x s IH]; intros S; cbn; [constructor|]. inversion S as [|? ? S1 S2]; subst.
    specialize (IH S1). rewrite Forall_forall in S2.
    assert (K : forall y, In y (rev s) -> R x y) by (intros y Hy; apply S2, in_rev; auto).
    clear - IH K. induction (rev s) as [|y t IHt]; cbn; [repeat constructor|].
    inversion IH as [|? ? T1 T2]; subst. constructor.
    - apply IHt; auto. intros z Hz. apply K. cbn. auto.
    - apply Forall_app. split; auto. constructor; auto. apply K. cbn. auto.
  Qed.

  Lemma swap_pivot_spec x : forall r z rs, swap_pivot lt x r = Some (z, rs) ->
    exists r1 r2, r = r1 ++ z :: r2 /\ rs = r1 ++ x :: r2 /\ lt x z = true /\
      forall u, In u r1 -> lt x u = false.
  Proof.
    induction r as [|y r IH]; intros z rs H; cbn in H; [discriminate|].
    destruct (lt x y) eqn:E.
    - injection H as <- <-. exists [], r. cbn. repeat split; auto. contradiction.
    - destruct (swap_pivot lt x r) as [(z', rs')|] eqn:E2; cbn in H; [|discriminate].
      injection H as <- <-. destruct (IH _ _ eq_refl) as (r1 & r2 & -> & -> & H1 & H2).
      exists (y :: r1), r2. cbn. repeat split; auto. intros u [<-|Hu]; auto.
  Qed.

  Lemma swap_pivot_some x r : (exists y, In y r /\ lt x y = true) -> swap_pivot lt x r <> None.
  Proof.
    induction r as [|y r IH]; intros (z & Hz & E); cbn; [destruct Hz|].
    destruct (lt x y) eqn:E2; [discriminate|].
    destruct Hz as [->|Hz]; [congruence|]. destruct (swap_pivot lt x r); cbn; [discriminate|].
    exfalso. apply IH; eauto.
  Qed.

  (** The successor at the pivot. *)
  Lemma pivot_successor x z r1 r2 pre :
    (* the suffix is rev r2 ++ z :: rev r1, descending *)
    let suffix := rev (r1 ++ z :: r2) in
    incl (pre ++ x :: suffix) U -> desc suffix -> lt x z = true ->
    (forall u, In u r1 -> lt x u = false) ->
    lex_successor lt (pre ++ x :: suffix) (pre ++ z :: r1 ++ x :: r2).
  Proof.
    intros suffix I D Hz H1.
    assert (Psx : Permutation (x :: suffix) (z :: r1 ++ x :: r2)).
    { unfold suffix. rewrite <- Permutation_rev. rewrite (Permutation_app_comm r1 (z :: r2)).
      rewrite (Permutation_app_comm r1 (x :: r2)). cbn. apply perm_swap. }
    assert (P : Permutation (pre ++ x :: suffix) (pre ++ z :: r1 ++ x :: r2)) by (apply Permutation_app_head; auto).
    split; [auto|].
    (* order of the pieces *)
    assert (S : asc (r1 ++ z :: r2)).
    { apply SS_rev in D. unfold suffix in D. rewrite rev_involutive in D. exact D. }
    assert (Spl : asc r1 /\ asc r2 /\ (forall u, In u r1 -> lt z u = false) /\ (forall u, In u r2 -> lt u z = false)
                  /\ (forall u v, In u r1 -> In v r2 -> lt v u = false)).
    { clear - S. induction r1 as [|w r1 IH]; cbn in S; inversion S as [|? ? S1 S2]; subst.
      - rewrite Forall_forall in S2. repeat split; auto; try contradiction. constructor.
      - destruct (IH S1) as (A1 & A2 & A3 & A4 & A5). rewrite Forall_forall in S2.
        repeat split; auto.
        + constructor; auto. rewrite Forall_forall. intros u Hu. apply S2, in_or_app; auto.
        + intros u [<-|Hu]; auto. apply S2, in_or_app. cbn. auto.
        + intros u v [<-|Hu] Hv; auto. apply S2, in_or_app. cbn. auto. }
    destruct Spl as (A1 & A2 & A3 & A4 & A5).
    assert (IU : forall u, In u (x :: z :: r1 ++ r2) -> In u U).
    { intros u Hu. apply I. apply in_or_app. right. unfold suffix. cbn in *. rewrite <- in_rev, in_app_iff in *. cbn. tauto. }
    assert (Hlt : forall u, In u r2 -> lt x u = true).
    { intros u Hu. destruct (tri u z) as [->|[E|E]]; auto.
      - apply IU. cbn. rewrite in_app_iff. auto.
      - apply IU. cbn. auto.
      - rewrite (A4 u Hu) in E. discriminate.
      - eapply tr; eauto. }
    assert (Asc' : asc (r1 ++ x :: r2)).
    { clear - A1 A2 A5 H1 Hlt irr tr. 
      assert (X : asc (x :: r2)).
      { constructor; auto. rewrite Forall_forall. intros u Hu. apply asym; auto. }
      induction r1 as [|w r1 IH]; cbn; auto. inversion A1 as [|? ? B1 B2]; subst.
      constructor.
      - apply IH; auto; intros; first [apply A5; cbn; solve [auto]|apply H1; cbn; solve [auto]|idtac].
      - apply Forall_app. split; auto. constructor; [apply H1; cbn; auto|].
        rewrite Forall_forall. intros u Hu. apply A5; cbn; auto. }
    split.
    - (* larger *)
      clear - Hz. induction pre; cbn; auto.
    - (* nothing between *)
      intros q Pq Lq. clear P. revert q Pq Lq.
      assert (Ip : incl (x :: suffix) U) by (intros u Hu; apply I, in_or_app; auto).
      clear I. induction pre as [|a pre IH]; intros q Pq Lq.
      + cbn [app] in *. destruct q as [|b q]; [destruct Lq|].
        cbn in Lq. destruct Lq as [Hb|[<- Lq]].
        * assert (Ib : In b (x :: suffix)) by (eapply Permutation_in; [symmetry; exact Pq|cbn; auto]).
          assert (Ib' : In b r1 \/ z = b \/ In b r2).
          { cbn in Ib. destruct Ib as [->|Ib]; [rewrite irr in Hb; discriminate|].
            unfold suffix in Ib. rewrite <- in_rev, in_app_iff in Ib. cbn in Ib. tauto. }
          destruct (tri z b) as [E|[E|E]]; [apply IU; cbn; auto|apply Ip; auto| | |].
          -- subst b.
             assert (Pq' : Permutation (r1 ++ x :: r2) q).
             { apply Permutation_cons_inv with z. rewrite <- Pq. symmetry. exact Psx. }
             destruct (asc_min (r1 ++ x :: r2) q Asc') as [->|H]; auto.
             ++ intros u Hu. apply IU. cbn. rewrite in_app_iff in *. cbn in Hu. tauto.
             ++ right. cbn. auto.
          -- right. cbn. auto.
          -- exfalso. destruct Ib' as [Hb1|[->|Hb2]].
             ++ rewrite (H1 _ Hb1) in Hb. discriminate.
             ++ rewrite irr in E. discriminate.
             ++ rewrite (A4 _ Hb2) in E. discriminate.
        * exfalso. apply Permutation_cons_inv in Pq. eapply (desc_max suffix q); eauto.
          intros u Hu. apply Ip. cbn. auto.
      + cbn [app] in *. destruct q as [|b q]; [destruct Lq|]. cbn in Lq. destruct Lq as [Hb|[<- Lq]].
        * right. cbn. auto.
        * apply Permutation_cons_inv in Pq. destruct (IH q Pq Lq) as [->|H]; auto. right. cbn. auto.
  Qed.

  Lemma next_loop_spec before : forall p suffix,
    before <> [] -> suffix <> [] -> desc suffix -> incl (rev before ++ suffix) U ->
    let l := rev before ++ suffix in
    exists b m p', next_perm_loop lt p suffix before = Some (b, m, p') /\
      (exists k, exchanges k l m /\ p' = Z.rem (p + Z.of_nat k) 2) /\
      (if b : bool then lex_successor lt l m
       else desc l /\ asc m).
  Proof.
    induction before as [|x before IH]; intros p suffix Hb Hs D I l; [contradiction|].
    cbn [next_perm_loop]. destruct suffix as [|y s]; [contradiction|]. set (suffix := y :: s) in *.
    destruct (lt x y) eqn:E.
    - destruct (swap_pivot lt x (rev suffix)) as [(z, rsw)|] eqn:E2.
      2:{ exfalso. eapply swap_pivot_some; [|exact E2]. exists y. split; auto. apply in_rev. rewrite rev_involutive. cbn. auto. }
      destruct (swap_pivot_spec _ _ _ _ E2) as (r1 & r2 & Er & -> & Hz & H1).
      assert (Es : suffix = rev (r1 ++ z :: r2)) by (rewrite <- Er, rev_involutive; reflexivity).
      exists true, (rev before ++ z :: r1 ++ x :: r2), (Z.rem (p + 1 + Z.of_nat (length suffix / 2)) 2).
      split; [reflexivity|]. cbn [rev] in *. rewrite <- app_assoc in *. cbn [app] in *.
      unfold l. rewrite <- app_assoc. cbn [app]. split.
      + exists (S (length suffix / 2)). split.
        * rewrite Es. rewrite rev_app_distr. cbn [rev]. rewrite <- app_assoc. cbn [app].
          constructor.
          replace (rev before ++ z :: r1 ++ x :: r2) with ((rev before ++ [z]) ++ (r1 ++ x :: r2) ++ [])
            by (rewrite app_nil_r, <- app_assoc; reflexivity).
          replace (rev before ++ z :: rev r2 ++ x :: rev r1) with ((rev before ++ [z]) ++ (rev r2 ++ x :: rev r1) ++ [])
            by (rewrite app_nil_r, <- app_assoc; reflexivity).
          apply exchanges_ctx.
          pose proof (exchanges_rev _ (rev r2 ++ x :: rev r1) (le_n _)) as R.
          rewrite rev_app_distr in R. cbn [rev] in R. rewrite !rev_involutive, <- app_assoc in R. cbn [app] in R.
          assert (Ln : length (rev r2 ++ x :: rev r1) = length (rev r2 ++ z :: rev r1)) by (rewrite !app_length; reflexivity).
          rewrite Ln in R. exact R.
        * f_equal. lia.
      + subst suffix. rewrite Es. apply pivot_successor; auto.
        * rewrite <- Es. exact I.
        * rewrite <- Es. exact D.
    - assert (D' : desc (x :: suffix)).
      { constructor; auto. inversion D as [|? ? D1 D2]; subst. constructor; auto.
        rewrite Forall_forall in *. intros u Hu. specialize (D2 u Hu).
        destruct (lt x u) eqn:Exu; auto.
        assert (Iu : forall w, In w (x :: y :: s) -> In w U).
        { intros w Hw. apply I. cbn. rewrite <- app_assoc. apply in_or_app. right. auto. }
        destruct (tri x y) as [->|[F|F]]; [apply Iu; cbn; auto|apply Iu; cbn; auto|congruence|congruence|].
        rewrite (tr _ _ _ F Exu) in D2. discriminate. }
      destruct before as [|w before].
      + exists false, (rev (x :: suffix)), (Z.rem (p + Z.of_nat (S (length suffix) / 2)) 2).
        split; [reflexivity|]. unfold l. cbn [rev app]. split.
        * exists (length (x :: suffix) / 2). split; [|reflexivity].
          apply (exchanges_rev _ (x :: suffix) (le_n _)).
        * split; auto. change (rev suffix ++ [x]) with (rev (x :: suffix)). apply (SS_rev _ _ D').
      + destruct (IH p (x :: suffix)) as (b & m & p' & H1 & H2 & H3); try discriminate; auto.
        * cbn [rev] in *. rewrite <- !app_assoc in *. exact I.
        * exists b, m, p'. split; auto. unfold l.
          replace (rev (x :: w :: before) ++ suffix) with (rev (w :: before) ++ x :: suffix)
            by (cbn [rev]; rewrite <- !app_assoc; reflexivity). auto.
  Qed.

  Lemma next_spec p l : incl l U ->
    exists b m p', next_permutation_parity lt p l = Some (b, m, p') /\
      (exists k, exchanges k l m /\ (2 <= length l -> p' = Z.rem (p + Z.of_nat k) 2) /\
                 (length l <= 1 -> k = 0 /\ p' = p)) /\
      (if b : bool then lex_successor lt l m
       else (forall q, Permutation l q -> ~ lex lt l q) /\ in_sorted_order lt m).
  Proof.
    intros I. unfold next_permutation_parity. destruct (rev l) as [|y [|x before]] eqn:E.
    - apply (f_equal (@rev A)) in E. rewrite rev_involutive in E. cbn in E. subst l.
      exists false, [], p. split; auto. split.
      + exists 0. repeat split; auto; try constructor; cbn in *; lia.
      + split; [|constructor]. intros q Hq. apply Permutation_nil in Hq. subst. auto.
    - apply (f_equal (@rev A)) in E. rewrite rev_involutive in E. cbn in E. subst l.
      exists false, [y], p. split; auto. split.
      + exists 0. repeat split; auto; try constructor; cbn in *; lia.
      + split; [|repeat constructor]. intros q Hq. apply Permutation_length_1_inv in Hq. subst.
        apply lex_irr.
    - assert (El : l = rev (x :: before) ++ [y]) by (rewrite <- (rev_involutive l), E; reflexivity).
      destruct (next_loop_spec (x :: before) p [y]) as (b & m & p' & H1 & (k & H2 & H2') & H3); try discriminate; auto.
      { repeat constructor. }
      { rewrite <- El. auto. }
      rewrite <- El in *. exists b, m, p'. split; auto. split.
      + exists k. split; auto. split; auto. intros Hl. exfalso. rewrite El, app_length, rev_length in Hl. cbn in Hl. lia.
      + destruct b; auto. split; [|apply H3]. intros q Hq. apply desc_max; auto. apply H3.
  Qed.

  (* ---------- the loop over all permutations ---------- *)
  Fixpoint inserts (x : A) (l : list A) : list (list A) :=
    match l with
    | [] => [[x]]
    | y :: l' => (x :: l) :: map (cons y) (inserts x l')
    end.
  Fixpoint all_perms (l : list A) : list (list A) :=
    match l with [] => [[]] | x :: l' => flat_map (inserts x) (all_perms l') end.

  Lemma inserts_In x l : forall q, In q (inserts x l) <-> exists a b, l = a ++ b /\ q = a ++ x :: b.
  Proof.
    induction l as [|y l IH]; intros q; cbn [inserts In].
    - split.
      + intros [<-|[]]. exists [], []. auto.
      + intros (a & b & E & ->). symmetry in E. apply app_eq_nil in E. destruct E; subst. auto.
    - rewrite in_map_iff. split.
      + intros [<-|(r & <- & Hr)]; [exists [], (y :: l); auto|].
        apply IH in Hr. destruct Hr as (a & b & -> & ->). exists (y :: a), b. auto.
      + intros ([|w a] & b & E & ->); cbn in *.
        * subst b. auto.
        * injection E as -> ->. right. exists (a ++ x :: b). split; auto. apply IH. eauto.
  Qed.

  Lemma all_perms_In l : forall q, In q (all_perms l) <-> Permutation l q.
  Proof.
    induction l as [|x l IH]; intros q; cbn [all_perms].
    - cbn. split; [intros [<-|[]]; auto|]. intros P. apply Permutation_nil in P. auto.
    - rewrite in_flat_map. split.
      + intros (r & Hr & Hq). apply IH in Hr. apply inserts_In in Hq. destruct Hq as (a & b & -> & ->).
        rewrite Hr. apply Permutation_middle.
      + intros P. assert (In x q) by (eapply Permutation_in; [exact P|cbn; auto]).
        apply in_split in H. destruct H as (a & b & ->). exists (a ++ b). split.
        * apply IH. apply Permutation_cons_app_inv in P. auto.
        * apply inserts_In. eauto.
  Qed.

  Lemma inserts_len x l : length (inserts x l) = S (length l).
  Proof. induction l; cbn; auto. rewrite map_length. auto. Qed.

  Lemma all_perms_len l : length (all_perms l) = fact (length l).
  Proof.
    assert (E : forall n (L : list (list A)) x, (forall q, In q L -> length q = n) ->
      length (flat_map (inserts x) L) = S n * length L).
    { intros n L x. induction L as [|q L IHL]; intros H; cbn [flat_map length]; [lia|].
      rewrite app_length, inserts_len, IHL by (intros; apply H; cbn; auto).
      rewrite (H q) by (cbn; auto). lia. }
    induction l as [|x l IH]; auto. cbn [all_perms]. rewrite (E (length l)).
    - rewrite IH. cbn [length fact]. lia.
    - intros q Hq. apply all_perms_In in Hq. apply Permutation_length in Hq. auto.
  Qed.

  Lemma nodup_app_ (L M : list (list A)) : NoDup L -> NoDup M -> (forall q, In q L -> ~ In q M) -> NoDup (L ++ M).
  Proof.
    induction L as [|q L IHL]; cbn; auto. intros HL HM D. inversion HL; subst. constructor.
    - rewrite in_app_iff. intros [?|?]; [auto|]. eapply D; eauto.
    - apply IHL; auto.
  Qed.

  Lemma inserts_NoDup x l : ~ In x l -> NoDup (inserts x l).
  Proof.
    induction l as [|y l IH]; intros N; cbn; [repeat constructor; auto|].
    constructor.
    - intros H. apply in_map_iff in H. destruct H as (r & E & _). injection E as E _. subst. apply N. cbn. auto.
    - apply FinFun.Injective_map_NoDup; [intros a b E; injection E; auto|]. apply IH. intros H. apply N. cbn. auto.
  Qed.

  Lemma split_unique (x : A) a : forall b c d, ~ In x a -> ~ In x c -> a ++ x :: b = c ++ x :: d -> a = c /\ b = d.
  Proof.
    induction a as [|y a IH]; intros b [|z c] d Na Nc E; cbn in E.
    - injection E as ->. auto.
    - injection E as -> _. exfalso. apply Nc. cbn. auto.
    - injection E as -> _. exfalso. apply Na. cbn. auto.
    - injection E as -> E. destruct (IH b c d) as (-> & ->); auto.
      + intros H. apply Na. cbn. auto.
      + intros H. apply Nc. cbn. auto.
  Qed.

  Lemma all_perms_NoDup l : NoDup l -> NoDup (all_perms l).
  Proof.
    induction l as [|x l IH]; intros N; cbn [all_perms]; [repeat constructor; auto|].
    inversion N as [|? ? Nx Nl]; subst. specialize (IH Nl).
    assert (HL : forall q, In q (all_perms l) -> ~ In x q).
    { intros q Hq Hx. apply all_perms_In in Hq. apply Nx. eapply Permutation_in; [symmetry; exact Hq|auto]. }
    induction (all_perms l) as [|q L IHL]; cbn; [constructor|].
    inversion IH as [|? ? Nq NL]; subst. apply nodup_app_.
    - apply inserts_NoDup. apply HL. cbn. auto.
    - apply IHL; auto. intros. apply HL. cbn. auto.
    - intros r Hr Hr'. apply in_flat_map in Hr'. destruct Hr' as (q' & Hq' & Hr').
      apply inserts_In in Hr, Hr'. destruct Hr as (a & b & -> & ->). destruct Hr' as (c & d & -> & E).
      assert (Na : ~ In x a) by (intros H; apply (HL (a ++ b)); cbn; auto; apply in_or_app; auto).
      assert (Nc : ~ In x c) by (intros H; apply (HL (c ++ d)); cbn; auto; apply in_or_app; auto).
      destruct (split_unique x a b c d Na Nc E) as (-> & ->). auto.
  Qed.

  Fixpoint lexb (l m : list A) : bool :=
    match l, m with
    | _, [] => false
    | [], _ :: _ => true
    | x :: l', y :: m' => lt x y || (negb (lt y x) && lexb l' m')
    end.
  Lemma lexb_lex l : forall m, incl l U -> incl m U -> lexb l m = true <-> lex lt l m.
  Proof.
    induction l as [|x l IH]; intros [|y m] Il Im; cbn; try tauto; try (split; [discriminate|contradiction]).
    rewrite orb_true_iff, andb_true_iff, negb_true_iff, IH.
    2:{ intros u Hu. apply Il. cbn. auto. } 2:{ intros u Hu. apply Im. cbn. auto. }
    destruct (tri x y) as [->|[E|E]]; [apply Il; cbn; auto|apply Im; cbn; auto| | |].
    - rewrite irr. tauto.
    - rewrite E. tauto.
    - rewrite E, (asym _ _ E). split; [intros [H|(H & _)]; discriminate|]. intros [H|(-> & _)]; [discriminate|].
      rewrite irr in E. discriminate.
  Qed.

  Definition after (cur : list A) : nat := length (filter (lexb cur) (all_perms U)).

  Lemma filter_lt {B} (f g : B -> bool) (L : list B) w :
    (forall x, In x L -> f x = true -> g x = true) -> In w L -> f w = false -> g w = true ->
    length (filter f L) < length (filter g L).
  Proof.
    intros H Hw F G. induction L as [|x L IH]; [destruct Hw|]. cbn.
    assert (Le : length (filter f L) <= length (filter g L)).
    { clear - H. induction L as [|y L IHL]; cbn; auto.
      assert (In y (x :: y :: L)) by (cbn; auto). specialize (H y H0) as Hy.
      destruct (f y) eqn:Ef, (g y) eqn:Eg; cbn; try lia.
      - apply le_n_S, IHL. intros z [->|Hz]; apply H; cbn; auto.
      - apply le_S, IHL. intros z [->|Hz]; apply H; cbn; auto.
      - apply IHL. intros z [->|Hz]; apply H; cbn; auto. }
    destruct Hw as [->|Hw].
    - rewrite F, G. cbn. lia.
    - assert (length (filter f L) < length (filter g L)).
      { apply IH; auto. intros z Hz. apply H. cbn. auto. }
      destruct (f x) eqn:Ef; [rewrite (H x) by (cbn; auto); cbn; lia|]. destruct (g x); cbn; lia.
  Qed.

  Lemma antisym_spec fuel : forall p cur, Permutation U cur -> after cur < fuel -> 2 <= length cur ->
    (p = 0 \/ p = 1)%Z ->
    exists calls final, antisym_loop lt fuel p cur = Some (calls, final) /\
      StronglySorted (lex lt) (map fst calls) /\
      (forall q, In q (map fst calls) <-> Permutation cur q /\ (q = cur \/ lex lt cur q)) /\
      (forall q pq, In (q, pq) calls -> exists k, exchanges k cur q /\ pq = Z.rem (p + Z.of_nat k) 2) /\
      Permutation cur final /\ in_sorted_order lt final.
  Proof.
    induction fuel as [|f IH]; intros p cur PU Hf Hl Hp; [lia|]. cbn [antisym_loop].
    assert (Icur : incl cur U) by (intros u Hu; eapply Permutation_in; [symmetry; exact PU|auto]).
    destruct (next_spec p cur Icur) as (b & m & p' & -> & (k & Ek & Ep & _) & Hb).
    specialize (Ep Hl). destruct b.
    - destruct Hb as (Pm & Lm & Sm).
      assert (Imm : incl m U) by (eapply sub_U; eauto).
      destruct (IH p' m) as (calls & final & -> & S & C & X & Pf & Sf).
      + etransitivity; eauto.
      + assert (after m < after cur); [|lia]. apply filter_lt with m.
        * intros q Hq Hm. apply all_perms_In in Hq.
          assert (incl q U) by (eapply sub_U; [exact Hq|apply incl_refl]).
          apply lexb_lex; auto. apply lexb_lex in Hm; auto. eapply lex_trans; eauto.
        * apply all_perms_In. etransitivity; eauto.
        * destruct (lexb m m) eqn:E; auto. apply lexb_lex in E; auto. exfalso. eapply lex_irr; eauto.
        * apply lexb_lex; auto.
      + apply Permutation_length in Pm. lia.
      + subst p'. destruct Hp as [-> | ->]; rewrite Z.rem_mod_nonneg by lia;
          match goal with |- context [(?a mod 2)%Z] => pose proof (Z.mod_pos_bound a 2); lia end.
      + exists ((cur, p) :: calls), final. cbn [option_map map fst snd].
        assert (Lall : forall q, In q (map fst calls) -> lex lt cur q).
        { intros q Hq. apply C in Hq. destruct Hq as (_ & [->|H]); auto. eapply lex_trans; eauto. }
        split; [reflexivity|]. split; [|split; [|split; [|split]]].
        * constructor; auto. rewrite Forall_forall. auto.
        * intros q. cbn [In]. rewrite C. split.
          -- intros [<-|(P & H)]; [auto|]. split; [etransitivity; eauto|].
             right. destruct H as [->|H]; auto. eapply lex_trans; eauto.
          -- intros (P & [->|H]); auto. right. split; [rewrite <- Pm; auto|].
             destruct (Sm q P H) as [->|H']; auto.
        * intros q pq [E|Hq].
          -- injection E as <- <-. exists 0. split; [constructor|].
             destruct Hp as [-> | ->]; reflexivity.
          -- destruct (X q pq Hq) as (j & Ej & Ep'). exists (k + j). split; [eapply exchanges_trans; eauto|].
             rewrite Ep', Ep. rewrite !Z.rem_mod_nonneg; try lia.
             ++ rewrite Zplus_mod_idemp_l. f_equal. lia.
             ++ rewrite Z.rem_mod_nonneg by lia. pose proof (Z.mod_pos_bound (p + Z.of_nat k) 2). lia.
        * etransitivity; eauto.
        * auto.
    - destruct Hb as (Mx & Sm). exists [(cur, p)], m. cbn [map fst].
      split; [reflexivity|]. split; [|split; [|split; [|split]]].
      + repeat constructor.
      + intros q. cbn. split.
        * intros [<-|[]]. auto.
        * intros (P & [->|H]); auto. exfalso. eapply Mx; eauto.
      + intros q pq [E|[]]. injection E as <- <-. exists 0. split; [constructor|]. destruct Hp as [-> | ->]; reflexivity.
      + eapply exchanges_perm; eauto.
      + auto.
  Qed.

  Lemma sorted_unique l m : incl l U -> in_sorted_order lt l -> in_sorted_order lt m -> Permutation l m -> l = m.
  Proof.
    intros I S1 S2 P. destruct (asc_min l m S1 I P) as [|H1]; auto.
    destruct (asc_min m l S2 (sub_U _ _ P I) (Permutation_sym P)) as [|H2]; auto.
    exfalso. eapply lex_irr, lex_trans; eauto.
  Qed.

  Lemma after_lt cur : Permutation U cur -> after cur < fact (length U).
  Proof.
    intros P. unfold after. rewrite <- all_perms_len.
    assert (Ic : incl cur U) by (eapply sub_U; [exact P|apply incl_refl]).
    assert (E : all_perms U = filter (fun _ => true) (all_perms U)).
    { induction (all_perms U); cbn; congruence. }
    rewrite E at 2. apply filter_lt with cur; auto.
    - apply all_perms_In. auto.
    - destruct (lexb cur cur) eqn:E2; auto. apply lexb_lex in E2; auto. exfalso. eapply lex_irr; eauto.
  Qed.
End Next.

Lemma SS_NoDup {B} (R : B -> B -> Prop) l : (forall x, ~ R x x) -> StronglySorted R l -> NoDup l.
Proof.
  intros Irr S. induction S as [|x l S IH F]; constructor; auto.
  intros H. rewrite Forall_forall in F. apply (Irr x). auto.
Qed.

(** The statement for the whole loop on a sorted, duplicate-free range. *)
Lemma antisym_all {A} (lt : A -> A -> bool) (l : list A) : total_on lt l -> in_sorted_order lt l -> NoDup l ->
  forall fuel, fact (length l) <= fuel ->
  exists calls, antisymmetric_permutation lt fuel l = Some (calls, l) /\
    length calls = fact (length l) /\ NoDup (map fst calls) /\
    (forall q, In q (map fst calls) <-> Permutation l q) /\
    (forall q p, In (q, p) calls -> p = if Nat.even (inversions lt q) then 0%Z else 1%Z).
Proof.
  intros (irr & tr & tri) S ND fuel Hf. unfold antisymmetric_permutation.
  assert (I0 : inversions lt l = 0).
  { clear - S. induction l as [|a m IHm]; auto. cbn. inversion S as [|? ? S1 S2]; subst.
    rewrite (IHm S1). clear - S2. induction S2 as [|b m Hb S2 IHS]; auto. cbn. rewrite Hb. auto. }
  destruct (Nat.leb_spec (length l) 1) as [L|L].
  - exists [(l, 0%Z)]. cbn [map fst length].
    assert (F1 : fact (length l) = 1) by (destruct (length l) as [|[|]]; [reflexivity..|lia]).
    split; [reflexivity|]. split; [auto|]. split; [repeat constructor; auto|]. split.
    + intros q. cbn. split; [intros [<-|[]]; auto|]. intros P. left.
      destruct l as [|x [|]]; [apply Permutation_nil in P; auto| |cbn in L; lia].
      apply Permutation_length_1_inv in P. auto.
    + intros q p [E|[]]. injection E as <- <-. rewrite I0. reflexivity.
  - destruct (antisym_spec lt l irr tr tri fuel 0%Z l) as (calls & final & E & SS & C & X & Pf & Sf); auto.
    { pose proof (after_lt lt l irr tr tri l (Permutation_refl _)). lia. }
    exists calls. rewrite E.
    assert (final = l) by (symmetry; eapply (sorted_unique lt l); eauto; apply incl_refl). subst final.
    assert (NDc : NoDup (map fst calls)) by (apply (SS_NoDup (lex lt)); auto; apply lex_irr; auto).
    assert (C' : forall q, In q (map fst calls) <-> Permutation l q).
    { intros q. rewrite C. split; [tauto|]. intros P. split; auto.
      destruct (asc_min lt l irr tri l q S (incl_refl _) P); auto. }
    split; [reflexivity|]. split; [|split; [auto|split; [auto|]]].
    + rewrite <- (map_length fst calls), <- all_perms_len. apply Nat.le_antisymm; apply NoDup_incl_length; auto.
      * intros q Hq. apply all_perms_In. apply C'. auto.
      * apply all_perms_NoDup. auto.
      * intros q Hq. apply C'. apply all_perms_In. auto.
    + intros q p Hq. destruct (X q p Hq) as (k & Ek & ->).
      pose proof (exchanges_sign lt irr tr k l q Ek ND tri) as Sg. rewrite I0 in Sg. cbn [Nat.odd Nat.even negb xorb] in Sg.
      assert (Sg' : Nat.odd (inversions lt q) = Nat.odd k) by (rewrite Sg; destruct (Nat.odd k); reflexivity).
      rewrite <- Nat.negb_odd, Sg'. cbn [Z.add]. rewrite Z.rem_mod_nonneg by lia.
      destruct (Nat.odd k) eqn:Eo; cbn [negb].
      * apply Nat.odd_spec in Eo. destruct Eo as (j & ->). replace (Z.of_nat (2 * j + 1)) with (1 + Z.of_nat j * 2)%Z by lia.
        rewrite Z.mod_add by lia. reflexivity.
      * assert (Ev : Nat.even k = true) by (rewrite <- Nat.negb_odd, Eo; reflexivity).
        apply Nat.even_spec in Ev. destruct Ev as (j & ->). replace (Z.of_nat (2 * j)) with (Z.of_nat j * 2)%Z by lia.
        apply Z.mod_mul. lia.
Qed.
