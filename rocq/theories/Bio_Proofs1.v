From Coq Require Import List Arith Bool PeanoNat Lia QArith Qcanon Permutation.
From Verif Require Import Bio_Model Bio_Spec.
Import ListNotations.
Local Open Scope nat_scope.

Lemma is_perm_iff : forall n p,
  is_perm n p <-> (length p = n /\ NoDup p /\ forall x, In x p -> x < n).
Proof.
  intros n p; unfold is_perm; split.
  - intros H. split; [|split].
    + rewrite (Permutation_length H), seq_length; reflexivity.
    + apply (Permutation_NoDup (Permutation_sym H)), seq_NoDup.
    + intros x I1. apply (Permutation_in _ H) in I1. apply in_seq in I1. lia.
  - intros (L & N & B). apply NoDup_Permutation_bis; [exact N| |].
    + rewrite seq_length; lia.
    + intros x I1. apply in_seq. specialize (B x I1). lia.
Qed.

Lemma is_perm_surj : forall n p, is_perm n p -> forall x, x < n -> In x p.
Proof.
  intros n p H x L. apply (Permutation_in _ (Permutation_sym H)). apply in_seq; lia.
Qed.

Lemma img_lt : forall n p i, is_perm n p -> i < n -> img p i < n.
Proof.
  intros n p i H L. apply is_perm_iff in H. destruct H as (A & _ & B).
  apply B. unfold img. apply nth_In. lia.
Qed.

Lemma img_inj : forall n p i j, is_perm n p -> i < n -> j < n ->
  img p i = img p j -> i = j.
Proof.
  intros n p i j H L1 L2 E. apply is_perm_iff in H. destruct H as (A & B & _).
  apply (proj1 (NoDup_nth p 0) B); [lia|lia|exact E].
Qed.

Lemma perm_ext : forall p q : perm, length p = length q ->
  (forall i, i < length p -> img p i = img q i) -> p = q.
Proof. intros p q L H. apply (nth_ext p q 0 0 L). exact H. Qed.

(* swap *)
Lemma swapl_length : forall l i j, length (swapl l i j) = length l.
Proof. intros. unfold swapl. rewrite map_length, seq_length; reflexivity. Qed.

Lemma nth_map_seq : forall (A : Type) (f : nat -> A) n i d, i < n ->
  nth i (map f (seq 0 n)) d = f i.
Proof.
  intros A f n i d L. rewrite (nth_indep _ d (f 0)) by (rewrite map_length, seq_length; exact L).
  rewrite map_nth, seq_nth by exact L. reflexivity.
Qed.

Definition sw (i j k : nat) : nat := if k =? i then j else if k =? j then i else k.

Lemma swapl_img : forall l i j k, k < length l -> img (swapl l i j) k = img l (sw i j k).
Proof.
  intros. unfold img, swapl. rewrite nth_map_seq by assumption. reflexivity.
Qed.

Lemma sw_lt : forall i j k n, i < n -> j < n -> k < n -> sw i j k < n.
Proof.
  intros. unfold sw. destruct (k =? i); [assumption|]. destruct (k =? j); assumption.
Qed.

Lemma sw_sw : forall i j k, sw i j (sw i j k) = k.
Proof.
  intros i j k. unfold sw.
  destruct (k =? i) eqn:E1; destruct (k =? j) eqn:E2;
    repeat match goal with
    | |- context [?a =? ?b] => destruct (a =? b) eqn:?
    end;
    repeat match goal with
    | H : (_ =? _) = true |- _ => apply Nat.eqb_eq in H
    | H : (_ =? _) = false |- _ => apply Nat.eqb_neq in H
    end; lia.
Qed.

Lemma NoDup_img : forall l, (forall i j, i < length l -> j < length l -> img l i = img l j -> i = j) -> NoDup l.
Proof. intros l H. apply (proj2 (NoDup_nth l 0)). exact H. Qed.

Lemma swapl_is_perm : forall n p i j, is_perm n p -> i < n -> j < n -> is_perm n (swapl p i j).
Proof.
  intros n p i j H Li Lj. pose proof H as H0. apply is_perm_iff in H. destruct H as (A & B & C).
  apply is_perm_iff. rewrite swapl_length. split; [exact A|]. split.
  - apply NoDup_img. rewrite swapl_length, A. intros a b La Lb E.
    rewrite !swapl_img in E by lia.
    apply (img_inj n p) in E; [|exact H0| |]; try (apply sw_lt; assumption).
    rewrite <- (sw_sw i j a), <- (sw_sw i j b), E. reflexivity.
  - intros x I1. apply In_nth with (d := 0) in I1. destruct I1 as (k & Lk & E).
    rewrite swapl_length in Lk. change (img (swapl p i j) k = x) in E.
    rewrite swapl_img in E by exact Lk. subst x. apply (img_lt n p); [exact H0|].
    apply sw_lt; lia.
Qed.

Lemma unrank1_is_perm : forall k n r p, k <= n -> is_perm n p -> is_perm n (unrank1 k r p).
Proof.
  induction k as [|k IH]; intros n r p L H; [exact H|].
  cbn [unrank1]. apply IH; [lia|]. apply swapl_is_perm; [exact H|lia|].
  pose proof (Nat.mod_upper_bound r (S k)). lia.
Qed.

Lemma id_is_perm : forall n, is_perm n (seq 0 n).
Proof. intros. apply Permutation_refl. Qed.

Lemma unrank_is_perm : forall n r, is_perm n (unrank r n).
Proof. intros. apply unrank1_is_perm; [lia|apply id_is_perm]. Qed.

(* positions at or above k are untouched *)
Lemma unrank1_high : forall k n r p i, length p = n -> k <= n -> k <= i -> i < n ->
  img (unrank1 k r p) i = img p i.
Proof.
  induction k as [|k IH]; intros n r p i A L1 L2 L3; [reflexivity|].
  cbn [unrank1]. rewrite (IH n); [|rewrite swapl_length; exact A|lia|lia|exact L3].
  rewrite swapl_img by lia. unfold sw.
  pose proof (Nat.mod_upper_bound r (S k) ltac:(lia)).
  destruct (i =? k) eqn:E; [apply Nat.eqb_eq in E; lia|].
  destruct (i =? r mod S k) eqn:E2; [apply Nat.eqb_eq in E2; lia|]. reflexivity.
Qed.

Lemma unrank1_inj : forall k n p r r', is_perm n p -> k <= n -> r < fact k -> r' < fact k ->
  unrank1 k r p = unrank1 k r' p -> r = r'.
Proof.
  induction k as [|k IH]; intros n p r r' H L R R' E.
  - cbn in R, R'. lia.
  - assert (K : r mod S k = r' mod S k).
    { assert (A : length p = n) by (apply is_perm_iff in H; tauto).
      assert (T : forall q, img (unrank1 (S k) q p) k = img p (q mod S k)).
      { intros q. cbn [unrank1]. rewrite (unrank1_high k n); [|rewrite swapl_length; exact A|lia|lia|lia].
        rewrite swapl_img by lia. unfold sw. rewrite Nat.eqb_refl. reflexivity. }
      pose proof (T r) as T1. rewrite E, T in T1.
      symmetry. apply (img_inj n p); [exact H| | |exact T1].
      - pose proof (Nat.mod_upper_bound r' (S k)); lia.
      - pose proof (Nat.mod_upper_bound r (S k)); lia. }
    cbn [unrank1] in E. rewrite <- K in E.
    apply IH with (n := n) in E; [|apply swapl_is_perm; [exact H|lia|pose proof (Nat.mod_upper_bound r (S k)); lia]|lia| |].
    + rewrite (Nat.div_mod r (S k)), (Nat.div_mod r' (S k)), E, K by lia. reflexivity.
    + apply Nat.div_lt_upper_bound; [lia|]. exact R.
    + apply Nat.div_lt_upper_bound; [lia|]. exact R'.
Qed.

Lemma unrank1_surj : forall k n p s, is_perm n p -> is_perm n s -> k <= n ->
  (forall i, k <= i -> i < n -> img s i = img p i) ->
  exists r, r < fact k /\ unrank1 k r p = s.
Proof.
  induction k as [|k IH]; intros n p s H Hs L A.
  - exists 0. split; [cbn; lia|]. cbn. apply perm_ext.
    + apply is_perm_iff in H. apply is_perm_iff in Hs. lia.
    + intros i Li. symmetry. apply A; [lia|]. apply is_perm_iff in H. lia.
  - assert (Lp : length p = n) by (apply is_perm_iff in H; tauto).
    assert (J : exists j, j < S k /\ img p j = img s k).
    { pose proof (is_perm_surj n p H (img s k) (img_lt n s k Hs ltac:(lia))) as I1.
      apply In_nth with (d := 0) in I1. destruct I1 as (j & Lj & E).
      exists j. split; [|exact E].
      destruct (le_lt_dec (S k) j) as [G|G]; [|exact G]. exfalso.
      change (img p j = img s k) in E. rewrite <- (A j G) in E by lia.
      apply (img_inj n s) in E; [lia|exact Hs|lia|lia]. }
    destruct J as (j & Lj & E).
    destruct (IH n (swapl p k j) s) as (r & Lr & Er).
    + apply swapl_is_perm; [exact H|lia|lia].
    + exact Hs.
    + lia.
    + intros i L1 L2. rewrite swapl_img by lia. unfold sw.
      destruct (i =? k) eqn:E1.
      * apply Nat.eqb_eq in E1. subst i. symmetry. exact E.
      * apply Nat.eqb_neq in E1. destruct (i =? j) eqn:E2; [apply Nat.eqb_eq in E2; lia|].
        apply A; lia.
    + exists (r * S k + j). split.
      * cbn [fact]. nia.
      * cbn [unrank1].
        replace ((r * S k + j) mod S k) with j.
        2:{ rewrite Nat.add_comm, Nat.mod_add by lia. symmetry. apply Nat.mod_small; lia. }
        replace ((r * S k + j) / S k) with r.
        2:{ rewrite Nat.div_add_l by lia. rewrite Nat.div_small by lia. lia. }
        exact Er.
Qed.

Lemma unrank_surj : forall n s, is_perm n s -> exists r, r < fact n /\ unrank r n = s.
Proof.
  intros n s H. apply (unrank1_surj n n); [apply id_is_perm|exact H|lia|lia].
Qed.

Lemma unrank_inj : forall n r r', r < fact n -> r' < fact n -> unrank r n = unrank r' n -> r = r'.
Proof. intros n r r' A B E. apply (unrank1_inj n n (seq 0 n)); auto. apply id_is_perm. Qed.

(* search *)
Lemma list_eqb_eq : forall a b, list_eqb a b = true <-> a = b.
Proof.
  induction a as [|x a IH]; destruct b as [|y b]; cbn; try (split; [discriminate|discriminate]).
  - split; reflexivity.
  - rewrite andb_true_iff, Nat.eqb_eq, IH. split; [intros [-> ->]; reflexivity|].
    intros E. injection E as -> ->. split; reflexivity.
Qed.

Lemma find_pos_spec : forall (A : Type) (f : A -> bool) l d k, k < length l ->
  f (nth k l d) = true -> (forall i, i < k -> f (nth i l d) = false) ->
  find_pos f l = k.
Proof.
  induction l as [|x l IH]; intros d k L H F; [cbn in L; lia|].
  cbn [find_pos]. destruct k as [|k].
  - cbn in H. rewrite H. reflexivity.
  - pose proof (F 0 ltac:(lia)) as F0. cbn in F0. rewrite F0.
    f_equal. apply (IH d); [cbn in L; lia|exact H|].
    intros i Li. apply (F (S i)). lia.
Qed.

Lemma rank_unrank : forall n r, r < fact n -> rank (unrank r n) n = r.
Proof.
  intros n r L. unfold rank. apply (find_pos_spec _ _ _ 0).
  - rewrite seq_length. exact L.
  - rewrite seq_nth by exact L. apply list_eqb_eq. reflexivity.
  - intros i Li. rewrite seq_nth by lia. cbn [plus].
    destruct (list_eqb (unrank i n) (unrank r n)) eqn:E; [|reflexivity].
    apply list_eqb_eq in E. apply unrank_inj in E; lia.
Qed.

Lemma unrank_rank : forall n s, is_perm n s -> rank s n < fact n /\ unrank (rank s n) n = s.
Proof.
  intros n s H. destruct (unrank_surj n s H) as (r & L & <-).
  rewrite rank_unrank by exact L. auto.
Qed.

(* the last permutation is the identity *)
Lemma unrank1_last : forall k n p, is_perm n p -> k <= n -> unrank1 k (fact k - 1) p = p.
Proof.
  induction k as [|k IH]; intros n p H L; [reflexivity|].
  cbn [unrank1].
  assert (P : 1 <= fact k) by (pose proof (lt_O_fact k); lia).
  assert (M : fact (S k) - 1 = k + (fact k - 1) * S k) by (cbn [fact]; nia).
  replace ((fact (S k) - 1) mod S k) with k.
  2:{ rewrite M, Nat.mod_add by lia. symmetry; apply Nat.mod_small; lia. }
  replace ((fact (S k) - 1) / S k) with (fact k - 1).
  2:{ rewrite M, Nat.div_add by lia. rewrite Nat.div_small by lia. reflexivity. }
  assert (Lp : length p = n) by (apply is_perm_iff in H; tauto).
  assert (Q : swapl p k k = p).
  { apply perm_ext; rewrite swapl_length; [reflexivity|]. intros i Li. rewrite swapl_img by exact Li.
    unfold sw. destruct (i =? k) eqn:E; [apply Nat.eqb_eq in E; subst; reflexivity|reflexivity]. }
  rewrite Q. apply (IH n); [exact H|lia].
Qed.

Lemma unrank_last : forall n, unrank (fact n - 1) n = seq 0 n.
Proof. intros n. apply (unrank1_last n n); [apply id_is_perm|lia]. Qed.

(* ---- composition and inverse ---- *)

Lemma comp_length : forall p q, length (comp p q) = length q.
Proof. intros. apply map_length. Qed.

Lemma comp_img : forall p q i, i < length q -> img (comp p q) i = img p (img q i).
Proof.
  intros p q i L. unfold comp, img at 1.
  rewrite (nth_indep _ 0 (img p 0)) by (rewrite map_length; exact L).
  rewrite map_nth. reflexivity.
Qed.

Lemma is_perm_length : forall n p, is_perm n p -> length p = n.
Proof. intros n p H. apply is_perm_iff in H. tauto. Qed.

Lemma is_perm_intro : forall n p, length p = n ->
  (forall i, i < n -> img p i < n) ->
  (forall i j, i < n -> j < n -> img p i = img p j -> i = j) -> is_perm n p.
Proof.
  intros n p L B J. apply is_perm_iff. split; [exact L|]. split.
  - apply NoDup_img. rewrite L. exact J.
  - intros x I1. apply In_nth with (d := 0) in I1. destruct I1 as (k & Lk & <-).
    apply B. lia.
Qed.

Lemma comp_is_perm : forall n p q, is_perm n p -> is_perm n q -> is_perm n (comp p q).
Proof.
  intros n p q Hp Hq. pose proof (is_perm_length _ _ Hq) as Lq.
  apply is_perm_intro.
  - rewrite comp_length. exact Lq.
  - intros i L. rewrite comp_img by lia. apply (img_lt n); [exact Hp|]. apply (img_lt n); assumption.
  - intros i j Li Lj E. rewrite !comp_img in E by lia.
    apply (img_inj n p) in E; [|exact Hp|apply (img_lt n); assumption|apply (img_lt n); assumption].
    apply (img_inj n q) in E; assumption.
Qed.

Lemma invp_length : forall p, length (invp p) = length p.
Proof. intros. unfold invp. rewrite map_length, seq_length; reflexivity. Qed.

Lemma find_pos_img : forall n p i, is_perm n p -> i < n -> find_pos (fun x => x =? img p i) p = i.
Proof.
  intros n p i H L. pose proof (is_perm_length _ _ H) as Lp.
  apply (find_pos_spec _ _ _ 0); [lia|apply Nat.eqb_refl|].
  intros j Lj. apply Nat.eqb_neq. intros E. apply (img_inj n p j i) in E; [lia|exact H|lia|lia].
Qed.

Lemma invp_img : forall n p i, is_perm n p -> i < n -> img (invp p) (img p i) = i.
Proof.
  intros n p i H L. pose proof (is_perm_length _ _ H) as Lp.
  unfold img at 1, invp. rewrite nth_map_seq by (rewrite Lp; apply (img_lt n); assumption).
  apply (find_pos_img n); assumption.
Qed.

Lemma img_onto : forall n p v, is_perm n p -> v < n -> exists i, i < n /\ img p i = v.
Proof.
  intros n p v H L. pose proof (is_perm_surj n p H v L) as I1.
  apply In_nth with (d := 0) in I1. destruct I1 as (i & Li & E).
  exists i. split; [rewrite (is_perm_length _ _ H) in Li; exact Li|exact E].
Qed.

Lemma invp_is_perm : forall n p, is_perm n p -> is_perm n (invp p).
Proof.
  intros n p H. apply is_perm_intro.
  - rewrite invp_length. apply (is_perm_length _ _ H).
  - intros v L. destruct (img_onto n p v H L) as (i & Li & <-). rewrite (invp_img n) by assumption. exact Li.
  - intros v w Lv Lw E. destruct (img_onto n p v H Lv) as (i & Li & <-).
    destruct (img_onto n p w H Lw) as (j & Lj & <-).
    rewrite !(invp_img n) in E by assumption. congruence.
Qed.

Lemma img_id : forall n i, i < n -> img (seq 0 n) i = i.
Proof. intros n i L. unfold img. rewrite seq_nth by exact L. reflexivity. Qed.

Lemma comp_id_l : forall n p, is_perm n p -> comp (seq 0 n) p = p.
Proof.
  intros n p H. apply perm_ext; [apply comp_length|]. rewrite comp_length. intros i L.
  rewrite comp_img by exact L. apply img_id. apply (img_lt n); [exact H|].
  rewrite <- (is_perm_length _ _ H). exact L.
Qed.

Lemma comp_id_r : forall n p, is_perm n p -> comp p (seq 0 n) = p.
Proof.
  intros n p H. apply perm_ext; rewrite comp_length, seq_length.
  - symmetry; apply (is_perm_length _ _ H).
  - intros i L. rewrite comp_img by (rewrite seq_length; exact L). rewrite img_id by exact L. reflexivity.
Qed.

Lemma comp_assoc : forall n p q s, is_perm n q -> is_perm n s ->
  comp p (comp q s) = comp (comp p q) s.
Proof.
  intros n p q s Hq Hs. apply perm_ext; rewrite !comp_length; [reflexivity|].
  intros i L. rewrite !comp_img; try (rewrite ?comp_length; exact L).
  - reflexivity.
  - rewrite (is_perm_length _ _ Hq). apply (img_lt n); [exact Hs|].
    rewrite <- (is_perm_length _ _ Hs). exact L.
Qed.

Lemma comp_inv_l : forall n p, is_perm n p -> comp (invp p) p = seq 0 n.
Proof.
  intros n p H. pose proof (is_perm_length _ _ H) as Lp.
  apply perm_ext; rewrite comp_length, ?seq_length; [exact Lp|].
  intros i L. rewrite comp_img by exact L. rewrite (invp_img n) by (assumption || lia).
  rewrite img_id by lia. reflexivity.
Qed.

Lemma comp_inv_r : forall n p, is_perm n p -> comp p (invp p) = seq 0 n.
Proof.
  intros n p H. pose proof (is_perm_length _ _ H) as Lp.
  apply perm_ext; rewrite comp_length, invp_length, ?seq_length; [exact Lp|].
  intros v L. rewrite comp_img by (rewrite invp_length; exact L).
  destruct (img_onto n p v H ltac:(lia)) as (i & Li & <-).
  rewrite (invp_img n) by assumption. rewrite img_id; [reflexivity|]. apply (img_lt n); assumption.
Qed.

Lemma invp_invp : forall n p, is_perm n p -> invp (invp p) = p.
Proof.
  intros n p H. pose proof (invp_is_perm n p H) as Hi. pose proof (invp_is_perm n _ Hi) as Hii.
  rewrite <- (comp_id_r n (invp (invp p))) by exact Hii.
  rewrite <- (comp_inv_l n p H), (comp_assoc n) by assumption.
  rewrite (comp_inv_l n (invp p)) by exact Hi. apply comp_id_l; exact H.
Qed.

Lemma invp_comp : forall n p q, is_perm n p -> is_perm n q ->
  invp (comp p q) = comp (invp q) (invp p).
Proof.
  intros n p q Hp Hq. pose proof (comp_is_perm n p q Hp Hq) as H.
  pose proof (invp_is_perm n p Hp) as Ip. pose proof (invp_is_perm n q Hq) as Iq.
  pose proof (invp_is_perm n _ H) as I0.
  rewrite <- (comp_id_r n (invp (comp p q))) by exact I0.
  assert (Z : comp (comp p q) (comp (invp q) (invp p)) = seq 0 n).
  { rewrite <- (comp_assoc n) by (assumption || apply comp_is_perm; assumption).
    rewrite (comp_assoc n q (invp q) (invp p)) by assumption.
    rewrite (comp_inv_r n q Hq), (comp_id_l n) by assumption. apply (comp_inv_r n); exact Hp. }
  rewrite <- Z, (comp_assoc n) by (assumption || apply comp_is_perm; assumption).
  rewrite (comp_inv_l n (comp p q) H). apply comp_id_l. apply comp_is_perm; assumption.
Qed.

Lemma mulp_is_perm : forall conv n p q, is_perm n p -> is_perm n q -> is_perm n (mulp conv p q).
Proof. intros [|] n p q Hp Hq; apply comp_is_perm; assumption. Qed.

Lemma invp_mulp : forall conv n p q, is_perm n p -> is_perm n q ->
  invp (mulp conv p q) = mulp conv (invp q) (invp p).
Proof. intros [|] n p q Hp Hq; cbn; apply (invp_comp n); assumption. Qed.

(* ---- cycles ---- *)

Lemma iter_lt : forall n p k i, is_perm n p -> i < n -> iter_img p k i < n.
Proof.
  induction k as [|k IH]; intros i H L; cbn; [exact L|]. apply (img_lt n); auto.
Qed.

Lemma iter_add : forall p a b i, iter_img p (a + b) i = iter_img p a (iter_img p b i).
Proof. induction a as [|a IH]; intros b i; cbn; [reflexivity|]. rewrite IH. reflexivity. Qed.

Lemma iter_cancel : forall n p a i j, is_perm n p -> i < n -> j < n ->
  iter_img p a i = iter_img p a j -> i = j.
Proof.
  induction a as [|a IH]; intros i j H Li Lj E; cbn in E; [exact E|].
  apply (img_inj n p) in E; [|exact H|apply iter_lt; assumption|apply iter_lt; assumption].
  apply IH; assumption.
Qed.

(* some positive power at most n fixes i *)
Lemma period : forall n p i, is_perm n p -> i < n ->
  exists m, 1 <= m <= n /\ iter_img p m i = i.
Proof.
  intros n p i H L.
  assert (ND : ~ NoDup (map (fun k => iter_img p k i) (seq 0 (S n)))).
  { intros ND. apply NoDup_incl_length with (l' := seq 0 n) in ND.
    - rewrite map_length, !seq_length in ND. lia.
    - intros x I1. apply in_map_iff in I1. destruct I1 as (k & <- & _).
      apply in_seq. pose proof (iter_lt n p k i H L). lia. }
  assert (X : exists a b, a < b /\ b <= n /\ iter_img p a i = iter_img p b i).
  { destruct (Exists_dec (fun ab => fst ab < snd ab /\ iter_img p (fst ab) i = iter_img p (snd ab) i)
                (list_prod (seq 0 (S n)) (seq 0 (S n)))) as [G|G].
    - intros ab. destruct (lt_dec (fst ab) (snd ab)) as [A|A]; [|right; tauto].
      destruct (Nat.eq_dec (iter_img p (fst ab) i) (iter_img p (snd ab) i)); [left; auto|right; tauto].
    - apply Exists_exists in G. destruct G as ((a & b) & I1 & A & B). cbn in A, B.
      apply in_prod_iff in I1. destruct I1 as (_ & I2). apply in_seq in I2.
      exists a, b. split; [exact A|]. split; [lia|exact B].
    - exfalso. apply ND. apply (proj2 (NoDup_nth _ 0)). rewrite map_length, seq_length.
      intros a b La Lb E. rewrite !nth_map_seq in E by assumption.
      destruct (lt_eq_lt_dec a b) as [[A|A]|A]; [exfalso|exact A|exfalso]; apply G, Exists_exists.
      + exists (a, b). split; [apply in_prod; apply in_seq; lia|]. cbn. auto.
      + exists (b, a). split; [apply in_prod; apply in_seq; lia|]. cbn. auto. }
  destruct X as (a & b & Lab & Lb & E).
  exists (b - a). split; [lia|].
  symmetry. apply (iter_cancel n p a); [exact H|exact L|apply iter_lt; assumption|].
  rewrite <- iter_add. replace (a + (b - a)) with b by lia. exact E.
Qed.

Lemma iter_mod : forall p i m, iter_img p m i = i -> forall q, iter_img p (q * m) i = i.
Proof.
  intros p i m E q. induction q as [|q IH]; [reflexivity|].
  cbn [Nat.mul]. rewrite iter_add, IH. exact E.
Qed.

Lemma reaches_small : forall n p i j, is_perm n p -> i < n -> reaches p i j ->
  exists k, k < n /\ iter_img p k i = j.
Proof.
  intros n p i j H L (k & E). destruct (period n p i H L) as (m & Lm & Em).
  exists (k mod m). pose proof (Nat.mod_upper_bound k m ltac:(lia)). split; [lia|].
  rewrite <- E. rewrite (Nat.div_mod k m) at 2 by lia.
  replace (m * (k / m) + k mod m) with (k mod m + (k / m) * m) by lia.
  rewrite iter_add, iter_mod by exact Em. reflexivity.
Qed.

Lemma reaches_refl : forall p i, reaches p i i.
Proof. intros. exists 0. reflexivity. Qed.

Lemma reaches_trans : forall p i j k, reaches p i j -> reaches p j k -> reaches p i k.
Proof. intros p i j k (a & <-) (b & <-). exists (b + a). apply iter_add. Qed.

Lemma reaches_sym : forall n p i j, is_perm n p -> i < n -> reaches p i j -> reaches p j i.
Proof.
  intros n p i j H L (k & E). destruct (period n p i H L) as (m & Lm & Em).
  exists (k * m - k). rewrite <- E, <- iter_add.
  replace (k * m - k + k) with (k * m) by nia. apply iter_mod. exact Em.
Qed.

Lemma reaches_lt : forall n p i j, is_perm n p -> i < n -> reaches p i j -> j < n.
Proof. intros n p i j H L (k & <-). apply iter_lt; assumption. Qed.

Lemma reaches_inv : forall n p i j, is_perm n p -> i < n -> reaches p i j -> reaches (invp p) i j.
Proof.
  intros n p i j H L R.
  assert (Lj : j < n) by (apply (reaches_lt n p i); assumption).
  apply (reaches_sym n) in R; [|exact H|exact L].
  destruct R as (k & E).
  assert (G : forall k, reaches (invp p) (iter_img p k j) j).
  { induction k0 as [|k0 IH]; [apply reaches_refl|].
    cbn [iter_img]. apply reaches_trans with (iter_img p k0 j); [|exact IH].
    exists 1. cbn. apply (invp_img n); [exact H|apply iter_lt; assumption]. }
  rewrite <- E. apply G.
Qed.

Lemma is_cycle_min_iff : forall n p i, is_perm n p -> i < n ->
  is_cycle_min p i = true <-> (forall j, reaches p i j -> i <= j).
Proof.
  intros n p i H L. unfold is_cycle_min. rewrite forallb_forall. split.
  - intros F j R. destruct (reaches_small n p i j H L R) as (k & Lk & <-).
    apply Nat.leb_le. apply F. apply in_seq. rewrite (is_perm_length _ _ H). lia.
  - intros F k _. apply Nat.leb_le. apply F. exists k. reflexivity.
Qed.

Lemma bool_eq_iff : forall a b : bool, (a = true <-> b = true) -> a = b.
Proof. intros [|] [|] [A B]; auto; symmetry; auto. Qed.

Lemma filter_ext_in' : forall (A : Type) (f g : A -> bool) l,
  (forall x, In x l -> f x = g x) -> filter f l = filter g l.
Proof.
  induction l as [|x l IH]; intros H; cbn; [reflexivity|].
  rewrite (H x) by (left; reflexivity). rewrite IH by (intros; apply H; right; assumption). reflexivity.
Qed.

Lemma n_cycles_inv : forall n p, is_perm n p -> n_cycles (invp p) = n_cycles p.
Proof.
  intros n p H. unfold n_cycles. rewrite invp_length. f_equal. apply filter_ext_in'.
  intros i I1. apply in_seq in I1. rewrite (is_perm_length _ _ H) in I1.
  pose proof (invp_is_perm n p H) as Hi.
  apply bool_eq_iff. rewrite !(is_cycle_min_iff n) by (assumption || lia).
  split; intros F j R; apply F.
  - apply (reaches_inv n); [exact H|lia|exact R].
  - rewrite <- (invp_invp n p H). apply (reaches_inv n); [exact Hi|lia|exact R].
Qed.

(* least element of an orbit *)
Lemma orbit_min : forall n p i, is_perm n p -> i < n ->
  exists r, r < n /\ reaches p i r /\ (forall j, reaches p i j -> r <= j).
Proof.
  intros n p i H L.
  assert (G : forall m, (exists j, j <= m /\ reaches p i j) ->
                exists r, reaches p i r /\ forall j, reaches p i j -> r <= j).
  { induction m as [|m IH]; intros (j & Lj & R).
    - exists j. split; [exact R|]. intros; lia.
    - destruct (Exists_dec (fun k => iter_img p k i <= m) (seq 0 n)) as [E|E].
      + intros k. apply le_dec.
      + apply Exists_exists in E. destruct E as (k & _ & E). apply IH.
        exists (iter_img p k i). split; [exact E|]. exists k; reflexivity.
      + exists j. split; [exact R|]. intros j' R'.
        destruct (reaches_small n p i j' H L R') as (k & Lk & <-).
        destruct (le_dec (iter_img p k i) m) as [Q|Q]; [|lia].
        exfalso. apply E, Exists_exists. exists k. split; [apply in_seq; lia|exact Q]. }
  destruct (G i) as (r & R & M); [exists i; split; [lia|apply reaches_refl]|].
  exists r. split; [apply (reaches_lt n p i); assumption|]. auto.
Qed.

Lemma n_cycles_spec : forall n p, is_perm n p -> cycle_number n p (n_cycles p).
Proof.
  intros n p H. pose proof (is_perm_length _ _ H) as Lp.
  exists (filter (is_cycle_min p) (seq 0 (length p))). rewrite Lp.
  split; [apply NoDup_filter, seq_NoDup|].
  split; [unfold n_cycles; rewrite Lp; reflexivity|]. split.
  - intros i I1. apply filter_In in I1. destruct I1 as (I1 & _). apply in_seq in I1. lia.
  - intros i L. destruct (orbit_min n p i H L) as (r & Lr & R & M).
    exists r. split; [|split].
    + apply filter_In. split; [apply in_seq; lia|].
      apply (is_cycle_min_iff n); [exact H|exact Lr|]. intros j Rj. apply M.
      apply reaches_trans with r; assumption.
    + apply (reaches_sym n); assumption.
    + intros r' I1 R'. apply filter_In in I1. destruct I1 as (I1 & C). apply in_seq in I1.
      pose proof (proj1 (is_cycle_min_iff n p r' H ltac:(lia)) C) as C'.
      assert (Q1 : r <= r') by (apply M; apply (reaches_sym n); [exact H|lia|exact R']).
      assert (Q2 : r' <= r).
      { apply C'. apply reaches_trans with i; [exact R'|exact R]. }
      lia.
Qed.
