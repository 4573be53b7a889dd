From Coq Require Import List Arith Bool PeanoNat Lia QArith Qcanon Permutation.
From Verif Require Import Bio_Model Bio_Spec Bio_Proofs1.
Import ListNotations.
Local Open Scope nat_scope.

(* ---- sums ---- *)

Lemma sumq_perm : forall l l', Permutation l l' -> sumq l = sumq l'.
Proof.
  intros l l' H. induction H; unfold sumq in *; cbn [fold_right].
  - reflexivity.
  - rewrite IHPermutation. reflexivity.
  - ring.
  - congruence.
Qed.

Lemma sumq_map_ext : forall (A : Type) (f g : A -> Qc) l,
  (forall x, In x l -> f x = g x) -> sumq (map f l) = sumq (map g l).
Proof. intros A f g l H. f_equal. apply map_ext_in. exact H. Qed.

Lemma sumq_scale : forall (A : Type) (c : Qc) (f : A -> Qc) l,
  sumq (map (fun x => (c * f x)%Qc) l) = (c * sumq (map f l))%Qc.
Proof.
  intros A c f l. induction l as [|x l IH]; cbn [map]; unfold sumq in *; cbn [fold_right].
  - ring.
  - rewrite IH. ring.
Qed.

Lemma sumq_scale_r : forall (A : Type) (c : Qc) (f : A -> Qc) l,
  sumq (map (fun x => (f x * c)%Qc) l) = (sumq (map f l) * c)%Qc.
Proof.
  intros A c f l. induction l as [|x l IH]; cbn [map]; unfold sumq in *; cbn [fold_right].
  - ring.
  - rewrite IH. ring.
Qed.

Lemma sumq_add : forall (A : Type) (f g : A -> Qc) l,
  sumq (map (fun x => (f x + g x)%Qc) l) = (sumq (map f l) + sumq (map g l))%Qc.
Proof.
  intros A f g l. induction l as [|x l IH]; cbn [map]; unfold sumq in *; cbn [fold_right].
  - ring.
  - rewrite IH. ring.
Qed.

Lemma sumq_zero : forall (A : Type) (l : list A), sumq (map (fun _ => 0%Qc) l) = 0%Qc.
Proof.
  intros A l. induction l as [|x l IH]; cbn [map]; unfold sumq in *; cbn [fold_right].
  - reflexivity.
  - rewrite IH. ring.
Qed.

Lemma sumq_swap : forall (A B : Type) (f : A -> B -> Qc) l m,
  sumq (map (fun x => sumq (map (f x) m)) l) = sumq (map (fun y => sumq (map (fun x => f x y) l)) m).
Proof.
  intros A B f l m. induction l as [|x l IH].
  - cbn [map]. rewrite sumq_zero. reflexivity.
  - cbn [map]. change (sumq (sumq (map (f x) m) :: map (fun x0 => sumq (map (f x0) m)) l))
      with (sumq (map (f x) m) + sumq (map (fun x0 => sumq (map (f x0) m)) l))%Qc.
    rewrite IH, <- sumq_add. reflexivity.
Qed.

Lemma sumq_reindex : forall (A B : Type) (h : A -> B) (f : B -> Qc) l l',
  Permutation (map h l) l' -> sumq (map (fun x => f (h x)) l) = sumq (map f l').
Proof.
  intros A B h f l l' H. rewrite <- (map_map h f). apply sumq_perm, Permutation_map, H.
Qed.

(* ---- the list of all permutations ---- *)

Definition perms (n : nat) : list perm := map (fun r => unrank r n) (seq 0 (fact n)).

Lemma perms_all : forall n, all_perms n (perms n).
Proof.
  intros n. split.
  - apply (proj2 (NoDup_nth _ [])). unfold perms. rewrite map_length, seq_length.
    intros i j Li Lj E. rewrite !nth_map_seq in E by assumption. apply unrank_inj in E; assumption.
  - intros s. unfold perms. rewrite in_map_iff. split.
    + intros (r & <- & _). apply unrank_is_perm.
    + intros H. destruct (unrank_surj n s H) as (r & L & E). exists r. split; [exact E|].
      apply in_seq. lia.
Qed.

Lemma all_perms_Permutation : forall n L L', all_perms n L -> all_perms n L' -> Permutation L L'.
Proof.
  intros n L L' (N & H) (N' & H'). apply NoDup_Permutation; [exact N|exact N'|].
  intros s. rewrite H, H'. reflexivity.
Qed.

Lemma inj_perm : forall n L (h : perm -> perm), all_perms n L ->
  (forall s, is_perm n s -> is_perm n (h s)) ->
  (forall s t, is_perm n s -> is_perm n t -> h s = h t -> s = t) ->
  Permutation (map h L) L.
Proof.
  intros n L h (N & H) C J. apply NoDup_Permutation_bis.
  - clear C. assert (K : forall s, In s L -> is_perm n s) by (intros s I1; apply H, I1).
    clear H. induction L as [|s L IH]; cbn; [constructor|].
    inversion N as [|s' L' N1 N2]. constructor.
    + intros I1. apply in_map_iff in I1. destruct I1 as (t & E & I2).
      apply J in E; [|apply K; right; exact I2|apply K; left; reflexivity]. congruence.
    + apply IH; [exact N2|]. intros t I1. apply K. right; exact I1.
  - rewrite map_length. lia.
  - intros s I1. apply in_map_iff in I1. destruct I1 as (t & <- & I2). apply H, C, H, I2.
Qed.

Lemma perm_left : forall n L s, all_perms n L -> is_perm n s -> Permutation (map (comp s) L) L.
Proof.
  intros n L s A H. apply (inj_perm n); [exact A| |].
  - intros t Ht. apply comp_is_perm; assumption.
  - intros t u Ht Hu E. apply (f_equal (comp (invp s))) in E.
    rewrite !(comp_assoc n) in E by assumption.
    rewrite (comp_inv_l n s H), !(comp_id_l n) in E by assumption. exact E.
Qed.

(* h |-> g h^-1 *)
Lemma perm_inv_left : forall n L g, all_perms n L -> is_perm n g ->
  Permutation (map (fun h => comp g (invp h)) L) L.
Proof.
  intros n L g A H. apply (inj_perm n); [exact A| |].
  - intros t Ht. apply comp_is_perm; [exact H|]. apply invp_is_perm; exact Ht.
  - intros t u Ht Hu E. pose proof (invp_is_perm n t Ht) as It. pose proof (invp_is_perm n u Hu) as Iu.
    apply (f_equal (comp (invp g))) in E.
    rewrite !(comp_assoc n) in E by assumption.
    rewrite (comp_inv_l n g H), !(comp_id_l n) in E by assumption.
    rewrite <- (invp_invp n t Ht), <- (invp_invp n u Hu), E. reflexivity.
Qed.

(* ---- the group algebra ---- *)

Definition gconv (L : list perm) (a b : perm -> Qc) (g : perm) : Qc :=
  sumq (map (fun h => (a h * b (comp (invp h) g))%Qc) L).

Lemma gconv_ext : forall n L a a' b b' g, all_perms n L -> is_perm n g ->
  (forall s, is_perm n s -> a s = a' s) -> (forall s, is_perm n s -> b s = b' s) ->
  gconv L a b g = gconv L a' b' g.
Proof.
  intros n L a a' b b' g A Hg Ea Eb. apply sumq_map_ext. intros h I1.
  assert (Hh : is_perm n h) by (apply (proj2 A), I1).
  rewrite (Ea h Hh), (Eb (comp (invp h) g)); [reflexivity|].
  apply comp_is_perm; [apply invp_is_perm; exact Hh|exact Hg].
Qed.

Lemma gconv_perm : forall n L L' a b g, all_perms n L -> all_perms n L' ->
  gconv L a b g = gconv L' a b g.
Proof.
  intros. apply sumq_perm, Permutation_map, (all_perms_Permutation n); assumption.
Qed.

Lemma perm_sum_ext : forall (V : Type) n L (a a' : perm -> Qc) (d : V) f f' x,
  all_perms n L -> (forall s, is_perm n s -> a s = a' s) -> (forall y, f y = f' y) ->
  perm_sum L a d f x = perm_sum L a' d f' x.
Proof.
  intros V n L a a' d f f' x A Ea Ef. apply sumq_map_ext. intros s I1.
  rewrite Ea by (apply (proj2 A), I1). rewrite Ef. reflexivity.
Qed.

Lemma perm_sum_perm : forall (V : Type) n L L' (a : perm -> Qc) (d : V) f x,
  all_perms n L -> all_perms n L' -> perm_sum L a d f x = perm_sum L' a d f x.
Proof.
  intros. apply sumq_perm, Permutation_map, (all_perms_Permutation n); assumption.
Qed.

Lemma perm_sum_scale : forall (V : Type) L (a : perm -> Qc) c (d : V) f x,
  perm_sum L (fun s => (c * a s)%Qc) d f x = (c * perm_sum L a d f x)%Qc.
Proof.
  intros. unfold perm_sum. rewrite <- sumq_scale. apply sumq_map_ext. intros; ring.
Qed.

Lemma nth_map_any : forall (A : Type) (f : nat -> A) s i d, i < length s ->
  nth i (map f s) d = f (img s i).
Proof.
  intros A f s i d L. rewrite (nth_indep _ d (f 0)) by (rewrite map_length; exact L).
  rewrite map_nth. reflexivity.
Qed.

Lemma perm_sum_comp : forall (V : Type) n L (a b : perm -> Qc) (d : V) f x,
  all_perms n L ->
  perm_sum L a d (perm_sum L b d f) x = perm_sum L (gconv L a b) d f x.
Proof.
  intros V n L a b d f x A. unfold perm_sum at 1 3.
  transitivity (sumq (map (fun s => sumq (map (fun g => (a s * b (comp (invp s) g) * f (map (fun i => nth i x d) g))%Qc) L)) L)).
  - apply sumq_map_ext. intros s I1. assert (Hs : is_perm n s) by (apply (proj2 A), I1).
    unfold perm_sum. rewrite <- sumq_scale.
    rewrite <- (sumq_reindex _ _ (comp s) (fun g => (a s * b (comp (invp s) g) * f (map (fun i => nth i x d) g))%Qc) L L)
      by (apply (perm_left n); assumption).
    apply sumq_map_ext. intros t I2. assert (Ht : is_perm n t) by (apply (proj2 A), I2).
    rewrite (comp_assoc n (invp s) s t), (comp_inv_l n s Hs), (comp_id_l n t Ht) by assumption.
    replace (map (fun i => nth i (map (fun j => nth j x d) s) d) t) with (map (fun i => nth i x d) (comp s t)).
    + ring.
    + unfold comp. rewrite map_map. apply map_ext_in. intros i I3.
      rewrite nth_map_any; [reflexivity|]. rewrite (is_perm_length n s Hs).
      apply is_perm_iff in Ht. apply Ht, I3.
  - rewrite sumq_swap. apply sumq_map_ext. intros g I1. unfold gconv.
    rewrite <- sumq_scale_r. reflexivity.
Qed.

(* matrices indexed by ranks *)
Definition rel (conv : bool) (n : nat) (a : perm -> Qc) (r c : nat) : Qc :=
  a (mulp conv (unrank c n) (invp (unrank r n))).

Lemma sum_ranks : forall n (f : perm -> Qc),
  sumq (map (fun k => f (unrank k n)) (seq 0 (fact n))) = sumq (map f (perms n)).
Proof. intros n f. unfold perms. rewrite map_map. reflexivity. Qed.

Lemma mprod_rel : forall conv n a b r c,
  mprod (fact n) (rel conv n a) (rel conv n b) r c =
  rel conv n (if conv then gconv (perms n) b a else gconv (perms n) a b) r c.
Proof.
  intros conv n a b r c. unfold mprod, rel.
  pose proof (unrank_is_perm n r) as Hr. pose proof (unrank_is_perm n c) as Hc.
  set (sr := unrank r n) in *. set (sc := unrank c n) in *. clearbody sr sc.
  rewrite (sum_ranks n (fun s => (a (mulp conv s (invp sr)) * b (mulp conv sc (invp s)))%Qc)).
  pose proof (perms_all n) as A. pose proof (invp_is_perm n sr Hr) as Ir.
  destruct conv; cbn [mulp]; unfold gconv.
  - rewrite <- (sumq_reindex _ _ (fun s => comp sc (invp s))
       (fun h => (b h * a (comp (invp h) (comp sc (invp sr))))%Qc) (perms n) (perms n))
      by (apply (perm_inv_left n); assumption).
    apply sumq_map_ext. intros s I1. assert (Hs : is_perm n s) by (apply (proj2 A), I1).
    pose proof (invp_is_perm n s Hs) as Is. pose proof (invp_is_perm n sc Hc) as Ic.
    rewrite (invp_comp n sc (invp s)), (invp_invp n s Hs) by assumption.
    rewrite <- (comp_assoc n s (invp sc)) by (assumption || apply comp_is_perm; assumption).
    rewrite (comp_assoc n (invp sc) sc), (comp_inv_l n sc Hc), (comp_id_l n) by assumption.
    ring.
  - rewrite <- (sumq_reindex _ _ (fun s => comp (invp sr) s)
       (fun h => (a h * b (comp (invp h) (comp (invp sr) sc)))%Qc) (perms n) (perms n))
      by (apply (perm_left n); assumption).
    apply sumq_map_ext. intros s I1. assert (Hs : is_perm n s) by (apply (proj2 A), I1).
    pose proof (invp_is_perm n s Hs) as Is.
    rewrite (invp_comp n (invp sr) s), (invp_invp n sr Hr) by assumption.
    rewrite <- (comp_assoc n (invp s) sr) by (assumption || apply comp_is_perm; assumption).
    rewrite (comp_assoc n sr (invp sr)), (comp_inv_r n sr Hr), (comp_id_l n) by assumption.
    reflexivity.
Qed.

(* ---- the overlap matrix ---- *)

Lemma pow_m2_qpow : forall k, pow_m2 k = qpow (Q2Qc (-2 # 1)) k.
Proof. induction k as [|k IH]; cbn; [reflexivity|]. rewrite IH. reflexivity. Qed.

Lemma qpow_sign : forall n, qpow (Q2Qc (-1 # 1)) n = if Nat.even n then 1%Qc else Q2Qc (-1 # 1).
Proof.
  induction n as [|n IH]; [reflexivity|].
  rewrite Nat.even_succ, <- Nat.negb_even. cbn [qpow]. rewrite IH.
  destruct (Nat.even n); cbn [negb]; apply Qc_is_canon; reflexivity.
Qed.

Lemma iter_id : forall n k i, i < n -> iter_img (seq 0 n) k i = i.
Proof. induction k as [|k IH]; intros i L; cbn; [reflexivity|]. rewrite IH, img_id; auto. Qed.

Lemma n_cycles_id : forall n, n_cycles (seq 0 n) = n.
Proof.
  intros n. unfold n_cycles. rewrite seq_length.
  rewrite (filter_ext_in' _ _ (fun _ => true)).
  - rewrite <- (seq_length n 0) at 2. f_equal.
    generalize (seq 0 n). induction l as [|x l IH]; cbn; [reflexivity|]. rewrite IH. reflexivity.
  - intros i I1. apply in_seq in I1. apply (is_cycle_min_iff n); [apply id_is_perm|lia|].
    intros j (k & <-). rewrite iter_id by lia. lia.
Qed.

Lemma overlap_ent : forall conv n r c, r < fact n -> c < fact n ->
  ent (overlap_matrix conv n) r c =
  overlap_value n (n_cycles (mulp conv (unrank c n) (invp (unrank r n)))).
Proof.
  intros conv n r c Lr Lc. unfold ent, overlap_matrix.
  rewrite nth_map_seq by exact Lr. rewrite nth_map_seq by exact Lc.
  assert (E : overlap_entry conv n r c =
              pow_m2 (n_cycles (mulp conv (unrank c n) (invp (unrank r n))))).
  { pose proof (unrank_is_perm n r) as Hr. pose proof (unrank_is_perm n c) as Hc.
    unfold overlap_entry. destruct (r =? c) eqn:Q.
    - apply Nat.eqb_eq in Q. subst c. f_equal.
      destruct conv; cbn [mulp]; rewrite ?(comp_inv_r n), ?(comp_inv_l n) by exact Hr;
        symmetry; apply n_cycles_id.
    - apply Nat.eqb_neq in Q. f_equal. destruct (le_lt_dec r c) as [G|G].
      + rewrite Nat.min_l, Nat.max_r by lia. reflexivity.
      + rewrite Nat.min_r, Nat.max_l by lia.
        rewrite <- (n_cycles_inv n) by (apply mulp_is_perm; [assumption|apply invp_is_perm; assumption]).
        rewrite (invp_mulp conv n) by (assumption || apply invp_is_perm; assumption).
        rewrite (invp_invp n) by assumption. reflexivity. }
  rewrite E. unfold overlap_value. rewrite qpow_sign, pow_m2_qpow.
  destruct (Nat.even n); [ring|reflexivity].
Qed.

Lemma overlap_sym : forall conv n r c, r < fact n -> c < fact n ->
  ent (overlap_matrix conv n) r c = ent (overlap_matrix conv n) c r.
Proof.
  intros conv n r c Lr Lc. rewrite !overlap_ent by assumption. f_equal.
  pose proof (unrank_is_perm n r) as Hr. pose proof (unrank_is_perm n c) as Hc.
  rewrite <- (n_cycles_inv n) by (apply mulp_is_perm; [assumption|apply invp_is_perm; assumption]).
  rewrite (invp_mulp conv n) by (assumption || apply invp_is_perm; assumption).
  rewrite (invp_invp n) by assumption. reflexivity.
Qed.

(* ---- finite checks on the tables ---- *)

Definition tabf (L : list perm) (t : list Qc) (g : perm) : Qc :=
  nth (find_pos (fun s => list_eqb s g) L) t 0%Qc.

Lemma tabf_ok : forall n b g, is_perm n g -> tabf (perms n) (map b (perms n)) g = b g.
Proof.
  intros n b g H. destruct (unrank_surj n g H) as (r & L & E).
  assert (P : find_pos (fun s => list_eqb s g) (perms n) = r).
  { apply (find_pos_spec _ _ _ []).
    - unfold perms. rewrite map_length, seq_length. exact L.
    - unfold perms. rewrite nth_map_seq by exact L. apply list_eqb_eq, E.
    - intros i Li. unfold perms. rewrite nth_map_seq by lia.
      destruct (list_eqb (unrank i n) g) eqn:Q; [|reflexivity].
      apply list_eqb_eq in Q. rewrite <- E in Q. apply unrank_inj in Q; lia. }
  unfold tabf. rewrite P. unfold perms. rewrite map_map, nth_map_seq by exact L. rewrite E. reflexivity.
Qed.

Definition qc_eqb (a b : Qc) : bool := Qeq_bool a b.
Lemma qc_eqb_eq : forall a b, qc_eqb a b = true -> a = b.
Proof. intros a b H. apply Qc_is_canon. apply Qeq_bool_iff. exact H. Qed.

Definition check_conv (n : nat) (a b c : perm -> Qc) : bool :=
  let L := perms n in
  let ta := map a L in let tb := map b L in let tc := map c L in
  forallb (fun g => qc_eqb (gconv L (tabf L ta) (tabf L tb) g) (tabf L tc g)) L.

Lemma check_conv_ok : forall n a b c, check_conv n a b c = true ->
  forall g, is_perm n g -> gconv (perms n) a b g = c g.
Proof.
  intros n a b c H g Hg. unfold check_conv in H. rewrite forallb_forall in H.
  specialize (H g (proj2 (proj2 (perms_all n) g) Hg)). apply qc_eqb_eq in H.
  rewrite (tabf_ok n) in H by exact Hg. rewrite <- H.
  apply (gconv_ext n); [apply perms_all|exact Hg| |]; intros s Hs; symmetry; apply (tabf_ok n); exact Hs.
Qed.

(* The weights of the projection, from the table in the code. *)
Definition nns_coef (n : nat) (s : perm) : Qc :=
  match nns_row n with Some w => nth (rank s n) w 0%Qc | None => 0%Qc end.

Definition ranks5 := [1; 2; 3; 4; 5].
Definition scaled (n : nat) (a : perm -> Qc) (s : perm) : Qc := (norm_factor n * a s)%Qc.

Lemma in_ranks5 : forall n, 1 <= n <= 5 -> In n ranks5.
Proof. intros n H. unfold ranks5. cbn. lia. Qed.

Lemma checks_all :
  forallb (fun n =>
     check_conv n (ovl_coef n) (row_coef n) (nns_coef n) &&
     check_conv n (row_coef n) (ovl_coef n) (nns_coef n) &&
     check_conv n (nns_coef n) (ovl_coef n) (scaled n (ovl_coef n)) &&
     check_conv n (ovl_coef n) (nns_coef n) (scaled n (ovl_coef n)) &&
     check_conv n (nns_coef n) (row_coef n) (scaled n (row_coef n)) &&
     check_conv n (row_coef n) (nns_coef n) (scaled n (row_coef n)) &&
     check_conv n (nns_coef n) (nns_coef n) (scaled n (nns_coef n)) &&
     forallb (fun s => qc_eqb (nns_coef n (invp s)) (nns_coef n s)) (perms n))
  ranks5 = true.
Proof. vm_compute. reflexivity. Qed.
