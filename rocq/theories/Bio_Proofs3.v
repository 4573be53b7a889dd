From Coq Require Import List Arith Bool PeanoNat Lia QArith Qcanon Permutation.
From Verif Require Import Bio_Model Bio_Spec Bio_Proofs1 Bio_Proofs2.
Import ListNotations.
Local Open Scope nat_scope.

Lemma checks : forall n, 1 <= n <= 5 ->
  (forall g, is_perm n g -> gconv (perms n) (ovl_coef n) (row_coef n) g = nns_coef n g) /\
  (forall g, is_perm n g -> gconv (perms n) (row_coef n) (ovl_coef n) g = nns_coef n g) /\
  (forall g, is_perm n g -> gconv (perms n) (nns_coef n) (ovl_coef n) g = scaled n (ovl_coef n) g) /\
  (forall g, is_perm n g -> gconv (perms n) (ovl_coef n) (nns_coef n) g = scaled n (ovl_coef n) g) /\
  (forall g, is_perm n g -> gconv (perms n) (nns_coef n) (row_coef n) g = scaled n (row_coef n) g) /\
  (forall g, is_perm n g -> gconv (perms n) (row_coef n) (nns_coef n) g = scaled n (row_coef n) g) /\
  (forall g, is_perm n g -> gconv (perms n) (nns_coef n) (nns_coef n) g = scaled n (nns_coef n) g) /\
  (forall g, is_perm n g -> nns_coef n (invp g) = nns_coef n g).
Proof.
  intros n H. pose proof checks_all as C. rewrite forallb_forall in C.
  specialize (C n (in_ranks5 n H)). rewrite !andb_true_iff in C.
  destruct C as (((((((C1 & C2) & C3) & C4) & C5) & C6) & C7) & C8).
  repeat (split; [apply check_conv_ok; assumption|]).
  intros g Hg. rewrite forallb_forall in C8. apply qc_eqb_eq. apply C8.
  apply (proj2 (perms_all n)). exact Hg.
Qed.

(* ---- matrices ---- *)

Lemma mprod_ext : forall N A A' B B', meq N A A' -> meq N B B' -> meq N (mprod N A B) (mprod N A' B').
Proof.
  intros N A A' B B' EA EB r c Lr Lc. apply sumq_map_ext. intros k I1. apply in_seq in I1.
  rewrite (EA r k), (EB k c) by lia. reflexivity.
Qed.

Lemma mprod_assoc : forall N A B C, meq N (mprod N (mprod N A B) C) (mprod N A (mprod N B C)).
Proof.
  intros N A B C r c _ _. unfold mprod.
  transitivity (sumq (map (fun k => sumq (map (fun l => (A r l * B l k * C k c)%Qc) (seq 0 N))) (seq 0 N))).
  - apply sumq_map_ext. intros k _. rewrite <- sumq_scale_r. reflexivity.
  - rewrite sumq_swap. apply sumq_map_ext. intros l _. rewrite <- sumq_scale.
    apply sumq_map_ext. intros; ring.
Qed.

Lemma meq_refl : forall N A, meq N A A. Proof. intros N A r c _ _. reflexivity. Qed.
Lemma meq_sym : forall N A B, meq N A B -> meq N B A.
Proof. intros N A B H r c Lr Lc. symmetry. apply H; assumption. Qed.
Lemma meq_trans : forall N A B C, meq N A B -> meq N B C -> meq N A C.
Proof. intros N A B C H K r c Lr Lc. rewrite H by assumption. apply K; assumption. Qed.

Lemma mtr_prod : forall N A B, meq N (mtr (mprod N A B)) (mprod N (mtr B) (mtr A)).
Proof.
  intros N A B r c _ _. unfold mtr, mprod. apply sumq_map_ext. intros; ring.
Qed.

Lemma mtr_ext : forall N A B, meq N A B -> meq N (mtr A) (mtr B).
Proof. intros N A B H r c Lr Lc. apply H; assumption. Qed.

(* AX = AY for two pseudoinverses *)
Lemma pinv_AX : forall N A X Y, pseudoinverse N A X -> pseudoinverse N A Y ->
  meq N (mprod N A X) (mprod N A Y).
Proof.
  intros N A X Y (X1 & X2 & X3 & X4) (Y1 & Y2 & Y3 & Y4).
  (* AX = (AX)^T = ((AYA)X)^T = ((AY)(AX))^T = (AX)^T (AY)^T = AX AY = AY *)
  apply meq_trans with (mtr (mprod N A X)); [apply meq_sym, X3|].
  apply meq_trans with (mtr (mprod N (mprod N A Y) (mprod N A X))).
  { apply mtr_ext. apply meq_trans with (mprod N (mprod N (mprod N A Y) A) X).
    - apply mprod_ext; [apply meq_sym, Y1|apply meq_refl].
    - apply mprod_assoc. }
  apply meq_trans with (mprod N (mtr (mprod N A X)) (mtr (mprod N A Y))); [apply mtr_prod|].
  apply meq_trans with (mprod N (mprod N A X) (mprod N A Y)); [apply mprod_ext; assumption|].
  apply meq_trans with (mprod N (mprod N (mprod N A X) A) Y); [apply meq_sym, mprod_assoc|].
  apply mprod_ext; [exact X1|apply meq_refl].
Qed.

Lemma pinv_XA : forall N A X Y, pseudoinverse N A X -> pseudoinverse N A Y ->
  meq N (mprod N X A) (mprod N Y A).
Proof.
  intros N A X Y (X1 & X2 & X3 & X4) (Y1 & Y2 & Y3 & Y4).
  apply meq_trans with (mtr (mprod N X A)); [apply meq_sym, X4|].
  apply meq_trans with (mtr (mprod N (mprod N X A) (mprod N Y A))).
  { apply mtr_ext. apply meq_trans with (mprod N X (mprod N (mprod N A Y) A)).
    - apply mprod_ext; [apply meq_refl|apply meq_sym, Y1].
    - apply meq_trans with (mprod N X (mprod N A (mprod N Y A))).
      + apply mprod_ext; [apply meq_refl|apply mprod_assoc].
      + apply meq_sym, mprod_assoc. }
  apply meq_trans with (mprod N (mtr (mprod N Y A)) (mtr (mprod N X A))); [apply mtr_prod|].
  apply meq_trans with (mprod N (mprod N Y A) (mprod N X A)); [apply mprod_ext; assumption|].
  apply meq_trans with (mprod N Y (mprod N A (mprod N X A))); [apply mprod_assoc|].
  apply mprod_ext; [apply meq_refl|].
  apply meq_trans with (mprod N (mprod N A X) A); [apply meq_sym, mprod_assoc|exact X1].
Qed.

Lemma pseudoinverse_unique : forall N A X Y,
  pseudoinverse N A X -> pseudoinverse N A Y -> meq N X Y.
Proof.
  intros N A X Y HX HY. pose proof (pinv_AX N A X Y HX HY) as E1.
  pose proof (pinv_XA N A X Y HX HY) as E2.
  destruct HX as (X1 & X2 & X3 & X4). destruct HY as (Y1 & Y2 & Y3 & Y4).
  apply meq_trans with (mprod N (mprod N X A) X); [apply meq_sym, X2|].
  apply meq_trans with (mprod N (mprod N Y A) X); [apply mprod_ext; [exact E2|apply meq_refl]|].
  apply meq_trans with (mprod N Y (mprod N A X)); [apply mprod_assoc|].
  apply meq_trans with (mprod N Y (mprod N A Y)); [apply mprod_ext; [apply meq_refl|exact E1]|].
  apply meq_trans with (mprod N (mprod N Y A) Y); [apply meq_sym, mprod_assoc|exact Y2].
Qed.

Lemma norm_nz : forall n, norm_factor n <> 0%Qc.
Proof.
  intros n. do 6 (destruct n as [|n]; [vm_compute; discriminate|]). vm_compute; discriminate.
Qed.

Lemma ovl_is_rel : forall conv n,
  meq (fact n) (ent (overlap_matrix conv n)) (rel conv n (ovl_coef n)).
Proof. intros conv n r c Lr Lc. rewrite overlap_ent by assumption. reflexivity. Qed.

Lemma rel_ext : forall conv n a b, (forall g, is_perm n g -> a g = b g) ->
  meq (fact n) (rel conv n a) (rel conv n b).
Proof.
  intros conv n a b H r c _ _. apply H. apply mulp_is_perm; [apply unrank_is_perm|].
  apply invp_is_perm, unrank_is_perm.
Qed.

Lemma mprod_scale_r : forall N x A B, meq N (mprod N A (mscale x B)) (mscale x (mprod N A B)).
Proof.
  intros N x A B r c _ _. unfold mprod, mscale. rewrite <- sumq_scale. apply sumq_map_ext. intros; ring.
Qed.
Lemma mprod_scale_l : forall N x A B, meq N (mprod N (mscale x A) B) (mscale x (mprod N A B)).
Proof.
  intros N x A B r c _ _. unfold mprod, mscale. rewrite <- sumq_scale. apply sumq_map_ext. intros; ring.
Qed.
Lemma mscale_ext : forall N x A B, meq N A B -> meq N (mscale x A) (mscale x B).
Proof. intros N x A B H r c Lr Lc. unfold mscale. rewrite H by assumption. reflexivity. Qed.

Lemma prod_rel_nns : forall conv n, 1 <= n <= 5 ->
  meq (fact n) (mprod (fact n) (rel conv n (ovl_coef n)) (rel conv n (row_coef n))) (rel conv n (nns_coef n)) /\
  meq (fact n) (mprod (fact n) (rel conv n (row_coef n)) (rel conv n (ovl_coef n))) (rel conv n (nns_coef n)) /\
  meq (fact n) (mprod (fact n) (rel conv n (nns_coef n)) (rel conv n (ovl_coef n)))
               (mscale (norm_factor n) (rel conv n (ovl_coef n))) /\
  meq (fact n) (mprod (fact n) (rel conv n (nns_coef n)) (rel conv n (row_coef n)))
               (mscale (norm_factor n) (rel conv n (row_coef n))) /\
  meq (fact n) (mtr (rel conv n (nns_coef n))) (rel conv n (nns_coef n)).
Proof.
  intros conv n H. destruct (checks n H) as (C1 & C2 & C3 & C4 & C5 & C6 & C7 & C8).
  assert (P : forall r c, is_perm n (mulp conv (unrank c n) (invp (unrank r n)))).
  { intros r c. apply mulp_is_perm; [apply unrank_is_perm|]. apply invp_is_perm, unrank_is_perm. }
  repeat split; intros r c _ _; rewrite ?mprod_rel; unfold rel, mscale, mtr;
    try (destruct conv; match goal with Q : _ |- _ => solve [rewrite Q by apply P; reflexivity] end).
  rewrite <- (C8 _ (P r c)), (invp_mulp conv n);
    [|apply unrank_is_perm|apply invp_is_perm, unrank_is_perm].
  rewrite (invp_invp n) by apply unrank_is_perm. reflexivity.
Qed.

Lemma mscale_inv : forall N x A, x <> 0%Qc -> meq N (mscale (/ x) (mscale x A)) A.
Proof. intros N x A H r c _ _. unfold mscale. field. exact H. Qed.

Lemma row_pseudoinverse : forall conv n, 1 <= n <= 5 ->
  pseudoinverse (fact n) (ent (overlap_matrix conv n))
    (mscale (/ norm_factor n) (rel conv n (row_coef n))).
Proof.
  intros conv n H. destruct (prod_rel_nns conv n H) as (P1 & P2 & P3 & P4 & P5).
  pose proof (ovl_is_rel conv n) as O. pose proof (norm_nz n) as Z.
  set (N := fact n) in *. set (x := norm_factor n) in *. set (M := ent (overlap_matrix conv n)) in *.
  set (m := rel conv n (ovl_coef n)) in *. set (p := rel conv n (row_coef n)) in *.
  set (w := rel conv n (nns_coef n)) in *. clearbody N x M m p w.
  assert (MX : meq N (mprod N M (mscale (/ x) p)) (mscale (/ x) w)).
  { apply meq_trans with (mscale (/ x) (mprod N M p)); [apply mprod_scale_r|]. apply mscale_ext.
    apply meq_trans with (mprod N m p); [apply mprod_ext; [exact O|apply meq_refl]|exact P1]. }
  assert (XM : meq N (mprod N (mscale (/ x) p) M) (mscale (/ x) w)).
  { apply meq_trans with (mscale (/ x) (mprod N p M)); [apply mprod_scale_l|]. apply mscale_ext.
    apply meq_trans with (mprod N p m); [apply mprod_ext; [apply meq_refl|exact O]|exact P2]. }
  assert (WT : meq N (mtr (mscale (/ x) w)) (mscale (/ x) w)).
  { intros r c Lr Lc. unfold mscale, mtr. f_equal. apply P5; assumption. }
  split; [|split; [|split]].
  - apply meq_trans with (mprod N (mscale (/ x) w) m); [apply mprod_ext; [exact MX|exact O]|].
    apply meq_trans with (mscale (/ x) (mprod N w m)); [apply mprod_scale_l|].
    apply meq_trans with (mscale (/ x) (mscale x m)); [apply mscale_ext, P3|].
    apply meq_trans with m; [apply mscale_inv, Z|apply meq_sym, O].
  - apply meq_trans with (mprod N (mscale (/ x) w) (mscale (/ x) p)); [apply mprod_ext; [exact XM|apply meq_refl]|].
    apply meq_trans with (mscale (/ x) (mprod N w (mscale (/ x) p))); [apply mprod_scale_l|].
    apply mscale_ext. apply meq_trans with (mscale (/ x) (mprod N w p)); [apply mprod_scale_r|].
    apply meq_trans with (mscale (/ x) (mscale x p)); [apply mscale_ext, P4|]. apply mscale_inv, Z.
  - apply meq_trans with (mtr (mscale (/ x) w)); [apply mtr_ext, MX|].
    apply meq_trans with (mscale (/ x) w); [exact WT|apply meq_sym, MX].
  - apply meq_trans with (mtr (mscale (/ x) w)); [apply mtr_ext, XM|].
    apply meq_trans with (mscale (/ x) w); [exact WT|apply meq_sym, XM].
Qed.

(* first row, last row, trace *)
Definition row_of (n : nat) : list Qc := match bio_row n with Some r => r | None => [] end.
Definition nns_of (n : nat) : list Qc := match nns_row n with Some r => r | None => [] end.

Lemma row_checks_all :
  forallb (fun n =>
    (length (row_of n) =? fact n) && (length (nns_of n) =? fact n) &&
    forallb (fun conv => forallb (fun k =>
      qc_eqb (rel conv n (row_coef n) 0 k) (nth k (row_of n) 0%Qc) &&
      qc_eqb (bio_entry conv (row_of n) n (fact n - 1) k) (row_coef n (unrank k n)))
      (seq 0 (fact n))) [true; false] &&
    qc_eqb (nns_coef n (seq 0 n)) 1%Qc)
  ranks5 = true.
Proof. vm_compute. reflexivity. Qed.

Lemma row_checks : forall n, 1 <= n <= 5 ->
  length (row_of n) = fact n /\ length (nns_of n) = fact n /\
  (forall conv k, k < fact n -> rel conv n (row_coef n) 0 k = nth k (row_of n) 0%Qc) /\
  (forall conv k, k < fact n -> bio_entry conv (row_of n) n (fact n - 1) k = row_coef n (unrank k n)) /\
  nns_coef n (seq 0 n) = 1%Qc.
Proof.
  intros n H. pose proof row_checks_all as C. rewrite forallb_forall in C.
  specialize (C n (in_ranks5 n H)). rewrite !andb_true_iff in C.
  destruct C as (((C1 & C2) & C3) & C4).
  apply Nat.eqb_eq in C1. apply Nat.eqb_eq in C2.
  split; [exact C1|]. split; [exact C2|].
  rewrite forallb_forall in C3.
  assert (K : forall conv k, k < fact n ->
     qc_eqb (rel conv n (row_coef n) 0 k) (nth k (row_of n) 0%Qc) = true /\
      qc_eqb (bio_entry conv (row_of n) n (fact n - 1) k) (row_coef n (unrank k n)) = true).
  { intros conv k L. assert (I1 : In conv [true; false]) by (destruct conv; cbn; auto).
    specialize (C3 conv I1). rewrite forallb_forall in C3.
    specialize (C3 k). rewrite andb_true_iff in C3. apply C3. apply in_seq. lia. }
  split; [|split]; [intros conv k L; apply qc_eqb_eq, (K conv k L)|intros conv k L; apply qc_eqb_eq, (K conv k L)|].
  apply qc_eqb_eq, C4.
Qed.

Lemma sumq_const : forall (A : Type) (x : Qc) (l : list A),
  sumq (map (fun _ => x) l) = (Q2Qc (inject_Z (Z.of_nat (length l))) * x)%Qc.
Proof.
  intros A x l. induction l as [|y l IH]; cbn [map].
  - cbn [length]. replace (Q2Qc (inject_Z (Z.of_nat 0))) with 0%Qc by (apply Qc_is_canon; reflexivity).
    unfold sumq; cbn [fold_right]. ring.
  - unfold sumq in *. cbn [fold_right]. rewrite IH. cbn [length].
    replace (Q2Qc (inject_Z (Z.of_nat (S (length l)))))
      with (1 + Q2Qc (inject_Z (Z.of_nat (length l))))%Qc.
    + ring.
    + apply Qc_is_canon. rewrite Nat2Z.inj_succ. unfold Z.succ. rewrite inject_Z_plus.
      unfold Qcplus. cbn [this Q2Qc]. rewrite !Qred_correct. rewrite Qplus_comm. reflexivity.
Qed.

Lemma trace_check : forall conv n, 1 <= n <= 5 ->
  (norm_factor n *
   sumq (map (fun r => mprod (fact n) (ent (overlap_matrix conv n))
                         (mscale (/ norm_factor n) (rel conv n (row_coef n))) r r)
             (seq 0 (fact n))))%Qc = Q2Qc (inject_Z (Z.of_nat (fact n))).
Proof.
  intros conv n H. destruct (prod_rel_nns conv n H) as (P1 & _).
  destruct (row_checks n H) as (_ & _ & _ & _ & W).
  rewrite (sumq_map_ext _ _ (fun _ => (/ norm_factor n)%Qc)).
  - rewrite sumq_const, seq_length. field. apply norm_nz.
  - intros r I1. apply in_seq in I1.
    rewrite mprod_scale_r by lia. unfold mscale.
    rewrite (mprod_ext _ _ _ _ _ (ovl_is_rel conv n) (meq_refl _ _)) by lia.
    rewrite P1 by lia. unfold rel.
    replace (mulp conv (unrank r n) (invp (unrank r n))) with (seq 0 n).
    + rewrite W. ring.
    + destruct conv; cbn [mulp]; [rewrite (comp_inv_r n)|rewrite (comp_inv_l n)]; try reflexivity; apply unrank_is_perm.
Qed.
