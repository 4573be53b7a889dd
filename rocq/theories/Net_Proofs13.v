(** Canonicalization always succeeds: sorting by blocks, and all steps together. *)
From Coq Require Import ZArith List Arith Bool Permutation Sorted Lia.
From Verif Require Import Alg_Model Alg_Spec Alg_Proofs1 Alg_Proofs2 Tsr_Model Tsr_Spec Tsr_Proofs1 Tsr_Proofs2 Tsr_Proofs3 Tsr_Proofs4 Tsr_Proofs5 Tsr_Proofs6 Tsr_Proofs7.
From Verif Require Import Net_Model Net_Spec Net_Proofs1 Net_Proofs2 Net_Proofs3 Net_Proofs4 Net_Proofs5 Net_Proofs6 Net_Proofs12.
Import ListNotations.

(** ** What a sorted tensor looks like *)
Notation bless := (key_less bcmp bkey).
Notation bless2 := (key_less bcmp2 bkey2).
Definition settled (t : tensor) : Prop :=
  match t_col t with
  | ColNonsymm => True
  | ColSymm =>
      match t_symm t with
      | Nonsymm => let r := Nat.min (length (t_bra t)) (length (t_ket t)) in
          in_sorted_order bless2 (combine (firstn r (t_bra t)) (firstn r (t_ket t))) /\
          in_sorted_order bless (skipn r (t_bra t)) /\ in_sorted_order bless (skipn r (t_ket t))
      | _ => in_sorted_order bless (t_bra t) /\ in_sorted_order bless (t_ket t)
      end
  end.
Notation bform := (form bcmp bkey bcmp2 bkey2).
Lemma combine_split {A B} (l : list (A * B)) : combine (map fst l) (map snd l) = l.
Proof. induction l as [|(a, b) l IH]; cbn; congruence. Qed.
Lemma form_settled t u s : bform t u s -> settled u.
Proof.
  intros ((_ & _ & Sy & _ & C & _) & F). unfold settled. rewrite <- Sy, <- C. destruct (t_col t); auto. destruct (t_symm t).
  - destruct F as (_ & A & _ & B & _). auto.
  - destruct F as (_ & A & _ & B & _). auto.
  - destruct F as (_ & ps & br & kr & F). cbv zeta in F. destruct F as (E1 & E2 & P & So & Pb & Sb & Pk & Sk).
    assert (X : br = [] \/ kr = []).
    { destruct (Nat.le_gt_cases (length (t_bra t)) (length (t_ket t))) as [L|L].
      - left. rewrite skipn_all2 in Pb by lia. apply Permutation_nil in Pb. auto.
      - right. rewrite skipn_all2 in Pk by lia. apply Permutation_nil in Pk. auto. }
    rewrite E1, E2. cbv zeta. destruct (firstn_split_pairs (map fst ps) br (map snd ps) kr) as (-> & -> & -> & ->); auto.
    { rewrite !map_length. auto. }
    rewrite combine_split. auto.
Qed.
Lemma settled_form t : settled t -> exists s, bform t t s.
Proof.
  intros H. unfold settled in H. unfold form. assert (E : rest_eq t t) by (unfold rest_eq; auto 8).
  destruct (t_col t); [|exists false; auto]. destruct (t_symm t).
  - destruct H as (A & B). exists false. auto 8.
  - destruct H as (A & B). eexists. split; [auto|]. do 4 (split; [auto|]). reflexivity.
  - cbv zeta in H. set (r := Nat.min (length (t_bra t)) (length (t_ket t))) in *. destruct H as (A & B & C). exists false. split; auto. split; auto.
    exists (combine (firstn r (t_bra t)) (firstn r (t_ket t))), (skipn r (t_bra t)), (skipn r (t_ket t)). cbv zeta. fold r.
    assert (L : length (firstn r (t_bra t)) = length (firstn r (t_ket t))) by (rewrite !firstn_length; unfold r; lia).
    rewrite combine_fst_len, combine_snd_len, !firstn_skipn by auto. auto 10.
Qed.

Lemma sorted_keys {A B C} (c : C -> C -> comparison) (f : A -> C) (g : B -> C) l : forall m, map f l = map g m ->
  in_sorted_order (key_less c f) l -> in_sorted_order (key_less c g) m.
Proof.
  induction l as [|x l IH]; intros [|y m] E; try discriminate; [constructor|]. cbn in E. injection E as E1 E2. intros H.
  inversion H as [|x0 l0 H1 H2]; subst. constructor; [apply IH; auto|]. clear - E1 E2 H2. unfold key_less in *. rewrite <- E1.
  revert m E2. induction H2 as [|z l Z F IH]; intros [|w m] E2; try discriminate; constructor; cbn in E2; injection E2 as E2 E3.
  - rewrite <- E2. auto.
  - auto.
Qed.
Lemma settled_keys t u : t_col t = t_col u -> t_symm t = t_symm u -> map bkey (t_bra t) = map bkey (t_bra u) -> map bkey (t_ket t) = map bkey (t_ket u) ->
  settled t -> settled u.
Proof.
  intros C Sy Eb Ek. unfold settled. rewrite <- C, <- Sy. destruct (t_col t); auto.
  assert (G : forall l m, map bkey l = map bkey m -> in_sorted_order bless l -> in_sorted_order bless m) by (intros l m; apply sorted_keys).
  destruct (t_symm t); try (intros (A & B); split; eapply G; eauto; fail).
  assert (Lb : length (t_bra t) = length (t_bra u)) by (rewrite <- (map_length bkey), Eb, map_length; auto).
  assert (Lk : length (t_ket t) = length (t_ket u)) by (rewrite <- (map_length bkey), Ek, map_length; auto).
  rewrite <- Lb, <- Lk. cbv zeta. set (r := Nat.min _ _). intros (A & B & D). split; [|split].
  - revert A. apply sorted_keys.
    assert (K : forall a b, map bkey2 (combine a b) = map (fun p : (index * option Z) * (index * option Z) => (fst (fst p), (fst (snd p), (snd (fst p), snd (snd p))))) (combine (map bkey a) (map bkey b))).
    { induction a as [|x a IH]; intros [|y b]; cbn; auto. rewrite IH. auto. }
    rewrite !K, <- !firstn_map, Eb, Ek. auto.
  - revert B. apply G. rewrite <- !skipn_map, Eb. auto.
  - revert D. apply G. rewrite <- !skipn_map, Ek. auto.
Qed.

Lemma sorted_weaken {A} (lt lt' : A -> A -> bool) l : (forall x y, lt' x y = true -> lt x y = true) -> in_sorted_order lt l -> in_sorted_order lt' l.
Proof.
  intros H So. induction So as [|x l So IH F]; constructor; auto. eapply Forall_impl; [|exact F]. cbn. intros y Y.
  destruct (lt' y x) eqn:E; auto. apply H in E. congruence.
Qed.
Lemma weaken1 x y : bless x y = true -> key_less tcmp' tkey x y = true.
Proof. unfold key_less, tcmp', tkey, pcmp. cbn [fst snd]. destruct (bcmp (bkey x) (bkey y)); auto; discriminate. Qed.
Lemma weaken2 x y : bless2 x y = true -> key_less tcmp2' tkey2 x y = true.
Proof. unfold key_less, tcmp2', tkey2. unfold pcmp at 1. cbn [fst snd]. destruct (bcmp2 (bkey2 x) (bkey2 y)); auto; discriminate. Qed.
Lemma form_weaken t u s : form tcmp' tkey tcmp2' tkey2 t u s -> exists s', bform t u s'.
Proof.
  pose proof (fun l => sorted_weaken _ _ l weaken1) as W1. pose proof (fun l => sorted_weaken _ _ l weaken2) as W2.
  intros (E & F). unfold form. destruct (t_col t); [|exists s; auto]. destruct (t_symm t).
  - destruct F as (A & B & C & D & _). exists false. split; auto. do 4 (split; [auto|]). auto.
  - destruct F as (A & B & C & D & _). eexists. split; [auto|]. do 4 (split; [auto|]). reflexivity.
  - destruct F as (-> & ps & br & kr & F). cbv zeta in F. decompose [and] F. exists false. split; auto. split; auto. exists ps, br, kr. auto 10.
Qed.
Lemma form_perm t u s : bform t u s -> Permutation (t_bra t) (t_bra u) /\ Permutation (t_ket t) (t_ket u).
Proof.
  intros (_ & F). destruct (t_col t); [|destruct F as (-> & _); auto]. destruct (t_symm t); try (decompose [and] F; auto; fail).
  destruct F as (_ & ps & br & kr & F). cbv zeta in F. set (r := Nat.min _ _) in F. destruct F as (-> & -> & P & _ & Pb & _ & Pk & _).
  assert (L : length (firstn r (t_bra t)) = length (firstn r (t_ket t))) by (rewrite !firstn_length; unfold r; lia).
  rewrite <- (firstn_skipn r (t_bra t)) at 1. rewrite <- (firstn_skipn r (t_ket t)) at 1. split; apply Permutation_app; auto.
  - apply (Permutation_map fst) in P. rewrite combine_fst_len in P by auto. auto.
  - apply (Permutation_map snd) in P. rewrite combine_snd_len in P by auto. auto.
Qed.

(** ** The order of blocks *)
Definition sig_of (labels : list (list Z)) (t : tensor) :=
  (label_pos labels (base_label (t_label t)), (t_label t, (length (t_bra t), (length (t_ket t), (length (t_aux t),
    (map ix_space (t_bra t), (map ix_space (t_ket t), map ix_space (t_aux t)))))))).
Definition sig_cmp := pcmp Nat.compare (pcmp (lcmp Z.compare) (pcmp Nat.compare (pcmp Nat.compare (pcmp Nat.compare (pcmp (lcmp scmp) (pcmp (lcmp scmp) (lcmp scmp))))))).
Lemma TO_sig : TO sig_cmp.
Proof. unfold sig_cmp. repeat apply TO_pair; try apply TO_nat; try apply TO_list; try apply TO_Z; apply TO_space. Qed.

Section Blocks.
  Variable S : space -> Prop.
  Hypothesis R : one_registry S.
  Notation plain := (plain S).

  Lemma spaces_cmp_key l : forall m o, Forall plain l -> Forall plain m -> length l = length m ->
    spaces_cmp l m o = match lcmp scmp (map ix_space l) (map ix_space m) with Lt => true | Eq => o | Gt => false end.
  Proof.
    induction l as [|x l IH]; intros [|y m] o Fl Fm L; try discriminate; cbn; auto. inversion Fl; inversion Fm; subst.
    assert (Sx : S (ix_space x)) by apply H1. assert (Sy : S (ix_space y)) by apply H5.
    destruct (space_eqb (ix_space x) (ix_space y)) eqn:E; cbn [negb].
    - apply space_eqb_spec in E. rewrite E, (TO_refl _ _ TO_space). cbn. apply IH; auto.
    - rewrite (space_ltb_reg S) by auto. destruct (scmp (ix_space x) (ix_space y)) eqn:X; auto.
      apply TO_space in X. apply space_eqb_spec in X. congruence.
  Qed.
  Lemma lt_cmp a b : a <? b = match Nat.compare a b with Lt => true | _ => false end.
  Proof. rewrite Nat.ltb_compare. auto. Qed.
  Lemma ne_cmp a b : negb (a =? b) = match Nat.compare a b with Eq => false | _ => true end.
  Proof. rewrite Nat.eqb_compare. destruct (Nat.compare a b); auto. Qed.
  Lemma canonical_key labels t u : Forall plain (slots t) -> Forall plain (slots u) ->
    canonical_less labels block_cmp t u = key_less sig_cmp (sig_of labels) t u.
  Proof.
    unfold slots. rewrite !Forall_app. intros (F1 & F2 & F3) (G1 & G2 & G3). unfold canonical_less, key_less, sig_cmp, sig_of, pcmp. cbn [fst snd].
    rewrite ne_cmp, lt_cmp. destruct (Nat.compare (label_pos _ _) _); cbn [cthen]; auto. unfold block_cmp.
    destruct (str_eqb (t_label t) (t_label u)) eqn:E1; cbn [negb].
    2: { rewrite (lex_less_lcmp Z.compare).
         - destruct (lcmp Z.compare (t_label t) (t_label u)) eqn:E; cbn; auto. apply (TO_list _ TO_Z) in E. apply str_eqb_spec in E. congruence.
         - apply TO_Z.
         - intros. unfold Z.ltb. auto. }
    apply str_eqb_spec in E1. rewrite E1, (TO_refl _ _ (TO_list _ TO_Z)). cbn [cthen].
    rewrite !ne_cmp, !lt_cmp. destruct (Nat.compare (length (t_bra t)) _) eqn:C1; cbn [cthen]; auto. apply Nat.compare_eq in C1.
    destruct (Nat.compare (length (t_ket t)) _) eqn:C2; cbn [cthen]; auto. apply Nat.compare_eq in C2.
    destruct (Nat.compare (length (t_aux t)) _) eqn:C3; cbn [cthen]; auto. apply Nat.compare_eq in C3.
    rewrite !spaces_cmp_key by auto.
    destruct (lcmp scmp (map ix_space (t_bra t)) _); cbn [cthen]; auto. destruct (lcmp scmp (map ix_space (t_ket t)) _); cbn [cthen]; auto.
  Qed.
  Lemma is_sorted_ok {A} (lt : A -> A -> bool) l : in_sorted_order lt l -> is_sorted lt l = true.
  Proof.
    induction 1 as [|x l So IH F]; auto. cbn. destruct l as [|y l]; auto. inversion F as [|y0 l0 Y F']; subst. rewrite Y. cbn [negb andb]. exact IH.
  Qed.
End Blocks.
