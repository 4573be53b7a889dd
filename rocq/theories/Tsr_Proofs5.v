(** Canonicalization of one tensor. *)
From Coq Require Import ZArith List Arith Bool Permutation Sorted Lia.
From Verif Require Import Tsr_Model Tsr_Spec Tsr_Proofs1 Tsr_Proofs2 Tsr_Proofs3 Tsr_Proofs4 Alg_Spec Alg_Model Alg_Proofs1 Alg_Proofs2.
Import ListNotations.

(* ---------- what the sorts do to the tensor ---------- *)

Lemma firstn_min_len {A B} (b : list A) (k : list B) : length (firstn (Nat.min (length b) (length k)) b) = length (firstn (Nat.min (length b) (length k)) k).
Proof. rewrite !firstn_length. lia. Qed.

Lemma combine_fst_snd {A B} (l : list (A * B)) : combine (map fst l) (map snd l) = l.
Proof. induction l as [|(x, y) l IH]; cbn; auto. rewrite IH. auto. Qed.

Lemma skipn_min {A B} (b : list A) (k : list B) : let r := Nat.min (length b) (length k) in skipn r b = [] \/ skipn r k = [].
Proof.
  cbv zeta. destruct (Nat.le_ge_cases (length b) (length k)).
  - left. rewrite Nat.min_l by auto. apply skipn_all.
  - right. rewrite Nat.min_r by auto. apply skipn_all.
Qed.

Lemma core_related ic pc t t' sg : canon_core ic pc t = Some (t', sg) -> related t t' sg.
Proof.
  unfold canon_core, related. intros H. destruct (t_col t) eqn:C.
  2: { injection H as <- <-. rewrite C. repeat split; auto. }
  destruct ((length (t_bra t) =? 1) && (length (t_ket t) =? 1)) eqn:R1.
  { injection H as <- <-. do 7 (split; [auto|]). destruct (t_symm t).
    - repeat split; auto.
    - exists 0, 0. repeat split; constructor.
    - apply andb_true_iff in R1. destruct R1 as (A & B). apply Nat.eqb_eq in A, B.
      exists (t_bra t), (t_bra t), [], [], (t_ket t), (t_ket t), [], []. rewrite !app_nil_r. rewrite A, B. repeat split; auto. }
  destruct (t_symm t) eqn:S.
  - destruct (bubble_sort ic (t_bra t)) as [(b, n)|] eqn:B; [|discriminate].
    destruct (bubble_sort ic (t_ket t)) as [(k, m)|] eqn:K; [|discriminate]. injection H as <- <-. cbn.
    do 7 (split; [auto|]). apply bubble_swaps, exchanges_perm in B. apply bubble_swaps, exchanges_perm in K. auto.
  - destruct (bubble_sort ic (t_bra t)) as [(b, n)|] eqn:B; [|discriminate].
    destruct (bubble_sort ic (t_ket t)) as [(k, m)|] eqn:K; [|discriminate]. injection H as <- <-. cbn.
    do 7 (split; [auto|]). apply bubble_swaps in B. apply bubble_swaps in K. eauto.
  - cbv zeta in H. set (r := Nat.min (length (t_bra t)) (length (t_ket t))) in *.
    destruct (bubble_sort pc (combine (firstn r (t_bra t)) (firstn r (t_ket t)))) as [(ps, n)|] eqn:P; [|discriminate].
    apply bubble_swaps, exchanges_perm in P.
    assert (G : exists br kr, Permutation (skipn r (t_bra t)) br /\ Permutation (skipn r (t_ket t)) kr /\
              t' = with_slots t (map fst ps ++ br) (map snd ps ++ kr) /\ sg = false).
    { destruct (r <? length (t_bra t)).
      - destruct (bubble_sort ic (skipn r (t_bra t))) as [(br, m)|] eqn:B; [|discriminate]. injection H as <- <-.
        apply bubble_swaps, exchanges_perm in B. exists br, (skipn r (t_ket t)). auto.
      - destruct (r <? length (t_ket t)).
        + destruct (bubble_sort ic (skipn r (t_ket t))) as [(kr, m)|] eqn:B; [|discriminate]. injection H as <- <-.
          apply bubble_swaps, exchanges_perm in B. exists (skipn r (t_bra t)), kr. auto.
        + injection H as <- <-. exists (skipn r (t_bra t)), (skipn r (t_ket t)). auto. }
    destruct G as (br & kr & Pb & Pk & -> & ->). cbn. do 7 (split; [auto|]).
    exists (firstn r (t_bra t)), (map fst ps), (skipn r (t_bra t)), br, (firstn r (t_ket t)), (map snd ps), (skipn r (t_ket t)), kr.
    rewrite !firstn_skipn, combine_fst_snd, !map_length. do 4 (split; [auto|]).
    split; [apply firstn_min_len|]. split; [auto|].
    pose proof (skipn_min (t_bra t) (t_ket t)) as E. cbv zeta in E. fold r in E. split; auto.
    split; auto. destruct E as [E|E]; [left|right]; [rewrite E in Pb; apply Permutation_nil; auto|rewrite E in Pk; apply Permutation_nil; auto].
Qed.

Lemma columns_combine b : forall k, length b = length k -> columns b k = map (fun p => (slot (fst p), slot (snd p))) (combine b k).
Proof. induction b as [|x b IH]; intros [|y k] L; cbn; try discriminate; auto. f_equal. auto. Qed.
Lemma columns_rest_perm r q r' q' : r = [] \/ q = [] -> r' = [] \/ q' = [] -> Permutation r r' -> Permutation q q' ->
  Permutation (columns r q) (columns r' q').
Proof.
  intros E E' P Q. destruct E as [-> | ->].
  - apply Permutation_nil in P. subst r'. cbn. apply Permutation_map. auto.
  - apply Permutation_nil in Q. subst q'. rewrite !columns_nil_r. apply Permutation_map. auto.
Qed.

Lemma related_value {R} (opp : R -> R) V t u sg : related t u sg ->
  respects opp (t_symm t) V -> V (t_bra t) (t_ket t) = if sg then opp (V (t_bra u) (t_ket u)) else V (t_bra u) (t_ket u).
Proof.
  unfold related, respects. intros (_ & _ & _ & _ & _ & _ & _ & H) HV. destruct (t_col t).
  2: { destruct H as (-> & -> & ->). auto. }
  destruct (t_symm t).
  - destruct H as (B & K & ->). auto.
  - destruct H as (n & m & B & K & ->). auto.
  - destruct H as (b & b' & r & r' & k & k' & q & q' & E1 & E2 & E3 & E4 & L & L' & X & X' & P & Pr & Pq & ->).
    rewrite E1, E2, E3, E4. apply HV. rewrite !columns_app by auto. apply Permutation_app.
    + rewrite !columns_combine by auto. apply Permutation_map. auto.
    + apply columns_rest_perm; auto.
Qed.

(* ---------- mapping a function over the slots ---------- *)

Definition map_slots (f : index -> index) (t : tensor) : tensor :=
  mktensor (t_label t) (map f (t_bra t)) (map f (t_ket t)) (map f (t_aux t)) (t_symm t) (t_bk t) (t_col t) (t_bra_net t) (t_ket_net t).

Lemma exchanges_map {A B} (f : A -> B) k l m : exchanges k l m -> exchanges k (map f l) (map f m).
Proof.
  induction 1 as [l|k a x b y c m H IH]; [constructor|]. rewrite !map_app in *. cbn in *. rewrite !map_app in *. cbn in *.
  constructor. auto.
Qed.
Lemma combine_map {A B C D} (f : A -> C) (g : B -> D) l : forall m, combine (map f l) (map g m) = map (fun p => (f (fst p), g (snd p))) (combine l m).
Proof. induction l as [|x l IH]; intros [|y m]; cbn; auto. f_equal. auto. Qed.

Lemma related_map f t u sg : related t u sg -> related (map_slots f t) (map_slots f u) sg.
Proof.
  unfold related, map_slots. cbn. intros (H1 & H2 & H3 & H4 & H5 & H6 & H7 & H). rewrite H2. do 7 (split; [auto|]).
  destruct (t_col t).
  2: { destruct H as (-> & -> & ->). auto. }
  destruct (t_symm t).
  - destruct H as (B & K & ->). repeat split; apply Permutation_map; auto.
  - destruct H as (n & m & B & K & ->). exists n, m. repeat split; apply exchanges_map; auto.
  - destruct H as (b & b' & r & r' & k & k' & q & q' & E1 & E2 & E3 & E4 & L & L' & X & X' & P & Pr & Pq & ->).
    exists (map f b), (map f b'), (map f r), (map f r'), (map f k), (map f k'), (map f q), (map f q').
    rewrite E1, E2, E3, E4, !map_app, !map_length, !combine_map. do 6 (split; [auto|]).
    split; [destruct X as [-> | ->]; auto|]. split; [destruct X' as [-> | ->]; auto|].
    repeat split; apply Permutation_map; auto.
Qed.

Lemma tag_indices_map ext t : tag_indices ext t = map_slots (tag_index ext) t. Proof. reflexivity. Qed.
Lemma reset_tags_map t : reset_tags t = map_slots untag t. Proof. reflexivity. Qed.
Lemma map_slots_id f t : (forall i, In i (t_bra t ++ t_ket t ++ t_aux t) -> f i = i) -> map_slots f t = t.
Proof.
  intros H. unfold map_slots. 
  assert (G : forall l, (forall i, In i l -> f i = i) -> map f l = l).
  { induction l as [|x l IH]; intros E; cbn; auto. rewrite E, IH; auto; [intros; apply E; right; auto|left; auto]. }
  rewrite !G; [destruct t; auto| | |]; intros i Hi; apply H; rewrite !in_app_iff; auto.
Qed.
Lemma map_slots_map f g t : map_slots f (map_slots g t) = map_slots (fun i => f (g i)) t.
Proof. unfold map_slots. cbn. rewrite !map_map. auto. Qed.
Lemma untag_tag ext i : ix_tag i = None -> untag (tag_index ext i) = i.
Proof. destruct i as [s o t p]. cbn. intros ->. auto. Qed.
Lemma untagged_slots_In t : untagged_slots t = true -> forall i, In i (t_bra t ++ t_ket t ++ t_aux t) -> ix_tag i = None.
Proof.
  unfold untagged_slots. intros H i Hi. rewrite forallb_forall in H. specialize (H i Hi). destruct (ix_tag i); [discriminate|auto].
Qed.
Lemma reset_tag ext t : untagged_slots t = true -> reset_tags (tag_indices ext t) = t.
Proof.
  intros H. rewrite tag_indices_map, reset_tags_map, map_slots_map. apply map_slots_id. intros i Hi. apply untag_tag.
  eapply untagged_slots_In; eauto.
Qed.

Lemma default_related ext t t' sg : default_apply ext t = Some (t', sg) -> related t t' sg.
Proof.
  unfold default_apply. intros H. destruct (untagged_slots t) eqn:U; [|discriminate]. cbn [negb] in H.
  destruct (canon_core tensor_less tensor_less_pair (tag_indices ext t)) as [(u, s)|] eqn:E; [|discriminate].
  injection H as <- <-. apply core_related in E; auto. apply (related_map untag) in E. rewrite <- !reset_tags_map in E.
  rewrite reset_tag in E; auto.
Qed.

(* ---------- sorting by an injective key ---------- *)

Section Sorting.
  Context {A B : Type} (c : B -> B -> comparison) (f : A -> B) (C : TO c).
  Notation lt := (key_less c f).

  Lemma key_not_less x y : lt x y = false -> f y = f x \/ lt y x = true.
  Proof.
    destruct C as (E & S & _). unfold key_less. rewrite (S (f x) (f y)).
    destruct (c (f x) (f y)) eqn:X; cbn; auto; try discriminate. apply E in X. auto.
  Qed.

  (** two sorted rearrangements of each other have the same keys *)
  Lemma sorted_unique l : forall m, Permutation l m -> in_sorted_order lt l -> in_sorted_order lt m -> map f l = map f m.
  Proof.
    induction l as [|x l IH]; intros m P S1 S2.
    - apply Permutation_nil in P. subst. auto.
    - destruct m as [|y m]; [apply Permutation_sym, Permutation_nil in P; discriminate|].
      inversion S1 as [|? ? S1' F1]; subst. inversion S2 as [|? ? S2' F2]; subst.
      rewrite Forall_forall in F1, F2.
      assert (E : f x = f y).
      { assert (Hy : In y (x :: l)) by (eapply Permutation_in; [apply Permutation_sym; exact P|left; auto]).
        assert (Hx : In x (y :: m)) by (eapply Permutation_in; [exact P|left; auto]).
        destruct Hy as [<-|Hy]; auto. destruct Hx as [<-|Hx]; auto.
        specialize (F1 _ Hy). specialize (F2 _ Hx). cbn in F1, F2.
        destruct (key_not_less _ _ F1) as [E|E]; auto. congruence. }
      cbn. f_equal; auto.
      (* remove an element with the same key from both sides *)
      assert (M : Permutation (map f (x :: l)) (map f (y :: m))) by (apply Permutation_map; auto).
      cbn in M. rewrite E in M. apply Permutation_cons_inv in M.
      clear IH P S1 S2 F1 F2 E. revert m S2' M. induction l as [|u l IHl]; intros m S2' M.
      + cbn in M. apply Permutation_nil in M. destruct m; [auto|discriminate].
      + destruct m as [|v m]; [apply Permutation_sym, Permutation_nil in M; discriminate|].
        inversion S1' as [|? ? S1'' F1]; subst. inversion S2' as [|? ? S2'' F2]; subst.
        rewrite Forall_forall in F1, F2.
        assert (E : f u = f v).
        { assert (Hv : In (f v) (map f (u :: l))) by (eapply Permutation_in; [apply Permutation_sym; exact M|left; auto]).
          assert (Hu : In (f u) (map f (v :: m))) by (eapply Permutation_in; [exact M|left; auto]).
          destruct Hv as [Hv|Hv]; auto. destruct Hu as [Hu|Hu]; auto.
          apply in_map_iff in Hv. destruct Hv as (v' & Ev & Hv). apply in_map_iff in Hu. destruct Hu as (u' & Eu & Hu).
          specialize (F1 _ Hv). specialize (F2 _ Hu). cbn in F1, F2. unfold key_less in F1, F2. rewrite Ev in F1. rewrite Eu in F2.
          assert (G1 : lt v u = false) by exact F1. assert (G2 : lt u v = false) by exact F2.
          destruct (key_not_less _ _ G1) as [G|G]; auto. congruence. }
        cbn. cbn in M. rewrite E in M. apply Permutation_cons_inv in M. f_equal; auto.
  Qed.

  Lemma key_bubble l : exists r, bubble_sort lt l = Some (r, inversions lt l) /\ Permutation l r /\ in_sorted_order lt r.
  Proof. destruct (bubble_ok lt (key_sw c f C) l) as (r & E & P & S & _). eauto. Qed.

  Lemma key_bubble_same l m : Permutation l m ->
    exists r r', bubble_sort lt l = Some (r, inversions lt l) /\ bubble_sort lt m = Some (r', inversions lt m) /\ map f r = map f r'.
  Proof.
    intros P. destruct (key_bubble l) as (r & E & P1 & S1). destruct (key_bubble m) as (r' & E' & P2 & S2).
    exists r, r'. split; auto. split; auto. apply sorted_unique; auto.
    eapply perm_trans; [apply Permutation_sym; exact P1|]. eapply perm_trans; [exact P|exact P2].
  Qed.

  Hypothesis INJ : forall x y, f x = f y -> x = y.
  Lemma map_inj l : forall m, map f l = map f m -> l = m.
  Proof. induction l as [|x l IH]; intros [|y m]; cbn; intros H; try discriminate; auto. injection H as H1 H2. f_equal; auto. Qed.

  Lemma key_total l : total_on lt l.
  Proof.
    destruct (key_strict_weak c f C) as (I & T & _ & E). split; [|split].
    - intros x. apply I. exact Logic.I.
    - intros x y z. apply T; exact Logic.I.
    - intros x y _ _. destruct (lt x y) eqn:L1; auto. destruct (lt y x) eqn:L2; auto. left. apply INJ. apply E; auto.
  Qed.

  Lemma key_parity k l m : NoDup l -> exchanges k l m -> Nat.odd (inversions lt m) = xorb (Nat.odd k) (Nat.odd (inversions lt l)).
  Proof. intros N E. destruct (key_total l) as (irr & tr & tri). rewrite xorb_comm. apply (exchanges_sign lt irr tr k l m E N tri). Qed.
End Sorting.

(* ---------- related tensors are sorted into the same form ---------- *)

Lemma firstn_split_pairs (b r k q : list index) : length b = length k -> r = [] \/ q = [] ->
  let n := Nat.min (length (b ++ r)) (length (k ++ q)) in
  firstn n (b ++ r) = b /\ firstn n (k ++ q) = k /\ skipn n (b ++ r) = r /\ skipn n (k ++ q) = q.
Proof.
  intros L E. cbv zeta. assert (N : Nat.min (length (b ++ r)) (length (k ++ q)) = length b).
  { rewrite !app_length. destruct E as [-> | ->]; cbn; lia. }
  rewrite N. rewrite !firstn_app, !skipn_app, <- L, !Nat.sub_diag. cbn. rewrite firstn_all, skipn_all.
  rewrite L, firstn_all, skipn_all. cbn. rewrite !app_nil_r. auto.
Qed.

Section Same.
  Context {B1 B2 : Type} (c1 : B1 -> B1 -> comparison) (f1 : index -> B1) (C1 : TO c1).
  Context (c2 : B2 -> B2 -> comparison) (f2 : index * index -> B2) (C2 : TO c2).
  Context (ic : index -> index -> bool) (pc : index * index -> index * index -> bool).
  Hypothesis F : forall p q, f2 p = f2 q -> f1 (fst p) = f1 (fst q) /\ f1 (snd p) = f1 (snd q).

  Definition agree (t : tensor) : Prop :=
    (forall x y, In x (t_bra t) -> In y (t_bra t) -> ic x y = key_less c1 f1 x y) /\
    (forall x y, In x (t_ket t) -> In y (t_ket t) -> ic x y = key_less c1 f1 x y) /\
    (forall p q, In (fst p) (t_bra t) -> In (snd p) (t_ket t) -> In (fst q) (t_bra t) -> In (snd q) (t_ket t) ->
       pc p q = key_less c2 f2 p q).

  Lemma pairs_of_keys l m : map f2 l = map f2 m -> map f1 (map fst l) = map f1 (map fst m) /\ map f1 (map snd l) = map f1 (map snd m).
  Proof.
    revert m. induction l as [|x l IH]; intros [|y m] H; cbn in *; try discriminate; auto.
    injection H as H1 H2. destruct (F _ _ H1). destruct (IH _ H2). split; f_equal; auto.
  Qed.

  Lemma In_skipn {A} n : forall (l : list A) x, In x (skipn n l) -> In x l.
  Proof. induction n as [|n IH]; intros [|y l] x; cbn; auto. Qed.
  Lemma In_firstn {A} n : forall (l : list A) x, In x (firstn n l) -> In x l.
  Proof. induction n as [|n IH]; intros [|y l] x; cbn; auto; try tauto. intros [H|H]; auto. Qed.

  Definition rest_eq (t u : tensor) : Prop := t_label t = t_label u /\ t_aux t = t_aux u /\ t_symm t = t_symm u /\
    t_bk t = t_bk u /\ t_col t = t_col u /\ t_bra_net t = t_bra_net u /\ t_ket_net t = t_ket_net u.

  (** the canonical form of a tensor, with its sign, in terms of sorted lists *)
  Definition form (t t1 : tensor) (s : bool) : Prop := rest_eq t t1 /\
    match t_col t with
    | ColNonsymm => t1 = t /\ s = false
    | ColSymm =>
        match t_symm t with
        | Nonsymm => s = false /\ exists ps br kr,
            let r := Nat.min (length (t_bra t)) (length (t_ket t)) in
            t_bra t1 = map fst ps ++ br /\ t_ket t1 = map snd ps ++ kr /\
            Permutation (combine (firstn r (t_bra t)) (firstn r (t_ket t))) ps /\ in_sorted_order (key_less c2 f2) ps /\
            Permutation (skipn r (t_bra t)) br /\ in_sorted_order (key_less c1 f1) br /\
            Permutation (skipn r (t_ket t)) kr /\ in_sorted_order (key_less c1 f1) kr
        | y => Permutation (t_bra t) (t_bra t1) /\ in_sorted_order (key_less c1 f1) (t_bra t1) /\
               Permutation (t_ket t) (t_ket t1) /\ in_sorted_order (key_less c1 f1) (t_ket t1) /\
               s = is_antisymm y && Nat.odd (inversions (key_less c1 f1) (t_bra t) + inversions (key_less c1 f1) (t_ket t))
        end
    end.

  Lemma sorted_short {A} (lt : A -> A -> bool) l : length l <= 1 -> in_sorted_order lt l.
  Proof. destruct l as [|x [|y l]]; cbn; intros; try lia; repeat constructor. Qed.

  Lemma core_form t : agree t -> exists t1 s, canon_core ic pc t = Some (t1, s) /\ form t t1 s.
  Proof.
    intros (Ab & Ak & Ap). unfold canon_core, form. destruct (t_col t) eqn:C.
    2: { exists t, false. repeat split; auto. }
    destruct ((length (t_bra t) =? 1) && (length (t_ket t) =? 1)) eqn:R1.
    { apply andb_true_iff in R1. destruct R1 as (A & B). apply Nat.eqb_eq in A, B.
      exists t, false. split; auto. split; [repeat split; auto|].
      destruct (t_bra t) as [|b [|? ?]] eqn:Eb; try discriminate. destruct (t_ket t) as [|k [|? ?]] eqn:Ek; try discriminate.
      destruct (t_symm t).
      - repeat split; auto; apply sorted_short; auto.
      - repeat split; auto; try (apply sorted_short; auto).
      - split; auto. exists [(b, k)], [], []. cbn. repeat split; auto; repeat constructor. }
    assert (S1 : forall l, (forall x y, In x l -> In y l -> ic x y = key_less c1 f1 x y) ->
              exists r, bubble_sort ic l = Some (r, inversions (key_less c1 f1) l) /\ Permutation l r /\ in_sorted_order (key_less c1 f1) r).
    { intros l H. rewrite (bubble_ext ic (key_less c1 f1)); auto. apply key_bubble; auto. }
    destruct (t_symm t) eqn:Sy.
    - destruct (S1 _ Ab) as (b & Eb & Pb & Sb). destruct (S1 _ Ak) as (k & Ek & Pk & Sk). rewrite Eb, Ek.
      eexists _, _. split; [reflexivity|]. cbn. repeat split; auto.
    - destruct (S1 _ Ab) as (b & Eb & Pb & Sb). destruct (S1 _ Ak) as (k & Ek & Pk & Sk). rewrite Eb, Ek.
      eexists _, _. split; [reflexivity|]. cbn. repeat split; auto.
    - cbv zeta. set (r := Nat.min (length (t_bra t)) (length (t_ket t))).
      rewrite (bubble_ext pc (key_less c2 f2)).
      2: { intros p q Hp Hq. destruct p as (x, y), q as (z, w). apply Ap; cbn;
           eapply In_firstn; try (eapply in_combine_l; eassumption); try (eapply in_combine_r; eassumption). }
      destruct (key_bubble c2 f2 C2 (combine (firstn r (t_bra t)) (firstn r (t_ket t)))) as (ps & -> & Pp & Sp).
      destruct (S1 (skipn r (t_bra t))) as (br & Eb & Pb & Sb).
      { intros x y X Y. apply Ab; eapply In_skipn; eauto. }
      destruct (S1 (skipn r (t_ket t))) as (kr & Ek & Pk & Sk).
      { intros x y X Y. apply Ak; eapply In_skipn; eauto. }
      rewrite Eb, Ek.
      assert (Lb : length (skipn r (t_bra t)) = length (t_bra t) - r) by apply skipn_length.
      assert (Lk : length (skipn r (t_ket t)) = length (t_ket t) - r) by apply skipn_length.
      destruct (r <? length (t_bra t)) eqn:X.
      + apply Nat.ltb_lt in X. eexists _, _. split; [reflexivity|]. cbn. split; [repeat split; auto|]. split; auto.
        exists ps, br, (skipn r (t_ket t)). repeat split; auto. apply sorted_short. lia.
      + apply Nat.ltb_ge in X. destruct (r <? length (t_ket t)) eqn:Y.
        * apply Nat.ltb_lt in Y. eexists _, _. split; [reflexivity|]. cbn. split; [repeat split; auto|]. split; auto.
          exists ps, (skipn r (t_bra t)), kr. repeat split; auto. apply sorted_short. lia.
        * apply Nat.ltb_ge in Y. eexists _, _. split; [reflexivity|]. cbn. split; [repeat split; auto|]. split; auto.
          exists ps, (skipn r (t_bra t)), (skipn r (t_ket t)). repeat split; auto; apply sorted_short; lia.
  Qed.

  Lemma sort_same {A B} (c : B -> B -> comparison) (f : A -> B) l m l' m' : TO c -> Permutation l m ->
    Permutation l l' -> in_sorted_order (key_less c f) l' -> Permutation m m' -> in_sorted_order (key_less c f) m' -> map f l' = map f m'.
  Proof.
    intros C P P1 S1 P2 S2. apply (sorted_unique c f C); auto.
    eapply perm_trans; [apply Permutation_sym; exact P1|]. eapply perm_trans; [exact P|exact P2].
  Qed.

  Lemma form_same t u sg t1 u1 s1 s2 : related t u sg -> form t t1 s1 -> form u u1 s2 ->
    rest_eq t1 u1 /\ map f1 (t_bra t1) = map f1 (t_bra u1) /\ map f1 (t_ket t1) = map f1 (t_ket u1).
  Proof.
    unfold related, form, rest_eq. intros (H1 & H2 & H3 & H4 & H5 & H6 & H7 & H) (T & FT) (U & FU).
    rewrite <- H5, <- H3 in FU.
    split. { decompose [and] T. decompose [and] U. repeat split; congruence. }
    destruct (t_col t).
    2: { destruct FT as (-> & _), FU as (-> & _), H as (-> & -> & _). auto. }
    destruct (t_symm t).
    - destruct FT as (A & B & C & D & _), FU as (A' & B' & C' & D' & _), H as (P & Q & _).
      split; [apply (sort_same c1 f1 _ _ _ _ C1 P A B A' B')|apply (sort_same c1 f1 _ _ _ _ C1 Q C D C' D')].
    - destruct FT as (A & B & C & D & _), FU as (A' & B' & C' & D' & _), H as (n & m & P & Q & _).
      apply exchanges_perm in P, Q. split; [apply (sort_same c1 f1 _ _ _ _ C1 P A B A' B')|apply (sort_same c1 f1 _ _ _ _ C1 Q C D C' D')].
    - destruct H as (b & b' & r & r' & k & k' & q & q' & E1 & E2 & E3 & E4 & L & L' & X & X' & P & Pr & Pq & _).
      destruct FT as (_ & ps & br & kr & FT), FU as (_ & ps' & br' & kr' & FU). cbv zeta in FT, FU.
      rewrite E1, E2 in FT. rewrite E3, E4 in FU.
      destruct (firstn_split_pairs b r k q L X) as (G1 & G2 & G3 & G4).
      destruct (firstn_split_pairs b' r' k' q' L' X') as (G1' & G2' & G3' & G4').
      rewrite G1, G2, G3, G4 in FT. rewrite G1', G2', G3', G4' in FU.
      destruct FT as (-> & -> & A & B & C & D & E & G), FU as (-> & -> & A' & B' & C' & D' & E' & G').
      pose proof (sort_same c2 f2 _ _ _ _ C2 P A B A' B') as K.
      pose proof (sort_same c1 f1 _ _ _ _ C1 Pr C D C' D') as Kb.
      pose proof (sort_same c1 f1 _ _ _ _ C1 Pq E G E' G') as Kk.
      apply pairs_of_keys in K. destruct K as (K1 & K2). rewrite !map_app. split; congruence.
  Qed.

  Hypothesis INJ : forall x y, f1 x = f1 y -> x = y.
  Lemma form_sign t u sg t1 u1 s1 s2 : related t u sg -> form t t1 s1 -> form u u1 s2 ->
    (t_symm t = Antisymm -> NoDup (t_bra t) /\ NoDup (t_ket t)) -> s2 = xorb s1 sg.
  Proof.
    unfold related, form. intros (H1 & H2 & H3 & H4 & H5 & H6 & H7 & H) (T & FT) (U & FU) N.
    rewrite <- H5, <- H3 in FU. destruct (t_col t).
    2: { destruct FT as (_ & ->), FU as (_ & ->), H as (_ & _ & ->). auto. }
    destruct (t_symm t).
    - destruct FT as (_ & _ & _ & _ & ->), FU as (_ & _ & _ & _ & ->), H as (_ & _ & ->). auto.
    - destruct FT as (_ & _ & _ & _ & ->), FU as (_ & _ & _ & _ & ->), H as (n & m & P & Q & ->). destruct (N eq_refl) as (Nb & Nk). cbn [is_antisymm andb].
      rewrite !Nat.odd_add. rewrite (key_parity c1 f1 C1 INJ n (t_bra t) (t_bra u)), (key_parity c1 f1 C1 INJ m (t_ket t) (t_ket u)); auto.
      destruct (Nat.odd n), (Nat.odd m), (Nat.odd (inversions (key_less c1 f1) (t_bra t))), (Nat.odd (inversions (key_less c1 f1) (t_ket t))); auto.
    - destruct FT as (-> & _), FU as (-> & _). decompose [ex and] H. subst. auto.
  Qed.

  Lemma form_equal t u sg t1 u1 s1 s2 : related t u sg -> form t t1 s1 -> form u u1 s2 -> t1 = u1.
  Proof.
    intros R A B. destruct (form_same _ _ _ _ _ _ _ R A B) as (E & Eb & Ek).
    assert (M : forall l m, map f1 l = map f1 m -> l = m) by (intros; apply (map_inj f1 INJ); auto).
    apply M in Eb, Ek. destruct t1, u1. unfold rest_eq in E. cbn in *. decompose [and] E. congruence.
  Qed.
End Same.
