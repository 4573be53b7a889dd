(** Values of products; renaming of indices; the permutation operators. *)
From Coq Require Import ZArith QArith Qcanon List Arith Bool Permutation Sorted Factorial Lia Ring.
From Verif Require Import Alg_Model Alg_Spec Alg_Proofs1 Alg_Proofs2 Spn_Model Spn_Spec Spn_Proofs1 Spn_Proofs2.
Import ListNotations.
Local Open Scope nat_scope.

Lemma spin_eqb_eq s t : spin_eqb s t = true <-> s = t.
Proof. destruct s, t; cbn; split; intros; congruence. Qed.
Lemma index_eqb_eq i j : index_eqb i j = true <-> i = j.
Proof.
  unfold index_eqb. rewrite andb_true_iff, Nat.eqb_eq, spin_eqb_eq. destruct i, j; cbn. split; [intros (-> & ->); auto|intros E; injection E; auto].
Qed.
Lemma index_eqb_refl i : index_eqb i i = true. Proof. apply index_eqb_eq. auto. Qed.
Lemma index_eqb_neq i j : i <> j -> index_eqb i j = false.
Proof. intros H. destruct (index_eqb i j) eqn:E; auto. apply index_eqb_eq in E. contradiction. Qed.

Lemma NoDup_parts {X} (l m : list X) : NoDup (l ++ m) -> NoDup l /\ NoDup m /\ (forall x, In x l -> ~ In x m).
Proof.
  induction l as [|x l IH]; cbn; intros N; [repeat split; auto; constructor|].
  inversion N as [|? ? N1 N2]; subst. destruct (IH N2) as (H1 & H2 & H3). rewrite in_app_iff in N1.
  split; [constructor; tauto|]. split; auto. intros y [<-|Hy]; auto.
Qed.

(** ** Maps *)
Lemma lookup_image b q i : lookup (combine b q) i = image b q i.
Proof.
  unfold image. generalize (combine b q). intros m. induction m as [|(k & v) m IH]; cbn; auto.
  destruct (index_eqb i k) eqn:E.
  - apply index_eqb_eq in E. subst. rewrite index_eqb_refl. reflexivity.
  - rewrite index_eqb_neq; auto. intros ->. rewrite index_eqb_refl in E. discriminate.
Qed.
Lemma lookup_In m : NoDup (map fst m) -> forall k v, In (k, v) m -> lookup m k = v.
Proof.
  induction m as [|(k' & v') m IH]; intros N k v H; [destruct H|]. cbn in N. inversion N as [|? ? N1 N2]; subst. cbn.
  destruct H as [E|H].
  - injection E as -> ->. rewrite index_eqb_refl. reflexivity.
  - rewrite index_eqb_neq; [apply IH; auto|]. intros ->. apply N1. apply in_map_iff. exists (k', v). auto.
Qed.
Lemma lookup_notin m k : ~ In k (map fst m) -> lookup m k = k.
Proof.
  induction m as [|(k' & v') m IH]; intros H; auto. cbn in *. rewrite index_eqb_neq; [apply IH; tauto|]. intros ->. tauto.
Qed.
Lemma lookup_perm m m' i : NoDup (map fst m) -> Permutation m m' -> lookup m i = lookup m' i.
Proof.
  intros N P. assert (N' : NoDup (map fst m')) by (eapply Permutation_NoDup; [apply Permutation_map; exact P|auto]).
  destruct (in_dec (fun x y => ltac:(destruct (index_eqb x y) eqn:E; [left; apply index_eqb_eq; auto|right; intros ->; rewrite index_eqb_refl in E; discriminate]) : {x = y} + {x <> y}) i (map fst m)) as [H|H].
  - apply in_map_iff in H. destruct H as ((k & v) & E & H). cbn in E. subst k.
    rewrite (lookup_In m N _ _ H). symmetry. apply lookup_In; auto. eapply Permutation_in; eauto.
  - rewrite !lookup_notin; auto. intros H'. apply H. eapply Permutation_in; [apply Permutation_sym, Permutation_map; exact P|auto].
Qed.

Lemma exchanges_map {X Y} (f : X -> Y) k l m : exchanges k l m -> exchanges k (map f l) (map f m).
Proof.
  induction 1 as [|k a x b y c m E IH]; [constructor|]. rewrite !map_app in *. cbn [map] in *. rewrite !map_app in *. cbn [map] in *.
  apply ex_swap. auto.
Qed.

Section Order.
  Variable lt : index -> index -> bool.
  Hypothesis TO : total_order lt.

  Lemma map_emplace_ok k v m : ~ In k (map fst m) -> in_sorted_order lt (map fst m) ->
    Permutation ((k, v) :: m) (map_emplace lt k v m) /\ in_sorted_order lt (map fst (map_emplace lt k v m)).
  Proof.
    destruct TO as (irr & tr & tri).
    induction m as [|(k' & v') m IH]; intros N S; cbn [map_emplace].
    - split; auto. repeat constructor.
    - cbn in N, S. inversion S as [|? ? S1 S2]; subst. rewrite Forall_forall in S2.
      destruct (lt k k') eqn:E1.
      + split; auto. cbn. constructor; auto. apply Forall_forall. intros y [<-|H]; [apply (lt_asym lt TO); auto|].
        destruct (lt y k) eqn:E; auto. rewrite <- (S2 y H). symmetry. eapply tr; eauto.
      + destruct (lt k' k) eqn:E2; [|destruct (tri k k') as [->|[H|H]]; [tauto|congruence..]].
        destruct (IH ltac:(tauto) S1) as (P & S'). split.
        * eapply Permutation_trans; [apply perm_swap|]. apply perm_skip. auto.
        * cbn. constructor; auto. apply Forall_forall. intros y H.
          assert (H' : In y (map fst ((k, v) :: m))) by (eapply Permutation_in; [apply Permutation_sym, Permutation_map; exact P|auto]).
          cbn in H'. destruct H' as [<-|H']; [apply (lt_asym lt TO); auto|auto].
  Qed.
  Lemma map_of_fold kvs : forall m, NoDup (map fst kvs ++ map fst m) -> in_sorted_order lt (map fst m) ->
    let r := fold_left (fun m kv => map_emplace lt (fst kv) (snd kv) m) kvs m in
    Permutation (kvs ++ m) r /\ in_sorted_order lt (map fst r).
  Proof.
    induction kvs as [|(k & v) kvs IH]; intros m N S; cbn [fold_left].
    - cbn. auto.
    - cbn [map app fst] in N. inversion N as [|? ? N1 N2]; subst. rewrite in_app_iff in N1.
      destruct (map_emplace_ok k v m ltac:(tauto) S) as (P & S'). cbn [fst snd].
      destruct (IH (map_emplace lt k v m)) as (P2 & S2); auto.
      { apply (Permutation_NoDup (l := k :: map fst kvs ++ map fst m)); [|constructor; auto; rewrite in_app_iff; auto].
        eapply Permutation_trans; [apply Permutation_middle|]. apply Permutation_app_head.
        apply (Permutation_map fst) in P. exact P. }
      split; auto. eapply Permutation_trans; [|exact P2].
      cbn [app]. eapply Permutation_trans; [apply Permutation_middle|]. apply Permutation_app_head. exact P.
  Qed.
  Lemma map_of_ok kvs : NoDup (map fst kvs) -> Permutation kvs (map_of lt kvs) /\ in_sorted_order lt (map fst (map_of lt kvs)).
  Proof.
    intros N. destruct (map_of_fold kvs []) as (P & S); [cbn; rewrite app_nil_r; auto|constructor|].
    rewrite app_nil_r in P. auto.
  Qed.
  Lemma lookup_map_of kvs i : NoDup (map fst kvs) -> lookup (map_of lt kvs) i = lookup kvs i.
  Proof. intros N. symmetry. apply lookup_perm; auto. apply map_of_ok; auto. Qed.

  (** The phase of a replacement map is the sign of the permutation. *)
  Lemma map_phase_ok keys vals : NoDup keys -> Permutation keys vals ->
    map_phase lt (map_of lt (combine keys vals)) = Some (xorb (Nat.odd (inversions lt keys)) (Nat.odd (inversions lt vals))).
  Proof.
    intros N P. unfold map_phase. rewrite (sort_parity_ok lt TO). f_equal.
    assert (L : length keys = length vals) by (apply Permutation_length; auto).
    destruct (map_of_ok (combine keys vals)) as (Pm & Sm); [rewrite combine_fst; auto|].
    destruct (perm_exchanges _ _ Pm) as (j & E).
    pose proof (exchanges_map fst _ _ _ E) as E1. pose proof (exchanges_map snd _ _ _ E) as E2.
    rewrite combine_fst in E1 by auto. rewrite combine_snd in E2 by auto.
    destruct TO as (irr & tr & tri).
    assert (Nv : NoDup vals) by (eapply Permutation_NoDup; eauto).
    pose proof (exchanges_sign lt irr tr j _ _ E1 N (fun x y _ _ => tri x y)) as G1.
    pose proof (exchanges_sign lt irr tr j _ _ E2 Nv (fun x y _ _ => tri x y)) as G2.
    rewrite (sorted_inversions lt (map fst _) Sm) in G1. cbn in G1. rewrite G2.
    revert G1. destruct (Nat.odd (inversions lt keys)), (Nat.odd j), (Nat.odd (inversions lt vals)); cbn; congruence.
  Qed.

  Definition sg (l m : list index) : bool := xorb (Nat.odd (inversions lt l)) (Nat.odd (inversions lt m)).
  Lemma sg_exchanges k l m : NoDup l -> exchanges k l m -> sg l m = Nat.odd k.
  Proof.
    intros N E. destruct TO as (irr & tr & tri). unfold sg.
    rewrite (exchanges_sign lt irr tr k _ _ E N (fun x y _ _ => tri x y)).
    destruct (Nat.odd (inversions lt l)), (Nat.odd k); reflexivity.
  Qed.
  Lemma sg_app b q k r : NoDup (b ++ k) -> Permutation b q -> Permutation k r -> sg (b ++ k) (q ++ r) = xorb (sg b q) (sg k r).
  Proof.
    intros N P1 P2. destruct (perm_exchanges _ _ P1) as (i & E1). destruct (perm_exchanges _ _ P2) as (j & E2).
    rewrite (sg_exchanges (i + j)); auto.
    - rewrite Nat.odd_add. rewrite (sg_exchanges i), (sg_exchanges j); auto.
      + apply NoDup_parts in N. tauto.
      + apply NoDup_parts in N. tauto.
    - eapply exchanges_trans.
      + exact (exchanges_ctx _ _ _ [] k E1).
      + pose proof (exchanges_ctx _ _ _ q [] E2) as E. rewrite !app_nil_r in E. exact E.
  Qed.

  Lemma signed_perms_sg l s q : NoDup l -> In (s, q) (signed_perms l) -> s = sg l q /\ Permutation l q.
  Proof.
    intros N H. destruct (signed_perms_exchanges l s q H) as (k & E & ->). split; [symmetry; apply sg_exchanges; auto|eapply exchanges_perm; eauto].
  Qed.

  Section S.
    Context {K : qalg}.
    Local Open Scope q_scope.
    Add Ring Kring4 : (qring K).
    Lemma signed_sum_gen l Q (G : bool -> list index -> K) : NoDup l -> all_perms_of l Q ->
      sum (fun sq : bool * list index => G (fst sq) (snd sq)) (signed_perms l) = sum (fun q => G (sg l q) q) Q.
    Proof.
      intros N (NQ & HQ). rewrite (sum_perm _ Q (map snd (signed_perms l))).
      - rewrite sum_map. apply sum_ext. intros (s & q) H. cbn [fst snd]. destruct (signed_perms_sg l s q N H) as (-> & _). reflexivity.
      - apply NoDup_Permutation; auto; [apply signed_perms_NoDup; auto|].
        intros q. rewrite HQ. split; [apply signed_perms_complete|].
        intros H. apply in_map_iff in H. destruct H as ((s & q') & <- & H). apply (signed_perms_sg l s q' N H).
    Qed.
    Lemma signed_sum_base l m (F : list index -> K) : NoDup l -> Permutation l m ->
      sum (fun sq : bool * list index => sgn (fst sq) * F (snd sq)) (signed_perms m)
      = sgn (sg l m) * sum (fun sq : bool * list index => sgn (fst sq) * F (snd sq)) (signed_perms l).
    Proof.
      intros N P. assert (Nm : NoDup m) by (eapply Permutation_NoDup; eauto).
      set (Q := map snd (signed_perms l)).
      assert (HQ : all_perms_of l Q).
      { split; [apply signed_perms_NoDup; auto|]. intros q. split; [|apply signed_perms_complete].
        intros H. apply in_map_iff in H. destruct H as ((s & q') & <- & H). apply (signed_perms_sg l s q' N H). }
      assert (HQ' : all_perms_of m Q).
      { destruct HQ as (H1 & H2). split; auto. intros q. rewrite H2. split; intros H.
        - eapply Permutation_trans; [apply Permutation_sym; exact P|auto].
        - eapply Permutation_trans; eauto. }
      rewrite (signed_sum_any lt m Q F (TO_on lt TO m) Nm HQ'), (signed_sum_any lt l Q F (TO_on lt TO l) N HQ).
      unfold sg. rewrite sgn_xorb.
      pose proof (sgn_sq (K:=K) (Nat.odd (inversions lt l))) as Sq.
      set (S0 := sum _ Q). transitivity ((sgn (Nat.odd (inversions lt l)) * sgn (Nat.odd (inversions lt l))) * (sgn (Nat.odd (inversions lt m)) * S0) : K); [rewrite Sq; ring|ring].
    Qed.
  End S.
End Order.

(** ** Picking positions *)
Definition pickg {X} (d : X) (l : list X) (ps : list nat) : list X := map (fun p => nth p l d) ps.
Lemma pickg_seq {X} (d : X) l : pickg d l (seq 0 (length l)) = l.
Proof.
  unfold pickg. apply nth_ext with (d := d) (d' := d); [rewrite map_length, seq_length; auto|].
  intros n H. rewrite map_length, seq_length in H. rewrite (nth_indep _ d (nth 0 l d)) by (rewrite map_length, seq_length; auto).
  rewrite (map_nth (fun p => nth p l d) (seq 0 (length l)) 0 n), seq_nth by auto. reflexivity.
Qed.
Lemma pickg_perms {X} (d : X) l Q : NoDup l -> all_perms_of (seq 0 (length l)) Q -> all_perms_of l (map (pickg d l) Q).
Proof.
  intros N (NQ & HQ).
  assert (Hin : forall ps, In ps Q -> forall p, In p ps -> p < length l).
  { intros ps H p Hp. apply HQ in H. apply Permutation_sym in H. eapply Permutation_in in Hp; [|exact H]. apply in_seq in Hp. lia. }
  split.
  - clear HQ. induction NQ as [|ps Q Hps NQ IH]; cbn; constructor; [|apply IH; intros; eapply Hin; [right|]; eauto].
    intros H. apply in_map_iff in H. destruct H as (rs & E & Hr).
    assert (ps = rs); [|subst; auto].
    assert (Hi1 : forall p, In p ps -> p < length l) by (apply Hin; left; auto).
    assert (Hi2 : forall p, In p rs -> p < length l) by (apply Hin; right; auto).
    clear - E N Hi1 Hi2. revert rs E Hi2. induction ps as [|p ps IH]; intros [|r rs] E Hi2; cbn in E; try discriminate; auto.
    injection E as E1 E2. f_equal.
    + rewrite (NoDup_nth l d) in N. symmetry. apply N; auto; [apply Hi2|apply Hi1]; left; auto.
    + apply IH; auto; intros; [apply Hi1|apply Hi2]; right; auto.
  - intros q. rewrite in_map_iff. split.
    + intros (ps & <- & H). apply HQ in H. rewrite <- (pickg_seq d l) at 1. unfold pickg. apply Permutation_map. auto.
    + intros P. rewrite <- (pickg_seq d l) in P. unfold pickg in P.
      apply Permutation_sym in P. apply Permutation_map_inv in P. destruct P as (ps & -> & P).
      exists ps. split; [reflexivity|]. apply HQ. auto.
Qed.

Section Product.
  Context {K : qalg} {V : Type}.
  Local Open Scope q_scope.
  Add Ring Kring5 : (qring K).
  Variable T : nat -> list V -> list V -> list V -> K.
  Variable vars : nat -> K.
  Notation PV := (product_value T vars).

  Lemma tensor_value_ext n t (a a' : index -> V) : (forall i, In i (t_bra t ++ t_ket t ++ t_aux t) -> a i = a' i) -> tensor_value T n t a = tensor_value T n t a'.
  Proof.
    intros H. unfold tensor_value.
    assert (E1 : map a (t_bra t) = map a' (t_bra t)) by (apply map_ext_in; intros; apply H; rewrite !in_app_iff; auto).
    assert (E2 : map a (t_ket t) = map a' (t_ket t)) by (apply map_ext_in; intros; apply H; rewrite !in_app_iff; auto).
    assert (E3 : map a (t_aux t) = map a' (t_aux t)) by (apply map_ext_in; intros; apply H; rewrite !in_app_iff; auto).
    rewrite E1, E2, E3. reflexivity.
  Qed.
  Lemma factor_value_ext x (a a' : index -> V) : (forall i, a i = a' i) -> factor_value T vars x a = factor_value T vars x a'.
  Proof. intros H. destruct x as [t|v]; cbn; auto. destruct (t_label t); auto. apply tensor_value_ext. auto. Qed.
  Lemma PV_ext fs (a a' : index -> V) : (forall i, a i = a' i) -> PV fs a = PV fs a'.
  Proof. intros H. apply prod_ext. intros. apply factor_value_ext. auto. Qed.

  Lemma factor_value_rename f x (a : index -> V) : factor_value T vars (rename_factor f x) a = factor_value T vars x (fun i => a (f i)).
  Proof.
    destruct x as [t|v]; cbn; auto. destruct (t_label t); auto. unfold tensor_value. cbn. rewrite !map_map. reflexivity.
  Qed.
  Lemma PV_rename f fs (a : index -> V) : PV (map (rename_factor f) fs) a = PV fs (fun i => a (f i)).
  Proof. unfold product_value. rewrite prod_map. apply prod_ext. intros. apply factor_value_rename. Qed.

  Lemma ops_none fs F : filter is_operator fs = [] -> fold_right apply_operator F fs = F :> ((index -> V) -> K).
  Proof.
    induction fs as [|x fs IH]; cbn [filter fold_right]; auto. destruct (is_operator x) eqn:E; [discriminate|].
    intros H. rewrite IH by auto. destruct x as [t|v]; cbn in *; auto. destruct (t_label t); auto; discriminate.
  Qed.
  Lemma ops_one fs F x : filter is_operator fs = [x] -> fold_right apply_operator F fs = apply_operator x F :> ((index -> V) -> K).
  Proof.
    induction fs as [|y fs IH]; cbn [filter fold_right]; [discriminate|]. destruct (is_operator y) eqn:E.
    - intros H. injection H as <- H. rewrite ops_none; auto.
    - intros H. rewrite IH by auto. destruct y as [t|v]; cbn in *; auto. destruct (t_label t); auto; discriminate.
  Qed.
  Lemma PV_nonops fs (a : index -> V) : PV (filter (fun x => negb (is_operator x)) fs) a = PV fs a.
  Proof.
    induction fs as [|x fs IH]; cbn [filter]; auto. destruct (is_operator x) eqn:E; cbn [negb].
    - rewrite IH. unfold product_value. rewrite prod_cons.
      assert (H : factor_value T vars x a = 1) by (destruct x as [t|v]; cbn in *; [destruct (t_label t); auto; discriminate|discriminate]).
      rewrite H. ring.
    - unfold product_value in *. rewrite !prod_cons, IH. reflexivity.
  Qed.
  Lemma term_value_plain c fs (a : index -> V) : filter is_operator fs = [] -> term_value T vars (Term c fs) a = rat c * PV fs a.
  Proof. intros H. unfold term_value. cbn. rewrite ops_none by auto. reflexivity. Qed.

  (** ** Operators *)
  Lemma label_eqb_eq l m : label_eqb l m = true <-> l = m.
  Proof.
    destruct l, m; cbn; split; intros H; try congruence; try discriminate; auto.
    - apply Nat.eqb_eq in H. congruence.
    - injection H as ->. apply Nat.eqb_refl.
  Qed.
  Lemma find_only L A fs : filter is_operator fs = [Ten A] -> t_label A = L -> L <> L_named 0 -> (forall n, L <> L_named n) ->
    find_tensor L fs = Some A.
  Proof.
    intros H E _ HL. revert H. induction fs as [|x fs IH]; cbn [filter find_tensor]; [discriminate|].
    destruct x as [t|v]; cbn [is_operator]; [|intros H; apply IH; auto].
    destruct (label_eqb (t_label t) L) eqn:El.
    - apply label_eqb_eq in El. rewrite El. destruct L; try (exfalso; eapply HL; reflexivity); intros H; injection H as -> _; reflexivity.
    - destruct (t_label t) eqn:Et; try (intros H; injection H as -> _; rewrite Et in E; subst L; cbn in El; discriminate).
      intros H. apply IH. auto.
  Qed.
  Lemma remove_only L A fs : filter is_operator fs = [Ten A] -> t_label A = L ->
    filter (fun x => negb (has_label L x)) fs = filter (fun x => negb (is_operator x)) fs.
  Proof.
    intros H E. apply filter_ext_in. intros x Hx. f_equal.
    destruct (is_operator x) eqn:Eo.
    - assert (Hin : In x (filter is_operator fs)) by (apply filter_In; auto). rewrite H in Hin. destruct Hin as [<-|[]].
      cbn. rewrite E. apply label_eqb_eq. reflexivity.
    - destruct x as [t|v]; auto. cbn in *. destruct (label_eqb (t_label t) L) eqn:El; auto.
      apply label_eqb_eq in El. destruct (t_label t); try discriminate.
      assert (Hin : In (Ten A) (filter is_operator fs)) by (rewrite H; left; auto). apply filter_In in Hin. destruct Hin as (_ & Hin).
      cbn in Hin. rewrite E, <- El in Hin. discriminate.
  Qed.
  Lemma nonops_nonops fs : filter is_operator (filter (fun x => negb (is_operator x)) fs) = [].
  Proof. induction fs as [|x fs IH]; cbn; auto. destruct (is_operator x) eqn:E; cbn; auto. rewrite E. auto. Qed.
  Lemma rename_nonops f fs : filter is_operator fs = [] -> filter is_operator (map (rename_factor f) fs) = [].
  Proof.
    induction fs as [|x fs IH]; cbn; auto. destruct (is_operator x) eqn:E; [discriminate|]. intros H.
    destruct x as [t|v]; cbn in *; [rewrite E|]; auto.
  Qed.
  Lemma inv_over n : inv_fact n = over_fact n.
  Proof. unfold inv_fact, over_fact. unfold Qcdiv. ring. Qed.

  Lemma reassign_short (b k : list index) (a : index -> V) i : reassign (b ++ k) (b ++ k) a i = a i.
  Proof.
    unfold reassign, image. f_equal.
    destruct (find _ _) as [p|] eqn:E; auto. apply find_some in E. destruct E as (H1 & H2). apply index_eqb_eq in H2. subst.
    revert H1. generalize (b ++ k). intros l H1. induction l as [|x l IH]; [destruct H1|]. cbn in H1. destruct H1 as [<-|H1]; auto.
  Qed.
End Product.
