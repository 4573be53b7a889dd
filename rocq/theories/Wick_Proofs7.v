(** The enumerations: which patterns, each once, and their signs. *)
From Coq Require Import List NArith ZArith Bool Arith Lia Permutation.
From Verif Require Import Wick_Model Wick_Spec Wick_Proofs1 Wick_Proofs2 Wick_Proofs3 Wick_Proofs4 Wick_Proofs5.
Import ListNotations.

Lemma re_prefix {X} n (a u v : list X) : rearranged n u v -> rearranged n (a ++ u) (a ++ v).
Proof.
  induction 1; [constructor|]. rewrite app_assoc in *. constructor. rewrite <- app_assoc in *. exact IHrearranged.
Qed.
Lemma re_suffix {X} n (a u v : list X) : rearranged n u v -> rearranged n (u ++ a) (v ++ a).
Proof.
  induction 1; [constructor|]. rewrite <- app_assoc in *. cbn [app] in *. constructor. exact IHrearranged.
Qed.

Lemma nodup_flat_map {X Y K} (key : Y -> K) (g : X -> K) (f : X -> list Y) l :
  NoDup (map g l) -> (forall a, In a l -> NoDup (f a)) -> (forall a t, In a l -> In t (f a) -> key t = g a) -> NoDup (flat_map f l).
Proof.
  induction l as [|a l IH]; intros Hn Hf Hk; [constructor|]. cbn [flat_map]. cbn [map] in Hn. apply NoDup_cons_iff in Hn. destruct Hn as (Ha & Hn).
  assert (H1 : NoDup (f a)) by (apply Hf; left; reflexivity).
  assert (H2 : NoDup (flat_map f l)) by (apply IH; [exact Hn| |]; intros; [apply Hf; right; auto|apply Hk; auto; right; auto]).
  assert (H3 : forall t, In t (f a) -> ~ In t (flat_map f l)).
  { intros t Ht Hin. apply in_flat_map in Hin. destruct Hin as (b & Hb & Htb). apply Ha.
    rewrite <- (Hk a t (or_introl eq_refl) Ht), (Hk b t (or_intror Hb) Htb). apply in_map. exact Hb. }
  clear - H1 H2 H3. induction (f a) as [|t l1 IH]; [exact H2|]. cbn [app]. apply NoDup_cons_iff in H1. destruct H1 as (Ht & H1). constructor.
  - intros Hin. apply in_app_iff in Hin. destruct Hin as [Hin|Hin]; [auto|]. apply (H3 t (or_introl eq_refl) Hin).
  - apply IH; [exact H1|]. intros s Hs. apply H3. right. exact Hs.
Qed.

Lemma nodup_app {X} (a b : list X) : NoDup a -> NoDup b -> (forall x, In x a -> ~ In x b) -> NoDup (a ++ b).
Proof.
  induction a as [|x a IH]; intros Ha Hb H; [exact Hb|]. cbn [app]. apply NoDup_cons_iff in Ha. destruct Ha as (Hx & Ha). constructor.
  - intros Hin. apply in_app_iff in Hin. destruct Hin as [Hin|Hin]; [auto|]. apply (H x (or_introl eq_refl) Hin).
  - apply IH; auto. intros y Hy. apply H. right. exact Hy.
Qed.

Lemma map_flat_map {X Y Z} (g : Y -> Z) (f : X -> list Y) l : map g (flat_map f l) = flat_map (fun x => map g (f x)) l.
Proof. induction l as [|x l IH]; [reflexivity|]. cbn. rewrite map_app, IH. reflexivity. Qed.

Lemma picks_elems {X} (v : list X) : map (fun '(_, y, _) => y) (picks v) = v.
Proof.
  induction v as [|x v IH]; [reflexivity|]. rewrite picks_cons. cbn [map]. f_equal. rewrite map_map. rewrite <- IH at 2.
  apply map_ext. intros [[j y] w]. reflexivity.
Qed.

Section Enumeration.
  Context {O : Type}.
  Notation T := (nat * O)%type.
  Variable fermi : bool.
  Variable is_qpann : O -> bool.
  Variable can_contract : O -> O -> bool.
  Hypothesis qpann_ok : forall l r, can_contract l r = true -> is_qpann l = true.
  Variable allow : list (T * T) -> list T -> T -> T -> bool.
  Notation eligible := (eligible can_contract allow).
  Notation go := (go fermi can_contract allow).
  Notation gof := (gof fermi is_qpann can_contract allow).
  Notation sg := (sign fermi).

  (** every pair of the pattern may be contracted when its turn comes *)
  Fixpoint path_ok (prev : list (T * T)) (v : list T) (m : list (T * T)) : Prop :=
    match m with
    | [] => True
    | (x, y) :: m' => exists p v1 v2, v = p ++ x :: v1 ++ y :: v2 /\ eligible prev v x y = true /\ path_ok (prev ++ [(x, y)]) (p ++ v1 ++ v2) m'
    end.

  Lemma gof_sound f : forall prev v t, In t (gof f prev v) ->
    full_matching v (p_pairs t) /\ p_rest t = [] /\ path_ok prev v (p_pairs t) /\
    exists k, rearranged k v (pair_list (p_pairs t)) /\ p_sign t = sg k.
  Proof.
    induction f as [|f IH]; intros prev v t Ht.
    - destruct v; cbn in Ht; [|destruct Ht]. destruct Ht as [<-|[]]. cbn. repeat split; try constructor. exists 0. rewrite sign_0. split; [constructor|reflexivity].
    - destruct v as [|x v].
      + cbn in Ht. destruct Ht as [<-|[]]. cbn. repeat split; try constructor. exists 0. rewrite sign_0. split; [constructor|reflexivity].
      + cbn [Wick_Proofs2.gof] in Ht. destruct (is_qpann (snd x)); [|destruct Ht].
        apply in_flat_map in Ht. destruct Ht as ([[j y] w] & Hp & Ht).
        destruct (eligible prev (x :: v) x y) eqn:E; [|destruct Ht].
        apply in_map_iff in Ht. destruct Ht as (t' & <- & Ht'). destruct (IH _ _ _ Ht') as (H1 & H2 & H3 & k & H4 & H5).
        apply picks_spec in Hp. destruct Hp as (v1 & v2 & -> & -> & <-). cbn [prepend p_pairs p_rest p_sign].
        split; [constructor; exact H1|]. split; [exact H2|]. split.
        * cbn [path_ok]. exists [], v1, v2. split; [reflexivity|]. split; [exact E|exact H3].
        * exists (k + length v1). split; [|rewrite sign_add, H5; apply Z.mul_comm].
          apply (re_trans _ _ _ (x :: y :: v1 ++ v2)); [apply (re_move_back [x] y v1 v2)|].
          change (pair_list ((x, y) :: p_pairs t')) with ([x; y] ++ pair_list (p_pairs t')). apply (re_prefix _ [x; y]). exact H4.
  Qed.

  Lemma gof_complete f : forall prev v m, length v <= f -> full_matching v m -> NoDup v -> path_ok prev v m ->
    exists t, In t (gof f prev v) /\ p_pairs t = m.
  Proof.
    induction f as [|f IH]; intros prev v m Hl Hm Hn Hp.
    - destruct Hm; [|cbn in Hl; lia]. exists (mkp 1 [] []). cbn. auto.
    - destruct Hm as [|x v1 y v2 m Hm].
      + exists (mkp 1 [] []). cbn. auto.
      + destruct Hp as (p & u1 & u2 & E & Hel & Hp).
        assert (E' : p = [] /\ u1 = v1 /\ u2 = v2).
        { assert (Hx : ~ In x (v1 ++ y :: v2)) by (inversion Hn; auto).
          destruct p as [|x' p].
          - cbn in E. injection E as E. split; [reflexivity|].
            assert (Hy : ~ In y v1 /\ ~ In y u1 /\ ~ In y v2).
            { apply NoDup_cons_iff in Hn. destruct Hn as (_ & Hn). pose proof (NoDup_remove_2 _ _ _ Hn) as H1.
              rewrite E in Hn. pose proof (NoDup_remove_2 _ _ _ Hn) as H2. rewrite in_app_iff in H1, H2. tauto. }
            clear - E Hy. revert u1 E Hy. induction v1 as [|a v1 IHv]; intros u1 E Hy; destruct u1 as [|b u1]; cbn in E.
            + injection E as ->. auto.
            + injection E as -> _. elim (proj1 (proj2 Hy)). left; reflexivity.
            + injection E as -> _. elim (proj1 Hy). left; reflexivity.
            + injection E as -> E. destruct (IHv u1 E) as (-> & ->); [|auto]. cbn in Hy. tauto.
          - exfalso. cbn in E. injection E as -> E. apply Hx. rewrite E. apply in_app_iff. right. left. reflexivity. }
        destruct E' as (-> & -> & ->). cbn [app] in *.
        cbn [length] in Hl. rewrite app_length in Hl. cbn [length] in Hl.
        destruct (IH (prev ++ [(x, y)]) (v1 ++ v2) m) as (t & Ht & Em); auto.
        * rewrite app_length. lia.
        * apply NoDup_cons_iff in Hn. destruct Hn as (_ & Hn). apply NoDup_remove_1 in Hn. exact Hn.
        * exists (prepend (sg (length v1)) (x, y) t). split; [|cbn; congruence].
          cbn [Wick_Proofs2.gof]. assert (Hq : is_qpann (snd x) = true).
          { unfold Wick_Proofs2.eligible in Hel. apply andb_true_iff in Hel. destruct Hel as (Hel & _). apply andb_true_iff in Hel. apply (qpann_ok _ _ (proj2 Hel)). }
          rewrite Hq. apply in_flat_map. exists (length v1, y, v1 ++ v2). split; [apply picks_in|].
          rewrite Hel. apply in_map. exact Ht.
  Qed.

  Lemma gof_nodup f : forall prev v, NoDup v -> NoDup (map p_pairs (gof f prev v)).
  Proof.
    induction f as [|f IH]; intros prev v Hn.
    - destruct v; cbn; repeat constructor. auto.
    - destruct v as [|x v]; [cbn; repeat constructor; auto|]. cbn [Wick_Proofs2.gof]. destruct (is_qpann (snd x)); [|constructor].
      rewrite map_flat_map. apply (nodup_flat_map (fun l => map snd (firstn 1 l)) (fun '(_, y, _) => [y])).
      + apply NoDup_cons_iff in Hn. destruct Hn as (_ & Hn). rewrite <- (picks_elems v) in Hn.
        clear - Hn. induction (picks v) as [|[[j y] w] l IHl]; [constructor|]. cbn [map] in *. apply NoDup_cons_iff in Hn. destruct Hn as (H1 & H2). constructor; [|auto].
        intros H. apply H1. apply in_map_iff in H. destruct H as ([[j' y'] w'] & E & H). injection E as ->. apply in_map_iff. exists (j', y, w'). auto.
      + intros [[j y] w] Hp. destruct (eligible prev (x :: v) x y); [|constructor]. rewrite map_map.
        apply picks_spec in Hp. destruct Hp as (v1 & v2 & -> & -> & _).
        assert (Hnw : NoDup (v1 ++ v2)) by (apply NoDup_cons_iff in Hn; destruct Hn as (_ & Hn); apply NoDup_remove_1 in Hn; exact Hn).
        specialize (IH (prev ++ [(x, y)]) (v1 ++ v2) Hnw). rewrite <- map_map with (f := p_pairs) (g := cons (x, y)).
        apply FinFun.Injective_map_NoDup; [|exact IH]. intros a b E. injection E. auto.
      + intros [[j y] w] t Hp Ht. destruct (eligible prev (x :: v) x y); [|destruct Ht]. rewrite map_map in Ht.
        apply in_map_iff in Ht. destruct Ht as (t' & <- & _). reflexivity.
  Qed.

  (** partial contractions *)
  Lemma pair_list_even {X} (m : list (X * X)) : Nat.odd (length (pair_list m)) = false.
  Proof. induction m as [|xy m IH]; [reflexivity|]. exact IH. Qed.

  Lemma go_sound f : forall prev p v t, In t (go f prev p v) ->
    (exists x y tl, p_pairs t = (x, y) :: tl /\ In x v) /\ path_ok prev (p ++ v) (p_pairs t) /\ exists rest, partial_matching v (p_pairs t) rest /\ p_rest t = p ++ rest /\ exists k, rearranged k v (pair_list (p_pairs t) ++ rest) /\ p_sign t = sg k.
  Proof.
    assert (pm_refl : forall w : list T, partial_matching w [] w) by (induction w; constructor; auto).
    induction f as [|f IH]; intros prev p v t Ht.
    - destruct v; destruct Ht.
    - destruct v as [|x v]; [destruct Ht|]. cbn [Wick_Proofs2.go] in Ht. apply in_app_iff in Ht. destruct Ht as [Ht|Ht].
      + apply in_flat_map in Ht. destruct Ht as ([[j y] w] & Hp & Ht).
        destruct (eligible prev (p ++ x :: v) x y) eqn:E; [|destruct Ht].
        apply picks_spec in Hp. destruct Hp as (v1 & v2 & -> & -> & <-).
        destruct Ht as [<-|Ht].
        * cbn [p_pairs p_rest p_sign]. split; [exists x, y, []; cbn; auto|]. split.
          -- cbn [path_ok]. exists p, v1, v2. auto.
          -- exists (v1 ++ v2). split; [constructor; apply pm_refl|]. split; [reflexivity|].
             exists (length v1). split; [|reflexivity]. apply (re_move_back [x] y v1 v2).
        * apply in_map_iff in Ht. destruct Ht as (t' & <- & Ht'). destruct (IH _ _ _ _ Ht') as (_ & H2 & rest & H3 & H4 & k & H5 & H6).
          cbn [prepend p_pairs p_rest p_sign]. split; [exists x, y, (p_pairs t'); cbn; auto|]. split.
          -- cbn [path_ok]. exists p, v1, v2. auto.
          -- exists rest. split; [constructor; exact H3|]. split; [exact H4|]. exists (k + length v1). split; [|rewrite sign_add, H6; apply Z.mul_comm].
             apply (re_trans _ _ _ (x :: y :: v1 ++ v2)); [apply (re_move_back [x] y v1 v2)|].
             change (pair_list ((x, y) :: p_pairs t') ++ rest) with ([x; y] ++ pair_list (p_pairs t') ++ rest). apply (re_prefix _ [x; y]). exact H5.
      + destruct (IH _ _ _ _ Ht) as (H1 & H2 & rest & H3 & H4 & k & H5 & H6).
        split; [destruct H1 as (a & b & tl & E & Ha); exists a, b, tl; cbn; auto|]. rewrite <- app_assoc in H2. split; [exact H2|].
        exists (x :: rest). split; [constructor; exact H3|]. split; [rewrite H4, <- app_assoc; reflexivity|].
        exists (length (pair_list (p_pairs t)) + k). split.
        * apply (re_trans _ _ _ (x :: pair_list (p_pairs t) ++ rest)); [apply (re_prefix _ [x]); exact H5|]. apply (re_move [] x (pair_list (p_pairs t)) rest).
        * rewrite sign_add, H6. unfold sign at 2. rewrite pair_list_even, andb_false_r. lia.
  Qed.

  Lemma partial_in v m rest (x y : T) : partial_matching v m rest -> In (x, y) m -> In x v /\ In y v.
  Proof.
    induction 1 as [|z v m rest H IH|a v1 b v2 m rest H IH]; intros Hin; [destruct Hin|destruct (IH Hin); cbn; tauto|].
    destruct Hin as [E|Hi]; [injection E as -> ->; cbn; rewrite !in_app_iff; cbn; tauto|].
    destruct (IH Hi) as (H1 & H2). cbn. rewrite !in_app_iff in *. cbn. tauto.
  Qed.

  Lemma split_unique (a : list T) x b c d : NoDup (a ++ x :: b) -> a ++ x :: b = c ++ x :: d -> a = c /\ b = d.
  Proof.
    revert c. induction a as [|z a IH]; intros c Hn E; destruct c as [|z' c]; cbn in E.
    - injection E as ->. auto.
    - injection E as -> E. cbn in Hn. apply NoDup_cons_iff in Hn. destruct Hn as (Hn & _). elim Hn. rewrite E. apply in_app_iff. right. left. reflexivity.
    - injection E as -> E. cbn in Hn. apply NoDup_cons_iff in Hn. destruct Hn as (Hn & _). elim Hn. apply in_app_iff. right. left. reflexivity.
    - injection E as -> E. cbn in Hn. apply NoDup_cons_iff in Hn. destruct (IH c (proj2 Hn) E) as (-> & ->). auto.
  Qed.

  Lemma go_complete f : forall prev p v m rest, length v <= f -> partial_matching v m rest -> m <> [] -> NoDup (p ++ v) -> path_ok prev (p ++ v) m ->
    exists t, In t (go f prev p v) /\ p_pairs t = m /\ p_rest t = p ++ rest.
  Proof.
    induction f as [|f IH]; intros prev p v m rest Hl Hm Hne Hn Hp.
    - destruct Hm; [congruence|cbn in Hl; lia|cbn in Hl; lia].
    - destruct Hm as [|x v m rest Hm|x v1 y v2 m rest Hm]; [congruence| |].
      + destruct (IH prev (p ++ [x]) v m rest) as (t & Ht & E1 & E2); auto.
        * cbn in Hl. lia.
        * rewrite <- app_assoc. exact Hn.
        * rewrite <- app_assoc. exact Hp.
        * exists t. split; [cbn [Wick_Proofs2.go]; apply in_app_iff; right; exact Ht|]. split; [exact E1|]. rewrite E2, <- app_assoc. reflexivity.
      + destruct Hp as (q & u1 & u2 & E & Hel & Hp).
        destruct (split_unique p x (v1 ++ y :: v2) q (u1 ++ y :: u2) Hn E) as (<- & E2).
        assert (Hn2 : NoDup (v1 ++ y :: v2)).
        { clear - Hn. induction p as [|a p IHp]; cbn in Hn; apply NoDup_cons_iff in Hn; [exact (proj2 Hn)|apply IHp; exact (proj2 Hn)]. }
        destruct (split_unique v1 y v2 u1 u2 Hn2 E2) as (<- & <-).
        cbn [length] in Hl. rewrite app_length in Hl. cbn [length] in Hl.
        assert (Hin : In (length v1, y, v1 ++ v2) (picks (v1 ++ y :: v2))) by apply picks_in.
        destruct m as [|xy m].
        * exists (mkp (sg (length v1)) [(x, y)] (p ++ v1 ++ v2)). split.
          -- cbn [Wick_Proofs2.go]. apply in_app_iff. left. apply in_flat_map. exists (length v1, y, v1 ++ v2). split; [exact Hin|]. rewrite Hel. left. reflexivity.
          -- split; [reflexivity|]. cbn. f_equal.
             assert (E0 : forall w r, partial_matching w (@nil (T * T)) r -> r = w).
             { clear. intros w r H. remember [] as mm eqn:Em. induction H; [reflexivity|f_equal; auto|discriminate]. }
             symmetry. apply E0. exact Hm.
        * destruct (IH (prev ++ [(x, y)]) p (v1 ++ v2) (xy :: m) rest) as (t & Ht & E1 & E3); auto; [rewrite app_length; lia|congruence| |].
          -- rewrite app_assoc. replace (p ++ x :: v1 ++ y :: v2) with ((p ++ x :: v1) ++ y :: v2) in Hn by (rewrite <- app_assoc; reflexivity).
             apply NoDup_remove_1 in Hn. rewrite <- app_assoc in Hn. cbn [app] in Hn. apply NoDup_remove_1 in Hn. rewrite <- app_assoc. exact Hn.
          -- exists (prepend (sg (length v1)) (x, y) t). split; [|cbn; split; [congruence|exact E3]].
             cbn [Wick_Proofs2.go]. apply in_app_iff. left. apply in_flat_map. exists (length v1, y, v1 ++ v2). split; [exact Hin|]. rewrite Hel. right. apply in_map. exact Ht.
  Qed.

  Lemma go_nodup f : forall prev p v, NoDup v -> NoDup (map p_pairs (go f prev p v)).
  Proof.
    induction f as [|f IH]; intros prev p v Hn; [destruct v; constructor|].
    destruct v as [|x v]; [constructor|]. cbn [Wick_Proofs2.go]. rewrite map_app. apply NoDup_cons_iff in Hn. destruct Hn as (Hx & Hn).
    apply nodup_app.
    - rewrite map_flat_map. apply (nodup_flat_map (fun l => map snd (firstn 1 l)) (fun '(_, y, _) => [y])).
      + rewrite <- (picks_elems v) in Hn.
        clear - Hn. induction (picks v) as [|[[j y] w] l IHl]; [constructor|]. cbn [map] in *. apply NoDup_cons_iff in Hn. destruct Hn as (H1 & H2). constructor; [|auto].
        intros H. apply H1. apply in_map_iff in H. destruct H as ([[j' y'] w'] & E & H). injection E as ->. apply in_map_iff. exists (j', y, w'). auto.
      + intros [[j y] w] Hp. destruct (eligible prev (p ++ x :: v) x y); [|constructor]. cbn [map p_pairs]. rewrite map_map.
        apply picks_spec in Hp. destruct Hp as (v1 & v2 & -> & -> & _).
        assert (Hnw : NoDup (v1 ++ v2)) by (apply NoDup_remove_1 in Hn; exact Hn).
        constructor.
        * intros H. apply in_map_iff in H. destruct H as (t & E & Ht). apply go_sound in Ht. destruct Ht as ((a & b & tl & Et & _) & _).
          cbn in E. rewrite Et in E. discriminate.
        * specialize (IH (prev ++ [(x, y)]) p (v1 ++ v2) Hnw). rewrite <- map_map with (f := p_pairs) (g := cons (x, y)).
          apply FinFun.Injective_map_NoDup; [|exact IH]. intros a b E. injection E. auto.
      + intros [[j y] w] t Hp Ht. destruct (eligible prev (p ++ x :: v) x y); [|destruct Ht]. cbn [map p_pairs] in Ht. destruct Ht as [<-|Ht]; [reflexivity|]. rewrite map_map in Ht.
        apply in_map_iff in Ht. destruct Ht as (t' & <- & _). reflexivity.
    - apply IH. exact Hn.
    - intros l H1 H2. apply in_map_iff in H2. destruct H2 as (t2 & <- & H2). apply go_sound in H2. destruct H2 as ((a & b & tl & Et & Ha) & _).
      apply in_map_iff in H1. destruct H1 as (t1 & E1 & H1). apply in_flat_map in H1. destruct H1 as ([[j y] w] & _ & H1).
      destruct (eligible prev (p ++ x :: v) x y); [|destruct H1].
      assert (E : exists tl', p_pairs t1 = (x, y) :: tl').
      { destruct H1 as [<-|H1]; [exists []; reflexivity|]. apply in_map_iff in H1. destruct H1 as (t' & <- & _). eexists. reflexivity. }
      destruct E as (tl' & E). rewrite E1, Et in E. injection E as -> _ _. auto.
  Qed.
End Enumeration.
