(** Proofs for the elimination of common subexpressions, 1: values. *)
From Coq Require Import List Arith Bool Lia Permutation Ring Ring_theory.
From Verif Require Import Idx_Model Bin_Model Bin_Spec Bin_Sums Cse_Model Cse_Spec.
Import ListNotations.

Lemma bind_in ix : forall (r : env) x, In x ix -> bind ix (map r ix) x = r x.
Proof.
  induction ix as [|y ix IH]; intros r x H; [destruct H|]. cbn. unfold set. destruct (Nat.eqb_spec x y) as [->|N]; auto.
  destruct H as [->|H]; [congruence|]. auto.
Qed.

Lemma bind_perm (ps qs : list (idx * nat)) : Permutation ps qs -> NoDup (map fst ps) ->
  forall x, bind (map fst ps) (map snd ps) x = bind (map fst qs) (map snd qs) x.
Proof.
  induction 1 as [|[a v] ps qs P IH|[a v] [b w] ps|ps qs os P1 IH1 P2 IH2]; intros N x; cbn in *; auto.
  - inversion N; subst. unfold set. destruct (Nat.eqb x a); auto.
  - inversion N as [|? ? N1 N2]; subst. apply set_swap. intros ->. apply N1. left. reflexivity.
  - rewrite IH1 by auto. apply IH2. eapply Permutation_NoDup; [|exact N]. apply Permutation_map. exact P1.
Qed.

(** Sorting pairs *)
Fixpoint pinsert (key : idx -> nat) (p : idx * idx) (l : list (idx * idx)) : list (idx * idx) :=
  match l with
  | [] => [p]
  | q :: l' => if key (fst p) <=? key (fst q) then p :: q :: l' else q :: pinsert key p l'
  end.
Fixpoint psort (key : idx -> nat) (l : list (idx * idx)) : list (idx * idx) :=
  match l with [] => [] | p :: l' => pinsert key p (psort key l') end.
Lemma pinsert_fst key p l : map fst (pinsert key p l) = insert_by key (fst p) (map fst l).
Proof. induction l as [|q l IH]; cbn; auto. destruct (key (fst p) <=? key (fst q)); cbn; [auto|]. rewrite IH. auto. Qed.
Lemma psort_fst key l : map fst (psort key l) = sort_by key (map fst l).
Proof. induction l as [|p l IH]; cbn; auto. rewrite pinsert_fst, IH. auto. Qed.
Definition keyed (key : idx -> nat) (l : list (idx * idx)) := forall p, In p l -> key (fst p) = key (snd p).
Lemma pinsert_snd key p l : keyed key (p :: l) -> map snd (pinsert key p l) = insert_by key (snd p) (map snd l).
Proof.
  induction l as [|q l IH]; intros H; cbn; auto.
  rewrite (H p), (H q) by (cbn; auto). destruct (key (snd p) <=? key (snd q)); cbn; auto.
  rewrite IH; auto. intros z [Hz|Hz]; apply H; cbn; auto.
Qed.
Lemma pinsert_perm key p l : Permutation (p :: l) (pinsert key p l).
Proof.
  induction l as [|q l IH]; cbn; auto. destruct (key (fst p) <=? key (fst q)); auto.
  eapply perm_trans; [apply perm_swap|]. apply perm_skip. exact IH.
Qed.
Lemma psort_perm key l : Permutation l (psort key l).
Proof. induction l as [|p l IH]; cbn; auto. eapply perm_trans; [apply perm_skip, IH|]. apply pinsert_perm. Qed.
Lemma psort_snd key l : keyed key l -> map snd (psort key l) = sort_by key (map snd l).
Proof.
  induction l as [|p l IH]; intros H; cbn; auto. rewrite pinsert_snd.
  - rewrite IH; auto. intros z Hz. apply H. right. exact Hz.
  - intros z [<-|Hz]; [apply H; left; auto|]. apply H. right. eapply Permutation_in; [apply Permutation_sym, psort_perm|exact Hz].
Qed.
Lemma sort_perm key l : Permutation l (sort_by key l).
Proof.
  assert (E : map fst (map (fun x => (x, x)) l) = l) by (rewrite map_map; cbn; apply map_id).
  set (m := map (fun x => (x, x)) l) in *. rewrite <- E, <- psort_fst. apply Permutation_map, psort_perm.
Qed.

Lemma combine_fst {X Y} : forall (l : list X) (m : list Y), length l = length m -> map fst (combine l m) = l.
Proof. induction l as [|x l IH]; intros [|y m] H; cbn in *; auto; try discriminate. rewrite IH; auto. Qed.
Lemma combine_snd {X Y} : forall (l : list X) (m : list Y), length l = length m -> map snd (combine l m) = m.
Proof. induction l as [|x l IH]; intros [|y m] H; cbn in *; auto; try discriminate. rewrite IH; auto. Qed.
Lemma combine_keyed key : forall l m, map key l = map key m -> keyed key (combine l m).
Proof.
  induction l as [|x l IH]; intros [|y m] H p Hp; cbn in *; try tauto. injection H as H1 H2.
  destruct Hp as [<-|Hp]; auto. apply (IH m H2 p Hp).
Qed.

(** The sorted indices of one node, given the values of those of the other. *)
Lemma bind_sorted key ct cu (r : env) : NoDup ct -> map key ct = map key cu ->
  forall x, bind (sort_by key ct) (map r (sort_by key cu)) x = bind ct (map r cu) x.
Proof.
  intros N E x. assert (L : length ct = length cu) by (rewrite <- (map_length key ct), E, map_length; auto).
  pose proof (combine_keyed key ct cu E) as Ky.
  set (ps := combine ct cu) in *. assert (F : map fst ps = ct) by (apply combine_fst; auto).
  assert (S : map snd ps = cu) by (apply combine_snd; auto).
  rewrite <- F, <- S, <- psort_fst, <- psort_snd by auto.
  set (f := fun p : idx * idx => (fst p, r (snd p))).
  assert (A : forall l, map fst l = map fst (map f l)) by (intros l; rewrite map_map; apply map_ext; auto).
  assert (B : forall l, map r (map snd l) = map snd (map f l)) by (intros l; rewrite !map_map; apply map_ext; auto).
  rewrite (A ps), (A (psort key ps)), (B ps), (B (psort key ps)). apply bind_perm.
  - apply Permutation_map, Permutation_sym, psort_perm.
  - rewrite <- A. eapply Permutation_NoDup; [apply Permutation_map, psort_perm|]. rewrite F. exact N.
Qed.

Section Values.
  Variable K : Type.
  Variables (zero one : K) (add mul sub : K -> K -> K) (opp : K -> K).
  Variable RT : ring_theory zero one add mul sub opp eq.
  Add Ring Kring27 : RT.
  Variable dom : idx -> list nat.
  Notation tree := (Cse_Model.tree K).
  Notation val := (val K zero add mul dom).
  Notation wf := (wf K).
  Notation sum_over := (sum_over K zero add dom).
  Notation tidx := (tidx K).
  Notation reads := (reads K).

  Lemma SR : semi_ring_theory zero one add mul eq.
  Proof. constructor; intros; ring. Qed.

  Lemma xval_ext s x (r r' : env) : (forall y, In y (xidx x) -> r y = r' y) -> xval K s x r = xval K s x r'.
  Proof. destruct x; cbn; auto. intros H. f_equal. apply map_ext_in. auto. Qed.

  Lemma val_ext s : forall t, ext K (val s t).
  Proof.
    induction t as [i|o i a IHa b IHb]; intros r r' E; cbn.
    - apply xval_ext. auto.
    - destruct o; [rewrite (IHa r r' E), (IHb r r' E); auto|].
      apply (sum_over_env K zero add dom); auto. intros q q' E'. rewrite (IHa q q' E'), (IHb q q' E'). auto.
  Qed.
  Lemma prod_ext s a b : ext K (fun r => mul (val s a r) (val s b r)).
  Proof. intros r r' E. rewrite (val_ext s a r r' E), (val_ext s b r r' E). auto. Qed.

  Lemma sum_over_local f (D : idx -> Prop) : (forall r r', (forall x, D x -> r x = r' x) -> f r = f r') ->
    forall xs r r', (forall x, D x -> ~ In x xs -> r x = r' x) -> sum_over xs f r = sum_over xs f r'.
  Proof.
    intros H. induction xs as [|x xs IH]; intros r r' E; cbn; [apply H; intros; apply E; auto|].
    apply (ksum_ext K zero add). intros v _. apply IH. intros y Dy Ny. unfold set.
    destruct (Nat.eqb_spec y x); auto. apply E; auto. intros [?|?]; congruence.
  Qed.

  Lemma contracted_in l m res x : In x (contracted l m res) <-> (In x l \/ In x m) /\ ~ In x res.
  Proof.
    unfold contracted. rewrite filter_In, nodup_In, in_app_iff, negb_true_iff. unfold mem.
    split; intros (A & B); split; auto.
    - intros C. assert (X : existsb (Nat.eqb x) res = true) by (apply existsb_exists; exists x; split; auto; apply Nat.eqb_refl). congruence.
    - destruct (existsb (Nat.eqb x) res) eqn:X; auto. apply existsb_exists in X. destruct X as (y & Y & E). apply Nat.eqb_eq in E. subst. tauto.
  Qed.
  Lemma contracted_nodup l m res : NoDup (contracted l m res).
  Proof. apply NoDup_filter, NoDup_nodup. Qed.

  Lemma val_indep s : forall t, wf t -> forall r r', (forall x, In x (tidx t) -> r x = r' x) -> val s t r = val s t r'.
  Proof.
    induction t as [i|o i a IHa b IHb]; intros W r r' E; cbn.
    - apply xval_ext. exact E.
    - unfold tidx, texpr in E. cbn in E. destruct o; cbn in W.
      + destruct W as (_ & A & B & Wa & Wb). rewrite (IHa Wa r r'), (IHb Wb r r'); auto; intros x Hx; apply E; [apply B|apply A]; auto.
      + destruct W as (_ & A & Wa & Wb).
        apply sum_over_local with (D := fun x => In x (tidx a) \/ In x (tidx b)).
        * intros q q' F. rewrite (IHa Wa q q'), (IHb Wb q q'); auto.
        * intros x Dx Nx. apply E. destruct (in_dec Nat.eq_dec x (xidx (i_expr i))) as [I|N]; auto.
          exfalso. apply Nx. apply contracted_in. auto.
  Qed.

  Lemma val_store : forall t s s', (forall l vs, In l (reads t) -> s l vs = s' l vs) -> forall r, val s t r = val s' t r.
  Proof.
    induction t as [i|o i a IHa b IHb]; intros s s' E r; cbn.
    - destruct (i_expr i) eqn:X; cbn; auto; apply E; cbn; rewrite X; cbn; auto.
    - cbn in E. assert (Ea : forall r, val s a r = val s' a r) by (apply IHa; intros; apply E; apply in_or_app; auto).
      assert (Eb : forall r, val s b r = val s' b r) by (apply IHb; intros; apply E; apply in_or_app; auto).
      destruct o; [rewrite Ea, Eb; auto|]. apply sum_over_ext. intros q. rewrite Ea, Eb. auto.
  Qed.

  (** Operands may be exchanged for others with the same indices and values. *)
  Lemma val_children s s' o i a b a' b' :
    same_indices (tidx a') (tidx a) -> same_indices (tidx b') (tidx b) ->
    (forall r, val s' a' r = val s a r) -> (forall r, val s' b' r = val s b r) ->
    forall r, val s' (Cse_Model.Node o i a' b') r = val s (Cse_Model.Node o i a b) r.
  Proof.
    intros A B Ea Eb r. cbn. destruct o; [rewrite Ea, Eb; auto|].
    rewrite (sum_over_same K zero one add mul SR dom _ (contracted (tidx a) (tidx b) (xidx (i_expr i)))).
    - apply sum_over_ext. intros q. rewrite Ea, Eb. auto.
    - apply prod_ext.
    - apply contracted_nodup.
    - apply contracted_nodup.
    - intros x. rewrite !contracted_in. rewrite (A x), (B x). tauto.
  Qed.

  Lemma signed_signed neg v : signed K opp neg (signed K opp neg v) = v.
  Proof. destruct neg; cbn; auto. ring. Qed.

  (** Internal nodes *)
  Notation internal := (internal K).
  Lemma internal_reads : forall t u, In u (internal t) -> forall l, In l (reads u) -> In l (reads t).
  Proof.
    induction t as [i|o i a IHa b IHb]; intros u H l L; cbn in H; [destruct H|].
    destruct H as [<-|H]; auto. cbn. apply in_app_iff. apply in_app_iff in H. destruct H as [H|H]; [left|right]; eauto.
  Qed.
  Lemma internal_wf : forall t u, wf t -> In u (internal t) -> wf u.
  Proof.
    induction t as [i|o i a IHa b IHb]; intros u W H; cbn in H; [destruct H|].
    destruct H as [<-|H]; auto. apply in_app_iff in H. destruct o; cbn in W; destruct H as [H|H]; [apply IHa|apply IHb|apply IHa|apply IHb]; tauto.
  Qed.
  Lemma internal_node : forall t u, In u (internal t) -> exists o i a b, u = Cse_Model.Node o i a b.
  Proof.
    induction t as [i|o i a IHa b IHb]; intros u H; cbn in H; [destruct H|].
    destruct H as [<-|H]; [eauto|]. apply in_app_iff in H. destruct H; eauto.
  Qed.
  Lemma wf_tinfo t : wf t -> wf_info K (tinfo t).
  Proof. destruct t as [i|[] i a b]; cbn; tauto. Qed.
End Values.
