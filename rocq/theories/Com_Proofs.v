(** Sorting factors by exchanging commuting neighbours; when normal products commute. *)
From Coq Require Import List NArith ZArith Bool Arith Lia Permutation.
From Verif Require Import Alg_Model Wick_Model Wick_Spec Wick_Ring Wick_Proofs1 Wick_Proofs2 Wick_Proofs3 Wick_Proofs5 Wick_Proofs7 Qn_Model Qn_Spec Qn_Proofs1 Qn_Proofs2 Qn_Proofs3 Com_Model.
Import ListNotations.

(** ** bubble sort with a comparison that need not be an order *)
Section Bubble.
  Context {F : Type}.
  Variables comp less : F -> F -> bool.
  Hypothesis comp_less : forall x y, comp x y = true -> less x y = true.
  Hypothesis asym : forall x y, less x y = true -> less y x = false.

  Definition above (x : F) (l : list F) : nat := length (filter (fun z => less z x) l).
  Fixpoint inv (l : list F) : nat := match l with [] => 0 | x :: l' => above x l' + inv l' end.
  Lemma above_perm x l l' : Permutation l l' -> above x l = above x l'.
  Proof. induction 1; unfold above in *; cbn [filter] in *; repeat match goal with |- context [if ?b then _ else _] => destruct b end; cbn [length] in *; lia. Qed.
  Lemma above_cons x y l : above x (y :: l) = (if less y x then 1 else 0) + above x l.
  Proof. unfold above. cbn. destruct (less y x); reflexivity. Qed.
  Lemma above_le x l : above x l <= length l.
  Proof. unfold above. induction l as [|y l IH]; [reflexivity|]. cbn. destruct (less y x); cbn; lia. Qed.
  Lemma inv_le l : inv l <= length l * length l.
  Proof. induction l as [|x l IH]; [reflexivity|]. cbn [inv length]. pose proof (above_le x l). nia. Qed.

  Lemma pass_spec l : forall x r k, bubble_pass comp x l = (r, k) -> Permutation (x :: l) r /\ inv r + k = inv (x :: l).
  Proof.
    induction l as [|y l IH]; intros x r k H; cbn [bubble_pass] in H.
    - injection H as <- <-. split; [reflexivity|cbn; lia].
    - destruct (comp y x) eqn:E.
      + destruct (bubble_pass comp x l) as [r' k'] eqn:E'. injection H as <- <-. destruct (IH _ _ _ E') as (P & Hi). split.
        * rewrite perm_swap. constructor. exact P.
        * cbn [inv]. rewrite <- (above_perm y _ _ P), !above_cons. rewrite (comp_less _ _ E), (asym _ _ (comp_less _ _ E)). cbn [inv] in Hi. lia.
      + destruct (bubble_pass comp y l) as [r' k'] eqn:E'. injection H as <- <-. destruct (IH _ _ _ E') as (P & Hi). split.
        * constructor. exact P.
        * cbn [inv] in *. rewrite <- (above_perm x _ _ P). lia.
  Qed.

  Lemma loop_defined f : forall l, inv l < f -> exists r, bubble_loop comp f l = Some r.
  Proof.
    induction f as [|f IH]; intros l H; [lia|]. cbn. destruct l as [|x l]; [eauto|].
    destruct (bubble_pass comp x l) as [r k] eqn:E. destruct (pass_spec _ _ _ _ E) as (_ & Hi).
    destruct (Nat.eqb_spec k 0); [eauto|]. destruct (IH r) as (s & ->); [lia|]. cbn. eauto.
  Qed.
  Lemma sort_defined l : exists r, bubble_sort comp l = Some r.
  Proof. apply loop_defined. pose proof (inv_le l). lia. Qed.

  (** a final pass without exchanges *)
  Inductive settled : list F -> Prop :=
  | settled_nil : settled []
  | settled_one x : settled [x]
  | settled_cons x y l : comp y x = false -> settled (y :: l) -> settled (x :: y :: l).
  Lemma pass_zero l : forall x r, bubble_pass comp x l = (r, 0) -> r = x :: l /\ settled (x :: l).
  Proof.
    induction l as [|y l IH]; intros x r H; cbn [bubble_pass] in H.
    - injection H as <-. split; [reflexivity|constructor].
    - destruct (comp y x) eqn:E.
      + destruct (bubble_pass comp x l). discriminate.
      + destruct (bubble_pass comp y l) as [r' k'] eqn:E'. injection H as <- ->. destruct (IH _ _ E') as (-> & S). split; [reflexivity|constructor; auto].
  Qed.
  Lemma loop_settled f : forall l r n, bubble_loop comp f l = Some (r, n) -> settled r.
  Proof.
    induction f as [|f IH]; intros l r n H; [discriminate|]. cbn in H. destruct l as [|x l]; [injection H as <- <-; constructor|].
    destruct (bubble_pass comp x l) as [r' k] eqn:E. destruct (Nat.eqb_spec k 0) as [->|].
    - injection H as <- <-. destruct (pass_zero _ _ _ E) as (-> & S). exact S.
    - destruct (bubble_loop comp f r') as [[r'' n']|] eqn:E'; [|discriminate]. cbn in H. injection H as <- <-. eapply IH; eauto.
  Qed.
  Lemma loop_perm f : forall l r n, bubble_loop comp f l = Some (r, n) -> Permutation l r.
  Proof.
    induction f as [|f IH]; intros l r n H; [discriminate|]. cbn in H. destruct l as [|x l]; [injection H as <- <-; constructor|].
    destruct (bubble_pass comp x l) as [r' k] eqn:E. destruct (pass_spec _ _ _ _ E) as (P & _). destruct (Nat.eqb_spec k 0) as [->|].
    - injection H as <- <-. exact P.
    - destruct (bubble_loop comp f r') as [[r'' n']|] eqn:E'; [|discriminate]. cbn in H. injection H as <- <-. rewrite P. eapply IH; eauto.
  Qed.
End Bubble.

Section Values.
  Context {R : ring} {F : Type}.
  Variable val : F -> car R.
  Local Open Scope op_scope.
  Notation value l := (rprod (map val l)).

  Lemma pass_value comp l : forall (P : F -> Prop) x r k, (forall a b, P a -> P b -> comp a b = true -> val a * val b = val b * val a) -> Forall P (x :: l) ->
    bubble_pass comp x l = (r, k) -> value r = value (x :: l) /\ Forall P r.
  Proof.
    induction l as [|y l IH]; intros P x r k HP HF H; cbn [bubble_pass] in H.
    - injection H as <- <-. auto.
    - inversion HF as [|? ? Px HF']; subst. inversion HF' as [|? ? Py HF'']; subst. destruct (comp y x) eqn:E.
      + destruct (bubble_pass comp x l) as [r' k'] eqn:E'. injection H as <- <-. destruct (IH P _ _ _ HP (Forall_cons _ Px HF'') E') as (V & Fr). split; [|constructor; auto].
        cbn [map] in *. rewrite !rprod_cons in *. rewrite V, !rmul_assoc. f_equal. apply HP; auto.
      + destruct (bubble_pass comp y l) as [r' k'] eqn:E'. injection H as <- <-. destruct (IH P _ _ _ HP HF' E') as (V & Fr). split; [|constructor; auto].
        cbn [map] in *. rewrite !rprod_cons in *. rewrite V. reflexivity.
  Qed.
  Lemma loop_value comp f : forall (P : F -> Prop) l r n, (forall a b, P a -> P b -> comp a b = true -> val a * val b = val b * val a) -> Forall P l ->
    bubble_loop comp f l = Some (r, n) -> value r = value l.
  Proof.
    induction f as [|f IH]; intros P l r n HP HF H; [discriminate|]. cbn in H. destruct l as [|x l]; [injection H as <- <-; reflexivity|].
    destruct (bubble_pass comp x l) as [r' k] eqn:E. destruct (pass_value comp l P x r' k HP HF E) as (V & Fr). destruct (Nat.eqb_spec k 0) as [->|].
    - injection H as <- <-. exact V.
    - destruct (bubble_loop comp f r') as [[r'' n']|] eqn:E'; [|discriminate]. cbn in H. injection H as <- <-. rewrite <- V. eapply IH; eauto.
  Qed.

  Lemma value_app a b : value (a ++ b) = value a * value b.
  Proof. rewrite map_app, rprod_app. reflexivity. Qed.

  Lemma central_value l : Forall (fun x => central (val x)) l -> central (value l).
  Proof. intros H. apply central_rprod. intros x Hx. apply in_map_iff in Hx. destruct Hx as (y & <- & Hy). apply (proj1 (Forall_forall _ _) H _ Hy). Qed.
  Lemma central_perm l l' : Forall (fun x => central (val x)) l -> Permutation l l' -> value l = value l'.
  Proof.
    intros H P. induction P; [reflexivity| | |].
    - inversion H; subst. cbn [map]. rewrite !rprod_cons, IHP; auto.
    - inversion H as [|? ? Hy H']; subst. inversion H' as [|? ? Hx H'']; subst. cbn [map]. rewrite !rprod_cons, !rmul_assoc, (Hy (val x)). reflexivity.
    - rewrite IHP1, IHP2; auto. eapply Permutation_Forall; eauto.
  Qed.
  Lemma split_value (scalar : F -> bool) l : (forall x, In x l -> scalar x = true -> central (val x)) ->
    value l = value (filter scalar l) * value (filter (fun x => negb (scalar x)) l).
  Proof.
    induction l as [|x l IH]; intros H; [cbn; symmetry; apply rmul_1_l|]. cbn [filter map]. rewrite rprod_cons, IH by (intros; apply H; auto; right; auto).
    destruct (scalar x) eqn:E; cbn [negb map]; rewrite rprod_cons, !rmul_assoc; [reflexivity|]. f_equal.
    symmetry. apply central_value. apply Forall_forall. intros y Hy. apply filter_In in Hy. destruct Hy as (Hy & Sy). apply H; [right; exact Hy|exact Sy].
  Qed.
End Values.

(** ** Trees *)
Section Trees.
  Context {A : Type} {R : ring}.
  Variable cnumber : A -> bool.
  Variable atoms : A -> A -> bool.
  Local Open Scope op_scope.
  (** the values that can be made of the values of the subexpressions by sums and products *)
  Variable aval : A -> car R.
  Inductive denotes : tree A -> car R -> Prop :=
  | d_atom a : denotes (Atom a) (aval a)
  | d_sum l vs : Forall2 denotes l vs -> denotes (Compound l) (rsum vs)
  | d_prod l vs : Forall2 denotes l vs -> denotes (Compound l) (rprod vs).

  Lemma commute_sum (x : car R) vs : Forall (fun v => x * v = v * x) vs -> x * rsum vs = rsum vs * x.
  Proof. induction 1 as [|v vs H _ IH]; [cbn; rewrite rmul_0_l, rmul_0_r; reflexivity|]. rewrite rsum_cons, rdistr_l, rdistr_r, H, IH. reflexivity. Qed.
  Lemma commute_prod (x : car R) vs : Forall (fun v => x * v = v * x) vs -> x * rprod vs = rprod vs * x.
  Proof. induction 1 as [|v vs H _ IH]; [cbn; rewrite rmul_1_l, rmul_1_r; reflexivity|]. rewrite rprod_cons, rmul_assoc, H, <- rmul_assoc, IH, rmul_assoc. reflexivity. Qed.
  Hypothesis sound : forall a b, cnumber a || cnumber b || atoms a b = true -> aval a * aval b = aval b * aval a.
  Hypothesis numbers : forall a, cnumber a = true -> central (aval a).

  Fixpoint tsize (t : tree A) : nat := match t with Atom _ => 1 | Compound l => S (fold_right (fun x n => (tsize x + n)%nat) 0 l) end.
  Lemma tsize_in x l : In x l -> tsize x < tsize (Compound l).
  Proof. cbn. induction l as [|y l IH]; intros []; cbn; [subst; lia|]. specialize (IH H). lia. Qed.

  Lemma atom_commutes_sound a n : forall t v, tsize t <= n -> atom_commutes cnumber atoms a t = true -> denotes t v -> aval a * v = v * aval a.
  Proof.
    induction n as [|n IH]; intros t v Hn H D; [destruct t; cbn in Hn; lia|].
    destruct (cnumber a) eqn:Ca; [apply numbers, Ca|].
    assert (G : forall l vs, S (fold_right (fun x n => (tsize x + n)%nat) 0 l) <= S n -> forallb (atom_commutes cnumber atoms a) l = true -> Forall2 denotes l vs -> Forall (fun v => aval a * v = v * aval a) vs).
    { intros l vs Hl Hf HF. induction HF as [|x v' l vs Dx HF IH']; constructor.
      - cbn in Hf, Hl. apply andb_prop in Hf. destruct Hf as (Hx & _). apply (IH x); auto. lia.
      - cbn in Hf, Hl. apply andb_prop in Hf. apply IH'; [lia|apply Hf]. }
    inversion D; subst; cbn in H.
    - apply sound. exact H.
    - apply commute_sum. rewrite Ca in H. eapply G; eauto.
    - apply commute_prod. rewrite Ca in H. eapply G; eauto.
  Qed.
  Lemma commutes_sound n : forall t u v w, tsize t <= n -> commutes cnumber atoms t u = true -> denotes t v -> denotes u w -> v * w = w * v.
  Proof.
    induction n as [|n IH]; intros t u v w Hn H D Du; [destruct t; cbn in Hn; lia|].
    assert (G : forall l vs, S (fold_right (fun x n => (tsize x + n)%nat) 0 l) <= S n -> forallb (fun x => commutes cnumber atoms x u) l = true -> Forall2 denotes l vs -> Forall (fun v => w * v = v * w) vs).
    { intros l vs Hl Hf HF. induction HF as [|x v' l vs Dx HF IH']; constructor.
      - cbn in Hf, Hl. apply andb_prop in Hf. destruct Hf as (Hx & _). symmetry. apply (IH x u); auto. lia.
      - cbn in Hf, Hl. apply andb_prop in Hf. apply IH'; [lia|apply Hf]. }
    inversion D; subst; cbn in H.
    - apply (atom_commutes_sound a (tsize u) u w); auto.
    - symmetry. apply commute_sum. eapply G; eauto.
    - symmetry. apply commute_prod. eapply G; eauto.
  Qed.
End Trees.

(** ** Normal products without contractions *)
Section Normal.
  Context {I : Type} {R : ring}.
  Notation op := (op I).
  Variable fermi : bool.
  Variables plus minus : op -> car R.
  Variable contr : op -> op -> car R.
  Hypothesis CCR : canonical fermi plus minus contr.
  Notation N := (normal fermi plus minus).
  Local Open Scope op_scope.

  Lemma normal_product (can : op -> op -> bool) (w w' : list op) : (forall l r, can l r = false -> contr l r = r0 R) ->
    (forall l r, In l w -> In r w' -> can l r = false) -> N w * N w' = N (w ++ w').
  Proof.
    intros Hz Hc.
    pose proof (go_value fermi can (fun _ _ _ _ => true) plus minus contr CCR Hz (fun _ _ _ _ => eq_refl) 2
      (length (tagged [w; w'])) [] [] (tagged [w; w']) (Nat.le_refl _) (tag_nest_tags _ _)) as H.
    cbn [app map] in H. pose proof (product_of_tagged fermi plus minus [w; w']) as Hp. cbn [length] in Hp. rewrite Hp in H. clear Hp.
    assert (Wn : wait fermi plus minus (length (tagged [w; w'])) [] (rprod (map N [w; w'])) = rprod (map N [w; w'])) by reflexivity. rewrite Wn in H. clear Wn.
    cbn [map] in H. rewrite !rprod_cons in H. change (rprod (@nil (car R))) with (r1 R) in H. rewrite rmul_1_r in H. rewrite <- H.
    assert (Et : map snd (tagged [w; w']) = w ++ w') by (unfold tagged; rewrite tag_nest_snd; cbn; rewrite app_nil_r; reflexivity).
    rewrite Et. assert (Eg : forall f prev p v, (forall v1 x v2 y v3, v = v1 ++ x :: v2 ++ y :: v3 -> fst x = fst y \/ can (snd x) (snd y) = false) ->
      go fermi can (fun _ _ _ _ => true) f prev p v = []).
    { induction f as [|f IH]; intros prev p v Hv; destruct v as [|x v]; try reflexivity. cbn [go].
      rewrite IH; [|intros v1 a v2 b v3 ->; apply (Hv (x :: v1) a v2 b v3); reflexivity]. rewrite app_nil_r.
      assert (Fz : forall l, (forall j y u, In (j, y, u) l -> In (j, y, u) (picks v)) ->
        flat_map (fun '(j, y, w0) => if eligible can (fun _ _ _ _ => true) prev (p ++ x :: v) x y
          then {| p_sign := sign fermi j; p_pairs := [(x, y)]; p_rest := p ++ w0 |} :: map (prepend (sign fermi j) (x, y)) (go fermi can (fun _ _ _ _ => true) f (prev ++ [(x, y)]) p w0) else []) l = []).
      { induction l as [|[[j y] u] l IHl]; intros Hl; [reflexivity|]. cbn [flat_map]. rewrite IHl by (intros; apply Hl; right; auto). rewrite app_nil_r.
        specialize (Hl j y u (or_introl eq_refl)). apply picks_spec in Hl. destruct Hl as (v1 & v2 & -> & _ & _).
        unfold eligible. destruct (Hv [] x v1 y v2 eq_refl) as [->| ->]; [rewrite Nat.eqb_refl; reflexivity|]. rewrite andb_false_r. reflexivity. }
      apply Fz. auto. }
    rewrite Eg; [cbn; rewrite radd_comm, radd_0; reflexivity|].
    intros v1 x v2 y v3 E. destruct (Nat.eq_dec (fst x) (fst y)) as [|Hne]; [auto|right].
    pose proof (tag_nest_tags [w; w'] 0) as T. fold (tagged [w; w']) in T. rewrite E in T. apply tags_ok_app in T. destruct T as (T1 & T2 & _).
    assert (Hle : fst x <= fst y) by (apply T2; apply in_app_iff; right; left; reflexivity).
    assert (Hx : In x (tagged [w; w'])) by (rewrite E; apply in_app_iff; right; left; reflexivity).
    assert (Hy : In y (tagged [w; w'])) by (rewrite E; apply in_app_iff; right; right; apply in_app_iff; right; left; reflexivity).
    unfold tagged in Hx, Hy. cbn [tag_nest] in Hx, Hy. rewrite app_nil_r in Hx, Hy. apply in_app_iff in Hx, Hy.
    rewrite !in_map_iff in Hx, Hy. destruct Hx as [(a & <- & Ha)|(a & <- & Ha)], Hy as [(b & <- & Hb)|(b & <- & Hb)]; cbn [fst snd] in *; try lia. apply Hc; auto.
  Qed.

  Lemma rearranged_swap {X} (u v : list X) : rearranged (length u * length v)%nat (u ++ v) (v ++ u).
  Proof.
    revert v. induction u as [|x u IH]; intros v; [rewrite app_nil_r; constructor|].
    cbn [app length]. replace (S (length u) * length v)%nat with (length v + length u * length v)%nat by lia.
    eapply re_trans; [apply re_prefix with (a := [x]), IH|]. exact (re_move [] x v u).
  Qed.

  Lemma sign_even n : Nat.even n = true -> sign fermi n = 1%Z.
  Proof. intros H. unfold sign. rewrite <- Nat.negb_even, H, andb_false_r. reflexivity. Qed.

  Lemma normal_commute (can : op -> op -> bool) (w w' : list op) : (forall l r, can l r = false -> contr l r = r0 R) ->
    (forall l r, In l w -> In r w' -> can l r = false) -> (forall l r, In l w' -> In r w -> can l r = false) ->
    (fermi = false \/ Nat.even (length w) = true \/ Nat.even (length w') = true) -> N w * N w' = N w' * N w.
  Proof.
    intros Hz H1 H2 He. rewrite (normal_product can w w' Hz H1), (normal_product can w' w Hz H2).
    rewrite (normal_rearranged fermi plus minus contr CCR _ _ _ (rearranged_swap w w')).
    assert (E : sign fermi (length w * length w')%nat = 1%Z); [|rewrite E; apply zscale_1].
    destruct He as [->|He]; [reflexivity|]. apply sign_even. rewrite Nat.even_mul. apply orb_true_iff. exact He.
  Qed.
End Normal.

(** ** The test on quantum numbers *)
Section Quantum.
  Variable ctx : context.
  Context {I : Type}.
  Variable base : I -> nat.
  Notation op := (op I).
  Notation slot := (slot ctx base).
  Notation conforms := (conforms ctx base).
  Hypothesis low : occupied_lowest ctx.

  Lemma qns_equal_nth : forall (a b : qns) k x y, qns_equal a b = true -> nth_error a k = Some x -> nth_error b k = Some y -> x = y.
  Proof.
    induction a as [|[[a1 a2] [a3 a4]] a IH]; intros [|[[b1 b2] [b3 b4]] b] k x y H Ha Hb; try (destruct k; discriminate).
    unfold qns_equal in H. cbn [List.combine forallb fst snd] in H. apply andb_prop in H. destruct H as (H & H').
    destruct k as [|k]; cbn in Ha, Hb; [|eapply IH; eauto].
    injection Ha as <-. injection Hb as <-. unfold pair_equal, iequal, lower, upper in H. cbn [fst snd] in H. rewrite !andb_true_iff, !Z.eqb_eq in H.
    destruct H as ((-> & ->) & (-> & ->)). reflexivity.
  Qed.

  Lemma nth_in_range {X} (l : list X) k : k < length l -> exists x, nth_error l k = Some x.
  Proof. intros H. destruct (nth_error l k) eqn:E; [eauto|]. apply nth_error_None in E. lia. Qed.

  (** no operator of w can be contracted with an operator of w', in either order *)
  Lemma definite_apart (d d' x y : qns) (w w' : list op) : natural_qns d -> natural_qns d' -> conforms d w -> conforms d' w' -> definite d \/ definite d' ->
    combine ctx d d' = Some x -> combine ctx d' d = Some y -> qns_equal x y = true ->
    forall l r, In l w -> In r w' -> contractible ctx base l r = false /\ contractible ctx base r l = false.
  Proof.
    intros Natd Natd' Cd Cd' Hdef Hx Hy Heq l r Hl Hr. destruct Cd as (Ld & Sd & Nd), Cd' as (Ld' & Sd' & Nd').
    destruct (Nat.eqb_spec (base (oidx l)) (base (oidx r))) as [Eb|Eb].
    2:{ unfold contractible. destruct (Nat.eqb_spec (base (oidx l)) (base (oidx r))); [congruence|].
        destruct (Nat.eqb_spec (base (oidx r)) (base (oidx l))); [congruence|]. rewrite !andb_false_r. auto. }
    set (k := slot (oidx l)). assert (Ek : slot (oidx r) = k) by (unfold k, Qn_Spec.slot; rewrite Eb; reflexivity).
    assert (Kd : k < length d) by (apply Sd, Hl). assert (Kd' : k < length d') by congruence.
    unfold combine in Hx, Hy. rewrite Ld, Ld', Nat.eqb_refl in Hx, Hy.
    assert (Lx : length x = length (occupied_slots ctx)) by (eapply slots_length; eauto; rewrite occ_length; auto).
    assert (Ly : length y = length (occupied_slots ctx)) by (eapply slots_length; eauto; rewrite occ_length; auto).
    destruct (nth_in_range x k) as ([xc xn] & Ex); [rewrite Lx, occ_length, <- Ld; exact Kd|].
    destruct (nth_in_range y k) as ([yc yn] & Ey); [rewrite Ly, occ_length, <- Ld; exact Kd|].
    pose proof (qns_equal_nth _ _ _ _ _ Heq Ex Ey) as Exy.
    destruct (slots_nth _ _ _ _ _ _ Hx Ex) as (o & p & q & Ho & Hp & Hq & Hs).
    destruct (slots_nth _ _ _ _ _ _ Hy Ey) as (o' & q' & p' & Ho' & Hq' & Hp' & Hs').
    rewrite Ho in Ho'. injection Ho' as <-. rewrite Hq in Hq'. injection Hq' as <-. rewrite Hp in Hp'. injection Hp' as <-.
    destruct p as [[p1 p2] [p3 p4]], q as [[q1 q2] [q3 q4]]. apply combine_slot_some in Hs, Hs'. cbn zeta in Hs, Hs'. cbn [fst snd] in Hs, Hs'.
    destruct Hs as (X1 & X2), Hs' as (Y1 & Y2). injection Exy as E1 E2. rewrite X1, Y1 in E1. rewrite X2, Y2 in E2. injection E1 as E1. injection E2 as E2.
    pose proof (proj1 (Forall_forall _ _) Natd _ (nth_error_In _ _ Hp)) as (P1 & P2). pose proof (proj1 (Forall_forall _ _) Natd' _ (nth_error_In _ _ Hq)) as (Q1 & Q2). unfold natural in P1, P2, Q1, Q2. cbn [fst snd] in P1, P2, Q1, Q2.
    destruct (Nd _ _ _ Hp) as (A1 & A2). destruct (Nd' _ _ _ Hq) as (B1 & B2). cbn [fst snd] in A1, A2, B1, B2.
    pose proof (number_nonneg ctx base true k w). pose proof (number_nonneg ctx base false k w). pose proof (number_nonneg ctx base true k w'). pose proof (number_nonneg ctx base false k w').
    assert (Nl : (0 < Qn_Spec.number ctx base (ocre l) k w)%Z) by (apply (number_pos ctx base k (ocre l) w l); auto).
    assert (Nr : (0 < Qn_Spec.number ctx base (ocre r) k w')%Z) by (apply (number_pos ctx base k (ocre r) w' r); auto).
    assert (Fl : (if physical ctx then false else is_occupied ctx base (oidx l)) = o) by (apply (flag_ok ctx base low _ k); auto).
    assert (Fr : (if physical ctx then false else is_occupied ctx base (oidx r)) = o) by (apply (flag_ok ctx base low _ k); auto).
    assert (Df : ((p1 = p2 /\ p3 = p4 /\ (p2 = 0 \/ p4 = 0)) \/ (q1 = q2 /\ q3 = q4 /\ (q2 = 0 \/ q4 = 0)))%Z).
    { destruct Hdef as [D|D]; [left|right].
      - pose proof (proj1 (Forall_forall _ _) D _ (nth_error_In _ _ Hp)) as HD. cbn [fst snd] in HD. exact HD.
      - pose proof (proj1 (Forall_forall _ _) D _ (nth_error_In _ _ Hq)) as HD. cbn [fst snd] in HD. exact HD. }
    assert (Same : ocre l = ocre r).
    { destruct (ocre l) eqn:El, (ocre r) eqn:Er; auto; exfalso; destruct o; lia. }
    unfold contractible. rewrite Same, Bool.eqb_reflx. cbn [negb]. rewrite !andb_false_r. auto.
  Qed.
End Quantum.
