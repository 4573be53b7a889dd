(** The contraction patterns as a pure enumeration, and the sum of their values. *)
From Coq Require Import List ZArith Bool Arith Lia Permutation.
From Verif Require Import Wick_Model Wick_Spec Wick_Ring Wick_Proofs1.
Import ListNotations.

Record pterm (O : Type) := mkp { p_sign : Z; p_pairs : list ((nat * O) * (nat * O)); p_rest : list (nat * O) }.
Arguments mkp {O}. Arguments p_sign {O}. Arguments p_pairs {O}. Arguments p_rest {O}.

Section Enum.
  Context {O : Type}.
  Variable fermi : bool.
  Variable is_qpann : O -> bool.
  Variable can_contract : O -> O -> bool.
  Notation T := (nat * O)%type.
  (** [allow prev cur x y]: the pair (x, y) may be contracted in [cur] after [prev] *)
  Variable allow : list (T * T) -> list T -> T -> T -> bool.

  Definition eligible (prev : list (T * T)) (cur : list T) (x y : T) : bool :=
    negb (Nat.eqb (fst x) (fst y)) && can_contract (snd x) (snd y) && allow prev cur x y.

  Definition prepend (s : Z) (xy : T * T) (t : pterm O) : pterm O := mkp (s * p_sign t) (xy :: p_pairs t) (p_rest t).

  Fixpoint go (f : nat) (prev : list (T * T)) (p v : list T) : list (pterm O) :=
    match v with
    | [] => []
    | x :: v' =>
        match f with
        | 0 => []
        | S f' =>
            flat_map (fun '(j, y, w) =>
              if eligible prev (p ++ v) x y
              then mkp (sign fermi j) [(x, y)] (p ++ w) :: map (prepend (sign fermi j) (x, y)) (go f' (prev ++ [(x, y)]) p w)
              else []) (picks v')
            ++ go f' prev (p ++ [x]) v'
        end
    end.

  Fixpoint gof (f : nat) (prev : list (T * T)) (v : list T) : list (pterm O) :=
    match v with
    | [] => [mkp 1 [] []]
    | x :: v' =>
        match f with
        | 0 => []
        | S f' =>
            if is_qpann (snd x) then
              flat_map (fun '(j, y, w) =>
                if eligible prev v x y
                then map (prepend (sign fermi j) (x, y)) (gof f' (prev ++ [(x, y)]) w)
                else []) (picks v')
            else []
        end
    end.

  Lemma flat_map_ext' {X Y} (f g : X -> list Y) l : (forall x, In x l -> f x = g x) -> flat_map f l = flat_map g l.
  Proof. induction l as [|x l IH]; intros H; [reflexivity|]. cbn. rewrite H by (left; auto). rewrite IH; [reflexivity|]. intros; apply H; right; auto. Qed.

  Lemma picks_length {X} (v : list X) j y w : In (j, y, w) (picks v) -> length v = S (length w).
  Proof. intros H. apply picks_spec in H. destruct H as (v1 & v2 & -> & -> & _). rewrite !app_length. cbn. lia. Qed.

  Lemma go_fuel f f' prev p v : length v <= f -> length v <= f' -> go f prev p v = go f' prev p v.
  Proof.
    revert f' prev p v. induction f as [|f IH]; intros f' prev p v H H'.
    - destruct v; [|cbn in H; lia]. destruct f'; reflexivity.
    - destruct v as [|x v]; [destruct f'; reflexivity|]. destruct f' as [|f']; [cbn in H'; lia|].
      cbn in H, H'. cbn [go]. f_equal.
      + apply flat_map_ext'. intros [[j y] w] Hin. apply picks_length in Hin.
        rewrite (IH f' (prev ++ [(x, y)]) p w) by lia. reflexivity.
      + apply IH; lia.
  Qed.

  Lemma gof_fuel f f' prev v : length v <= f -> length v <= f' -> gof f prev v = gof f' prev v.
  Proof.
    revert f' prev v. induction f as [|f IH]; intros f' prev v H H'.
    - destruct v; [|cbn in H; lia]. destruct f'; reflexivity.
    - destruct v as [|x v]; [destruct f'; reflexivity|]. destruct f' as [|f']; [cbn in H'; lia|].
      cbn in H, H'. cbn [gof]. destruct (is_qpann (snd x)); [|reflexivity].
      apply flat_map_ext'. intros [[j y] w] Hin. apply picks_length in Hin.
      rewrite (IH f' (prev ++ [(x, y)]) w) by lia. reflexivity.
  Qed.

  Context {R : ring}.
  Notation A := (car R).
  Variables plus minus : O -> A.
  Variable contr : O -> O -> A.
  Hypothesis CCR : canonical fermi plus minus contr.
  Hypothesis contr_zero : forall l r, can_contract l r = false -> contr l r = r0 R.
  Notation N := (normal fermi plus minus).
  Notation sg := (sign fermi).
  Open Scope op_scope.

  Definition pairs_value (l : list (T * T)) : A := rprod (map (fun xy => contr (snd (fst xy)) (snd (snd xy))) l).
  Definition pvalue (t : pterm O) : A := zscale (p_sign t) (pairs_value (p_pairs t) * N (map snd (p_rest t))).

  Lemma prepend_value s x y t : pvalue (prepend s (x, y) t) = zscale s (contr (snd x) (snd y) * pvalue t).
  Proof.
    unfold pvalue, prepend, pairs_value. cbn [p_sign p_pairs p_rest map fst snd]. rewrite rprod_cons.
    rewrite zscale_mul_r, zscale_zscale, rmul_assoc. reflexivity.
  Qed.

  Lemma prepend_sum s x y l : rsum (map pvalue (map (prepend s (x, y)) l)) = zscale s (contr (snd x) (snd y) * rsum (map pvalue l)).
  Proof.
    rewrite map_map, (rsum_ext _ (fun t => zscale s (contr (snd x) (snd y) * pvalue t))) by (intros; apply prepend_value).
    rewrite <- rsum_map_mul_l, zscale_rsum, map_map. reflexivity.
  Qed.

  Hypothesis no_constraint : forall prev cur x y, allow prev cur x y = true.

  Lemma eligible_cases prev cur x y (X : A) :
    (if eligible prev cur x y then contr (snd x) (snd y) * X else r0 R) =
    (if Nat.eqb (fst x) (fst y) then r0 R else contr (snd x) (snd y) * X).
  Proof.
    unfold eligible. rewrite no_constraint, andb_true_r.
    destruct (Nat.eqb (fst x) (fst y)); cbn [negb andb]; [reflexivity|].
    destruct (can_contract (snd x) (snd y)) eqn:E; [reflexivity|]. rewrite (contr_zero _ _ E), rmul_0_l. reflexivity.
  Qed.

  Lemma product_of_nil ks : product_of fermi plus minus ks [] = r1 R.
  Proof. induction ks as [|k ks IH]; [reflexivity|]. unfold product_of in *. cbn [map]. rewrite rprod_cons, IH. cbn. ncr. Qed.

  Variable m : nat.
  Notation Q := (product_of fermi plus minus (seq 0 m)).

  Lemma go_value f prev p v : length v <= f -> tags_ok 0 m v ->
    N (map snd (p ++ v)) + rsum (map pvalue (go f prev p v)) = wait fermi plus minus (length v) (map snd p) (Q v).
  Proof.
    revert prev p v. induction f as [|f IH]; intros prev p v Hf Hv.
    - destruct v; [|cbn in Hf; lia]. cbn [go map]. rewrite product_of_nil, app_nil_r. cbn [length].
      pose proof (wait_normal fermi plus minus (map snd p) []) as E. cbn [length normal] in E. rewrite E, app_nil_r. cbn. ncr.
    - destruct v as [|x v].
      + cbn [go map]. rewrite product_of_nil, app_nil_r. cbn [length].
        pose proof (wait_normal fermi plus minus (map snd p) []) as E. cbn [length normal] in E. rewrite E, app_nil_r. cbn. ncr.
      + cbn [length] in Hf. cbn [go]. rewrite (map_app pvalue), rsum_app, rsum_flat_map.
        rewrite (first_operator fermi plus minus contr CCR m 0 x v Hv).
        cbn [length]. rewrite wait_add, wait_rsum.
        destruct Hv as (Hx & Hle & Hv).
        assert (E1 : N (map snd (p ++ x :: v)) + rsum (map pvalue (go f prev (p ++ [x]) v)) =
                     wait fermi plus minus (S (length v)) (map snd p) (wait fermi plus minus (length v) [snd x] (Q v))).
        { rewrite <- wait_app. replace (p ++ x :: v) with ((p ++ [x]) ++ v) by (rewrite <- app_assoc; reflexivity).
          rewrite IH by (auto; lia). rewrite map_app. reflexivity. }
        rewrite <- E1.
        rewrite (rsum_ext _ (fun '(j, y, w) => wait fermi plus minus (S (length v)) (map snd p)
            (if (fst x =? fst y)%nat then r0 R else zscale (sg j) (contr (snd x) (snd y) * Q w)))).
        2:{ intros [[j y] w] Hin. pose proof (picks_length _ _ _ _ Hin) as Hl. apply picks_spec in Hin.
            destruct Hin as (v1 & v2 & -> & -> & Hj).
            assert (Hw : tags_ok 0 m (v1 ++ v2)) by (apply (tags_ok_sub 0 m v1 y v2); auto).
            rewrite Hl, wait_parity.
            transitivity (if eligible prev (p ++ x :: v1 ++ y :: v2) x y then zscale (sg j) (contr (snd x) (snd y) * wait fermi plus minus (length (v1 ++ v2)) (map snd p) (Q (v1 ++ v2))) else r0 R).
            - destruct (eligible _ _ x y); [|reflexivity]. cbn [map]. rewrite rsum_cons, prepend_sum.
              rewrite <- (IH (prev ++ [(x, y)]) p (v1 ++ v2)) by (auto; lia).
              unfold pvalue at 1, pairs_value. cbn [p_sign p_pairs p_rest map fst snd]. rewrite rprod_cons. cbn [rprod fold_right].
              rewrite <- zscale_add. f_equal. ncr.
            - transitivity (zscale (sg j) (if eligible prev (p ++ x :: v1 ++ y :: v2) x y then contr (snd x) (snd y) * wait fermi plus minus (length (v1 ++ v2)) (map snd p) (Q (v1 ++ v2)) else r0 R)).
              + destruct (eligible _ _ x y); [reflexivity|]. symmetry. apply zscale_0.
              + rewrite eligible_cases. destruct (Nat.eqb (fst x) (fst y)).
                * rewrite zscale_0, wait_zero. reflexivity.
                * rewrite wait_zscale, wait_central; [reflexivity|apply CCR]. }
        rewrite (rsum_ext (fun x0 => wait fermi plus minus (S (length v)) (map snd p) (let '(j, y, w) := x0 in if (fst x =? fst y)%nat then r0 R else zscale (sg j) (contr (snd x) (snd y) * Q w)))
          (fun '(j, y, w) => wait fermi plus minus (S (length v)) (map snd p) (if (fst x =? fst y)%nat then r0 R else zscale (sg j) (contr (snd x) (snd y) * Q w)))) by (intros [[j y] w] _; reflexivity).
        ncr.
  Qed.

  Hypothesis qpann_ok : forall l r, can_contract l r = true -> is_qpann l = true.
  Variable V : A -> A.
  Hypothesis HV : expectation plus minus V.

  Lemma V_zscale z x : V (zscale z x) = zscale z (V x).
  Proof.
    destruct HV as (_ & Hc & _).
    rewrite <- (rmul_1_l R x) at 1. rewrite <- zscale_mul_l, Hc, zscale_mul_l, rmul_1_l; [reflexivity|].
    apply central_zscale, central_1.
  Qed.
  Lemma V_0 : V (r0 R) = r0 R.
  Proof. change (r0 R) with (zscale 0 (r1 R) : A) at 1. rewrite V_zscale. reflexivity. Qed.
  Lemma V_rsum l : V (rsum l) = rsum (map V l).
  Proof. induction l as [|x l IH]; [apply V_0|]. cbn [map]. rewrite !rsum_cons, <- IH. apply HV. Qed.
  Lemma V_wait d o X : V (wait fermi plus minus d [o] X) = r0 R.
  Proof.
    cbn [wait]. destruct HV as (Ha & Hc & H1 & Hp & Hm). rewrite Ha, Hp, V_zscale, Hm, zscale_0. ncr.
  Qed.

  Lemma gof_value f prev v : length v <= f -> tags_ok 0 m v -> rsum (map pvalue (gof f prev v)) = V (Q v).
  Proof.
    revert prev v. induction f as [|f IH]; intros prev v Hf Hv.
    - destruct v; [|cbn in Hf; lia]. cbn [gof map]. rewrite product_of_nil. destruct HV as (_ & _ & -> & _).
      unfold pvalue. cbn [p_sign p_pairs p_rest]. rewrite zscale_1. cbn. ncr.
    - destruct v as [|x v].
      + cbn [gof map]. rewrite product_of_nil. destruct HV as (_ & _ & -> & _).
        unfold pvalue. cbn [p_sign p_pairs p_rest]. rewrite zscale_1. cbn. ncr.
      + cbn [length] in Hf. rewrite (first_operator fermi plus minus contr CCR m 0 x v Hv).
        destruct Hv as (Hx & Hle & Hv).
        destruct HV as (Ha & Hc & _). rewrite Ha, V_wait, V_rsum, map_map, (radd_0 R).
        cbn [gof].
        assert (E : rsum (map (fun x0 => V (let '(j, y, w) := x0 in if (fst x =? fst y)%nat then r0 R else zscale (sg j) (contr (snd x) (snd y) * Q w))) (picks v)) =
                    rsum (map (fun '(j, y, w) => rsum (map pvalue (if eligible prev (x :: v) x y then map (prepend (sg j) (x, y)) (gof f (prev ++ [(x, y)]) w) else []))) (picks v))).
        { apply rsum_ext. intros [[j y] w] Hin. pose proof (picks_length _ _ _ _ Hin) as Hl. apply picks_spec in Hin.
          destruct Hin as (v1 & v2 & -> & -> & Hj).
          assert (Hw : tags_ok 0 m (v1 ++ v2)) by (apply (tags_ok_sub 0 m v1 y v2); auto).
          transitivity (if eligible prev (x :: v1 ++ y :: v2) x y then zscale (sg j) (contr (snd x) (snd y) * V (Q (v1 ++ v2))) else r0 R).
          - transitivity (zscale (sg j) (V (if eligible prev (x :: v1 ++ y :: v2) x y then contr (snd x) (snd y) * Q (v1 ++ v2) else r0 R))).
            + rewrite eligible_cases, <- V_zscale. destruct (Nat.eqb (fst x) (fst y)); [rewrite zscale_0|]; reflexivity.
            + destruct (eligible _ _ x y); [|rewrite V_0; apply zscale_0]. rewrite Hc; [reflexivity|apply CCR].
          - destruct (eligible _ _ x y); [|reflexivity]. rewrite prepend_sum, IH by (auto; lia). reflexivity. }
        rewrite E. destruct (is_qpann (snd x)) eqn:Eq.
        * rewrite rsum_flat_map. apply rsum_ext. intros [[j y] w] _. reflexivity.
        * cbn [map]. symmetry. apply rsum_zero. intros [[j y] w] _.
          destruct (eligible prev (x :: v) x y) eqn:Ee; [|reflexivity].
          unfold eligible in Ee. apply andb_prop in Ee. destruct Ee as (Ee & _). apply andb_prop in Ee. destruct Ee as (_ & Ee).
          rewrite (qpann_ok _ _ Ee) in Eq. discriminate.
  Qed.
End Enum.
