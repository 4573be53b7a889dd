(** Algebra of normal-ordered products. *)
From Coq Require Import List ZArith Bool Arith Lia Permutation.
From Verif Require Import Wick_Model Wick_Spec Wick_Ring.
Import ListNotations.

(** * Positions of a list *)
(** every element with its position and the list without it; [u] stands before *)
Fixpoint picks_from {X} (u v : list X) : list (nat * X * list X) :=
  match v with [] => [] | y :: v' => (length u, y, u ++ v') :: picks_from (u ++ [y]) v' end.
Definition picks {X} (v : list X) := picks_from [] v.

Lemma picks_from_shift {X} (a : X) (v u : list X) :
  picks_from (a :: u) v = map (fun '(j, y, w) => (S j, y, a :: w)) (picks_from u v).
Proof.
  revert u. induction v as [|y v IH]; intros u; [reflexivity|].
  cbn [picks_from map]. f_equal. exact (IH (u ++ [y])).
Qed.

Lemma picks_cons {X} (a : X) (v : list X) :
  picks (a :: v) = (0, a, v) :: map (fun '(j, y, w) => (S j, y, a :: w)) (picks v).
Proof. unfold picks. cbn [picks_from length app]. f_equal. apply (picks_from_shift a v []). Qed.

Lemma picks_app {X} (a b : list X) :
  picks (a ++ b) = map (fun '(j, y, w) => (j, y, w ++ b)) (picks a) ++ map (fun '(j, y, w) => (length a + j, y, a ++ w)) (picks b).
Proof.
  induction a as [|x a IH].
  - cbn [app length map]. rewrite <- (map_id (picks b)) at 1. apply map_ext. intros [[j y] w]. reflexivity.
  - cbn [app]. rewrite !picks_cons, IH, map_app. cbn [map app]. f_equal. f_equal.
    + rewrite !map_map. apply map_ext. intros [[j y] w]. reflexivity.
    + rewrite !map_map. apply map_ext. intros [[j y] w]. reflexivity.
Qed.

Lemma picks_spec {X} (v : list X) j y w :
  In (j, y, w) (picks v) -> exists v1 v2, v = v1 ++ y :: v2 /\ w = v1 ++ v2 /\ length v1 = j.
Proof.
  revert j y w. induction v as [|x v IH]; intros j y w H; [destruct H|].
  rewrite picks_cons in H. destruct H as [H|H].
  - injection H as <- <- <-. exists [], v. auto.
  - apply in_map_iff in H. destruct H as ([[j' y'] w'] & He & Hi). injection He as <- <- <-.
    destruct (IH _ _ _ Hi) as (v1 & v2 & -> & -> & <-). exists (x :: v1), v2. auto.
Qed.

Lemma picks_in {X} (v1 : list X) y v2 : In (length v1, y, v1 ++ v2) (picks (v1 ++ y :: v2)).
Proof.
  rewrite picks_app. apply in_app_iff. right. apply in_map_iff. exists (0, y, v2).
  split; [rewrite Nat.add_0_r; reflexivity|rewrite picks_cons; left; reflexivity].
Qed.

Section Ring.
  Context {R : ring}.
  Notation A := (car R).

  Open Scope op_scope.

  Lemma radd_0_r (x : A) : x + r0 R = x. Proof. ncr. Qed.
  Lemma rmul_0_r (x : A) : x * r0 R = r0 R. Proof. ncr. Qed.
  Lemma rmul_0_l (x : A) : r0 R * x = r0 R. Proof. ncr. Qed.
  Lemma ropp_invol (x : A) : ropp R (ropp R x) = x. Proof. ncr. Qed.
  Lemma ropp_add (x y : A) : ropp R (x + y) = ropp R x + ropp R y. Proof. ncr. Qed.
  Lemma ropp_mul_l (x y : A) : ropp R x * y = ropp R (x * y). Proof. ncr. Qed.
  Lemma ropp_mul_r (x y : A) : x * ropp R y = ropp R (x * y). Proof. ncr. Qed.
  Lemma ropp_0 : ropp R (r0 R) = r0 R. Proof. ncr. Qed.

  Lemma rsum_app (l l' : list A) : rsum (l ++ l') = rsum l + rsum l'.
  Proof. induction l as [|x l IH]; cbn; [ncr|]. unfold rsum in IH |- *. rewrite IH. ncr. Qed.
  Lemma rsum_cons (x : A) l : rsum (x :: l) = x + rsum l. Proof. reflexivity. Qed.
  Lemma rprod_cons (x : A) l : rprod (x :: l) = x * rprod l. Proof. reflexivity. Qed.
  Lemma rprod_app (l l' : list A) : rprod (l ++ l') = rprod l * rprod l'.
  Proof. induction l as [|x l IH]; cbn; [ncr|]. unfold rprod in IH |- *. rewrite IH. ncr. Qed.
  Lemma rsum_map_add {X} (f g : X -> A) l : rsum (map (fun x => f x + g x) l) = rsum (map f l) + rsum (map g l).
  Proof. induction l as [|x l IH]; cbn; [ncr|]. unfold rsum in IH. rewrite IH. ncr. Qed.
  Lemma rsum_map_mul_l {X} (c : A) (f : X -> A) l : rsum (map (fun x => c * f x) l) = c * rsum (map f l).
  Proof. induction l as [|x l IH]; cbn; [ncr|]. unfold rsum in IH. rewrite IH. ncr. Qed.
  Lemma rsum_map_mul_r {X} (c : A) (f : X -> A) l : rsum (map (fun x => f x * c) l) = rsum (map f l) * c.
  Proof. induction l as [|x l IH]; cbn; [ncr|]. unfold rsum in IH. rewrite IH. ncr. Qed.
  Lemma rsum_flat_map {X Y} (f : Y -> A) (g : X -> list Y) l : rsum (map f (flat_map g l)) = rsum (map (fun x => rsum (map f (g x))) l).
  Proof. induction l as [|x l IH]; [reflexivity|]. cbn [flat_map map]. rewrite map_app, rsum_app, IH. reflexivity. Qed.
  Lemma rsum_ext {X} (f g : X -> A) l : (forall x, In x l -> f x = g x) -> rsum (map f l) = rsum (map g l).
  Proof. intros H. f_equal. apply map_ext_in. exact H. Qed.
  Lemma rsum_zero {X} (f : X -> A) l : (forall x, In x l -> f x = r0 R) -> rsum (map f l) = r0 R.
  Proof. induction l as [|x l IH]; intros H; [reflexivity|]. cbn [map]. rewrite rsum_cons, H by (left; auto). rewrite IH by (intros; apply H; right; auto). ncr. Qed.

  (** ** Integer multiples *)
  Fixpoint niter (n : nat) (x : A) : A := match n with 0 => r0 R | S n' => x + niter n' x end.
  Lemma niter_eq n (x : A) : Nat.iter n (radd R x) (r0 R) = niter n x.
  Proof. induction n as [|n IH]; [reflexivity|]. cbn [niter]. rewrite <- IH. reflexivity. Qed.
  Lemma niter_add_l n (x y : A) : niter n (x + y) = niter n x + niter n y.
  Proof. induction n as [|n IH]; cbn [niter]; [ncr|]. rewrite IH. ncr. Qed.
  Lemma niter_plus n m (x : A) : niter (n + m) x = niter n x + niter m x.
  Proof. induction n as [|n IH]; cbn [niter Nat.add]; [ncr|]. rewrite IH. ncr. Qed.
  Lemma niter_mult n m (x : A) : niter (n * m) x = niter n (niter m x).
  Proof. induction n as [|n IH]; [reflexivity|]. change (S n * m)%nat with (m + n * m)%nat. rewrite niter_plus, IH. reflexivity. Qed.
  Lemma niter_opp n (x : A) : niter n (ropp R x) = ropp R (niter n x).
  Proof. induction n as [|n IH]; cbn [niter]; [ncr|]. rewrite IH. ncr. Qed.
  Lemma niter_mul_l n (x y : A) : niter n x * y = niter n (x * y).
  Proof. induction n as [|n IH]; cbn [niter]; [ncr|]. rewrite <- IH. ncr. Qed.
  Lemma niter_mul_r n (x y : A) : y * niter n x = niter n (y * x).
  Proof. induction n as [|n IH]; cbn [niter]; [ncr|]. rewrite <- IH. ncr. Qed.
  Lemma niter_0 n : niter n (r0 R) = r0 R.
  Proof. induction n as [|n IH]; cbn [niter]; [ncr|]. rewrite IH. ncr. Qed.

  Ltac zs := unfold zscale; repeat match goal with |- context [Nat.iter ?n (radd R ?x) (r0 R)] => rewrite (niter_eq n x) end.

  Lemma zscale_1 (x : A) : zscale 1 x = x. Proof. zs. change (Pos.to_nat 1) with 1%nat. cbn [niter]. ncr. Qed.
  Lemma zscale_m1 (x : A) : zscale (-1) x = ropp R x. Proof. zs. change (Pos.to_nat 1) with 1%nat. cbn [niter]. ncr. Qed.
  Lemma zscale_add z (x y : A) : zscale z (x + y) = zscale z x + zscale z y.
  Proof. destruct z as [|p|p]; zs; rewrite ?niter_add_l; ncr. Qed.
  Lemma zscale_zscale z z' (x : A) : zscale z (zscale z' x) = zscale (z * z') x.
  Proof.
    destruct z as [|p|p], z' as [|q|q]; cbn [Z.mul]; zs; rewrite ?Pos2Nat.inj_mul, ?niter_mult, ?niter_opp, ?niter_0, ?ropp_0, ?ropp_invol; reflexivity.
  Qed.
  Lemma zscale_mul_l z (x y : A) : zscale z x * y = zscale z (x * y).
  Proof. destruct z as [|p|p]; zs; rewrite <- ?niter_mul_l; ncr. Qed.
  Lemma zscale_mul_r z (x y : A) : y * zscale z x = zscale z (y * x).
  Proof. destruct z as [|p|p]; zs; rewrite <- ?niter_mul_r; ncr. Qed.
  Lemma zscale_0 z : zscale z (r0 R) = r0 R.
  Proof. rewrite <- (rmul_0_l (r0 R)) at 1. rewrite <- zscale_mul_l. apply rmul_0_r. Qed.
  Lemma zscale_rsum z (l : list A) : zscale z (rsum l) = rsum (map (zscale z) l).
  Proof. induction l as [|x l IH]; [apply zscale_0|]. cbn [map]. rewrite !rsum_cons, zscale_add, IH. reflexivity. Qed.

  (** ** Signs *)
  Lemma sign_case (f : bool) n : sign f n = 1%Z \/ sign f n = (-1)%Z.
  Proof. unfold sign. destruct (f && Nat.odd n); auto. Qed.
  Lemma sign_add (f : bool) n m : sign f (n + m) = (sign f n * sign f m)%Z.
  Proof. unfold sign. destruct f; [|reflexivity]. rewrite Nat.odd_add. destruct (Nat.odd n), (Nat.odd m); reflexivity. Qed.
  Lemma sign_S (f : bool) n : sign f (S n) = (sign f 1 * sign f n)%Z.
  Proof. apply (sign_add f 1 n). Qed.
  Lemma sign_0 (f : bool) : sign f 0 = 1%Z. Proof. unfold sign. destruct f; reflexivity. Qed.
  Lemma sign_sq (f : bool) n : (sign f n * sign f n)%Z = 1%Z.
  Proof. destruct (sign_case f n) as [-> | ->]; reflexivity. Qed.
  Lemma sign_double (f : bool) n : sign f (n + n) = 1%Z.
  Proof. rewrite sign_add. apply sign_sq. Qed.

  Lemma central_zscale z (x : A) : central x -> central (zscale z x).
  Proof. intros H y. rewrite zscale_mul_l, zscale_mul_r, H. reflexivity. Qed.
  Lemma central_mul (x y : A) : central x -> central y -> central (x * y).
  Proof. intros Hx Hy z. rewrite <- rmul_assoc, (Hy z), rmul_assoc, (Hx z), <- rmul_assoc. reflexivity. Qed.
  Lemma central_1 : central (r1 R). Proof. intros y. ncr. Qed.
  Lemma central_rprod (l : list A) : (forall x, In x l -> central x) -> central (rprod l).
  Proof.
    induction l as [|x l IH]; intros H; [apply central_1|]. rewrite rprod_cons.
    apply central_mul; [apply H; left; auto|apply IH; intros; apply H; right; auto].
  Qed.

  Context {O : Type}.
  Variable fermi : bool.
  Variables plus minus : O -> A.
  Variable contr : O -> O -> A.
  Hypothesis CCR : canonical fermi plus minus contr.
  Notation N := (normal fermi plus minus).
  Notation sg := (sign fermi).

  Lemma ccr_mp l r : minus l * plus r = contr l r + zscale (sg 1) (plus r * minus l). Proof. apply CCR. Qed.
  Lemma ccr_pp a b : plus a * plus b = zscale (sg 1) (plus b * plus a). Proof. apply CCR. Qed.
  Lemma ccr_mm a b : minus a * minus b = zscale (sg 1) (minus b * minus a). Proof. apply CCR. Qed.
  Lemma ccr_c l r : central (contr l r). Proof. apply CCR. Qed.

  (** An annihilating part moved through a normal product. *)
  Lemma minus_normal o v :
    minus o * N v = zscale (sg (length v)) (N v * minus o) +
      rsum (map (fun '(j, y, w) => zscale (sg j) (contr o y * N w)) (picks v)).
  Proof.
    induction v as [|x v IH].
    - cbn [normal length picks picks_from map]. rewrite sign_0, zscale_1. cbn. ncr.
    - rewrite picks_cons. cbn [map]. rewrite rsum_cons, sign_0, zscale_1, map_map.
      cbn [normal length].
      rewrite (rsum_ext _ (fun p => (zscale (sg 1) (plus x * (let '(j, y, w) := p in zscale (sg j) (contr o y * N w)))) +
                          (zscale (sg (length v))%Z ((let '(j, y, w) := p in zscale (sg j) (contr o y * N w)) * minus x)))).
      2:{ intros [[j y] w] Hin. apply picks_spec in Hin. destruct Hin as (v1 & v2 & -> & -> & Hj).
          cbn [normal].
          rewrite (rdistr_r R), zscale_add. f_equal.
          - rewrite zscale_mul_r, zscale_zscale, <- sign_S. f_equal.
            rewrite !rmul_assoc. f_equal. apply ccr_c.
          - rewrite zscale_mul_r, zscale_mul_l, !zscale_zscale, rmul_assoc. f_equal.
            rewrite !app_length. cbn [length]. rewrite <- !sign_add.
            rewrite <- !app_length, app_length.
            replace (length v1 + S (length v2) + j)%nat with ((j + 1) + (length v1 + length v2))%nat by lia.
            replace (S j + (length v1 + length v2))%nat with ((j + 1) + (length v1 + length v2))%nat by lia. reflexivity. }
      rewrite (rsum_map_add (fun p => zscale (sg 1) (plus x * (let '(j, y, w) := p in zscale (sg j) (contr o y * N w))))).
      set (S0 := rsum (map (fun '(j, y, w) => zscale (sg j) (contr o y * N w)) (picks v))) in *.
      assert (E1 : rsum (map (fun p => zscale (sg 1) (plus x * (let '(j, y, w) := p in zscale (sg j) (contr o y * N w)))) (picks v)) = zscale (sg 1) (plus x * S0)).
      { unfold S0. rewrite <- rsum_map_mul_l, zscale_rsum, map_map. reflexivity. }
      assert (E2 : rsum (map (fun p => zscale (sg (length v)) ((let '(j, y, w) := p in zscale (sg j) (contr o y * N w)) * minus x)) (picks v)) = zscale (sg (length v)) (S0 * minus x)).
      { unfold S0. rewrite <- rsum_map_mul_r, zscale_rsum, map_map. reflexivity. }
      rewrite E1, E2. clearbody S0. clear E1 E2.
      rewrite (rdistr_r R), rmul_assoc, ccr_mp, (rdistr_l R), zscale_mul_l, <- rmul_assoc, IH.
      rewrite zscale_mul_r, (rmul_assoc R (minus o)), IH.
      rewrite !(rdistr_l R), !(rdistr_r R), !zscale_add, !zscale_mul_l, !zscale_mul_r, !zscale_zscale, <- !sign_S.
      rewrite <- (rmul_assoc R (N v) (minus o) (minus x)), (ccr_mm o x), !zscale_mul_r, !zscale_zscale.
      rewrite <- !rmul_assoc.
      replace (sg (length v) * (sg (length v) * sg 1))%Z with (sg (S (length v)) * sg (length v))%Z by (rewrite sign_S; ring).
      replace (sg 1 * sg (length v))%Z with (sg (S (length v))) by apply sign_S.
      rewrite ?Z.mul_assoc, ?sign_sq. rewrite (sign_S _ (length v)), <- (Z.mul_assoc (sg 1)), sign_sq, Z.mul_1_l, Z.mul_1_r. ncr.
  Qed.

  Lemma normal_swap u a b v : N (u ++ a :: b :: v) = zscale (sg 1) (N (u ++ b :: a :: v)).
  Proof.
    induction u as [|x u IH].
    - cbn [app normal length]. rewrite !(rdistr_l R), !(rdistr_r R), !zscale_add, !zscale_mul_l, !zscale_mul_r, !zscale_zscale.
      rewrite <- !sign_S, !rmul_assoc, (ccr_pp a b), zscale_mul_l.
      rewrite <- (rmul_assoc R (N v) (minus b) (minus a)), (ccr_mm b a), zscale_mul_r, zscale_zscale, rmul_assoc.
      replace (sg (S (length v)) * sg (length v) * sg 1)%Z with (sg 1 * (sg (S (length v)) * sg (length v)))%Z by ring.
      assert (E : sg (S (S (length v))) = sg (length v)) by (rewrite sign_S, (sign_S _ (length v)), Z.mul_assoc, sign_sq; ring).
      assert (E2 : (sg 1 * (sg (S (length v)) * sg (length v)) = sg (length v) * sg (length v))%Z) by (rewrite Z.mul_assoc, <- sign_S, E; reflexivity).
      rewrite E, E2. ncr.
    - cbn [app normal]. rewrite IH. rewrite !app_length. cbn [length].
      rewrite !zscale_mul_r, !zscale_mul_l, zscale_add, !zscale_zscale. f_equal. f_equal. ring.
  Qed.

  Lemma normal_rearranged n u v : rearranged n u v -> N u = zscale (sg n) (N v).
  Proof.
    induction 1 as [u|n u v a b w H IH].
    - rewrite sign_0, zscale_1. reflexivity.
    - rewrite IH, normal_swap, zscale_zscale, Z.mul_comm, <- sign_S. reflexivity.
  Qed.

  (** ** Operators waiting on the left of an expression of degree [d] *)
  Fixpoint wait (d : nat) (p : list O) (X : A) : A :=
    match p with
    | [] => X
    | o :: p' => plus o * wait d p' X + zscale (sg (length p' + d)) (wait d p' X * minus o)
    end.

  Lemma wait_normal p w : wait (length w) p (N w) = N (p ++ w).
  Proof. induction p as [|o p IH]; [reflexivity|]. cbn [wait app normal]. rewrite IH, app_length. reflexivity. Qed.
  Lemma wait_app d p x X : wait d (p ++ [x]) X = wait (S d) p (wait d [x] X).
  Proof.
    induction p as [|o p IH]; [reflexivity|]. cbn [app wait] in *. rewrite IH, app_length. cbn [length].
    replace (length p + 1 + d)%nat with (length p + S d)%nat by lia. reflexivity.
  Qed.
  Lemma wait_add d p X Y : wait d p (X + Y) = wait d p X + wait d p Y.
  Proof. induction p as [|o p IH]; [reflexivity|]. cbn [wait]. rewrite IH, (rdistr_l R), zscale_add. ncr. Qed.
  Lemma wait_central d p c X : central c -> wait d p (c * X) = c * wait d p X.
  Proof.
    intros Hc. induction p as [|o p IH]; [reflexivity|]. cbn [wait]. rewrite IH, (rdistr_r R), zscale_mul_r.
    rewrite !rmul_assoc, (Hc (plus o)). reflexivity.
  Qed.
  Lemma wait_zscale d p z X : wait d p (zscale z X) = zscale z (wait d p X).
  Proof.
    induction p as [|o p IH]; [reflexivity|]. cbn [wait]. rewrite IH, zscale_add, zscale_mul_r, zscale_mul_l, !zscale_zscale.
    f_equal. f_equal. ring.
  Qed.
  Lemma wait_zero d p : wait d p (r0 R) = r0 R.
  Proof. induction p as [|o p IH]; [reflexivity|]. cbn [wait]. rewrite IH, rmul_0_l, zscale_0. ncr. Qed.
  Lemma wait_rsum {X} d p (f : X -> A) l : wait d p (rsum (map f l)) = rsum (map (fun x => wait d p (f x)) l).
  Proof. induction l as [|x l IH]; [apply wait_zero|]. cbn [map]. rewrite !rsum_cons, wait_add, IH. reflexivity. Qed.
  Lemma wait_parity d p X : wait (S (S d)) p X = wait d p X.
  Proof.
    induction p as [|o p IH]; [reflexivity|]. cbn [wait]. rewrite IH.
    replace (length p + S (S d))%nat with (2 + (length p + d))%nat by lia. rewrite (sign_add _ 2), (sign_double _ 1), Z.mul_1_l. reflexivity.
  Qed.

  (** ** Products of normal products *)
  Definition members (k : nat) (v : list (nat * O)) : list O := map snd (filter (fun p => Nat.eqb (fst p) k) v).
  Definition product_of (ks : list nat) (v : list (nat * O)) : A := rprod (map (fun k => N (members k v)) ks).

  (** sorted by tag, tags from [k] to [k+m-1] *)
  Fixpoint tags_ok (k m : nat) (v : list (nat * O)) : Prop :=
    match v with
    | [] => True
    | x :: v' => k <= fst x < k + m /\ (forall y, In y v' -> fst x <= fst y) /\ tags_ok k m v'
    end.

  Lemma tags_ok_in k m v x : tags_ok k m v -> In x v -> k <= fst x < k + m.
  Proof. induction v as [|y v IH]; intros H Hi; [destruct Hi|]. destruct H as (H1 & H2 & H3). destruct Hi as [->|Hi]; auto. Qed.

  Lemma tags_ok_sub k m v1 y v2 : tags_ok k m (v1 ++ y :: v2) -> tags_ok k m (v1 ++ v2).
  Proof.
    induction v1 as [|x v1 IH]; cbn [app tags_ok]; intros H; [tauto|].
    destruct H as (H1 & H2 & H3). split; [auto|]. split; [|auto].
    intros z Hz. apply H2. apply in_app_iff in Hz. apply in_app_iff. cbn. tauto.
  Qed.

  Lemma tags_ok_app k m p v : tags_ok k m (p ++ v) -> tags_ok k m v.
  Proof. induction p as [|x p IH]; [auto|]. cbn. tauto. Qed.

  Lemma tags_split k m v : tags_ok k (S m) v -> exists v1 v2, v = v1 ++ v2 /\ (forall x, In x v1 -> fst x = k) /\ tags_ok (S k) m v2.
  Proof.
    induction v as [|x v IH]; intros H.
    - exists [], []. repeat split; auto. intros x Hx; destruct Hx.
    - destruct H as (H1 & H2 & H3). destruct (IH H3) as (v1 & v2 & -> & Hv1 & Hv2).
      destruct (Nat.eq_dec (fst x) k) as [E|E].
      + exists (x :: v1), v2. split; [reflexivity|]. split; [|auto]. intros z [<-|Hz]; auto.
      + exists [], (x :: v1 ++ v2). split; [reflexivity|]. split; [intros z Hz; destruct Hz|].
        assert (v1 = []) as ->.
        { destruct v1 as [|z v1]; [reflexivity|]. specialize (Hv1 z (or_introl eq_refl)).
          specialize (H2 z (or_introl eq_refl)). lia. }
        cbn [app tags_ok] in *. split; [lia|]. auto.
  Qed.

  Lemma members_app k v v' : members k (v ++ v') = members k v ++ members k v'.
  Proof. unfold members. rewrite filter_app, map_app. reflexivity. Qed.
  Lemma members_all k v : (forall x, In x v -> fst x = k) -> members k v = map snd v.
  Proof.
    induction v as [|x v IH]; intros H; [reflexivity|]. unfold members in *. cbn [filter].
    rewrite (H x (or_introl eq_refl)), Nat.eqb_refl. cbn [map]. f_equal. apply IH. intros; apply H; right; auto.
  Qed.
  Lemma members_none k v : (forall x, In x v -> fst x <> k) -> members k v = [].
  Proof.
    induction v as [|x v IH]; intros H; [reflexivity|]. unfold members in *. cbn [filter].
    destruct (Nat.eqb_spec (fst x) k) as [E|E]; [elim (H x (or_introl eq_refl) E)|]. apply IH. intros; apply H; right; auto.
  Qed.

  Lemma product_of_skip ks v1 v2 : (forall x k, In x v1 -> In k ks -> fst x <> k) -> product_of ks (v1 ++ v2) = product_of ks v2.
  Proof.
    intros H. unfold product_of. f_equal. apply map_ext_in. intros k Hk. f_equal.
    rewrite members_app, members_none; [reflexivity|]. intros x Hx. apply H; auto.
  Qed.

  (** [v1] carries the tag [k], [v2] larger ones *)
  Lemma product_of_split k m v1 v2 : (forall x, In x v1 -> fst x = k) -> (forall x, In x v2 -> S k <= fst x) ->
    product_of (seq k (S m)) (v1 ++ v2) = N (map snd v1) * product_of (seq (S k) m) v2.
  Proof.
    intros H1 H2. cbn [seq]. unfold product_of at 1. cbn [map]. rewrite rprod_cons. f_equal.
    - rewrite members_app, (members_all k v1 H1), members_none, app_nil_r; [reflexivity|]. intros x Hx E. specialize (H2 x Hx). lia.
    - apply product_of_skip. intros x k' Hx Hk E. apply in_seq in Hk. rewrite (H1 x Hx) in E. lia.
  Qed.

  Lemma tags_ok_ge k m v : tags_ok k m v -> forall x, In x v -> k <= fst x.
  Proof. intros H x Hx. apply (tags_ok_in k m v x H Hx). Qed.

  Lemma map_snd_picks v : map (fun '(j, y, w) => (j, snd y, map snd w)) (picks v) = picks (map (@snd nat O) v).
  Proof.
    induction v as [|x v IH]; [reflexivity|]. cbn [map]. rewrite !picks_cons, <- IH. cbn [map]. f_equal.
    rewrite !map_map. apply map_ext. intros [[j y] w]. reflexivity.
  Qed.

  Lemma minus_product o : forall m k v, tags_ok k m v ->
    minus o * product_of (seq k m) v = zscale (sg (length v)) (product_of (seq k m) v * minus o) +
      rsum (map (fun '(j, y, w) => zscale (sg j) (contr o (snd y) * product_of (seq k m) w)) (picks v)).
  Proof.
    induction m as [|m IH]; intros k v H.
    - destruct v as [|x v]; [|cbn in H; lia]. cbn [seq length picks picks_from map]. rewrite sign_0, zscale_1. unfold product_of. cbn. ncr.
    - destruct (tags_split k m v H) as (v1 & v2 & -> & H1 & H2). clear H.
      pose proof (tags_ok_ge _ _ _ H2) as H2'.
      rewrite (product_of_split k m v1 v2 H1 H2').
      rewrite picks_app, map_app, rsum_app, !map_map.
      rewrite (rsum_ext _ (fun p => (let '(j, y, w) := p in zscale (sg j) (contr o (snd y) * N (map snd w))) * product_of (seq (S k) m) v2) (picks v1)).
      2:{ intros [[j y] w] Hin. apply picks_spec in Hin. destruct Hin as (u1 & u2 & -> & -> & Hj).
          rewrite (product_of_split k m (u1 ++ u2) v2).
          - rewrite zscale_mul_l, rmul_assoc. reflexivity.
          - intros x Hx. apply H1. apply in_app_iff in Hx. apply in_app_iff. cbn. tauto.
          - exact H2'. }
      rewrite (rsum_map_mul_r (product_of (seq (S k) m) v2) (fun p => let '(j, y, w) := p in zscale (sg j) (contr o (snd y) * N (map snd w)))).
      rewrite (rsum_ext (fun x => let '(j, y, w) := let '(j0, y0, w0) := x in ((length v1 + j0)%nat, y0, v1 ++ w0) in zscale (sg j) (contr o (snd y) * product_of (seq k (S m)) w))
                 (fun p => zscale (sg (length v1)) (N (map snd v1) * (let '(j, y, w) := p in zscale (sg j) (contr o (snd y) * product_of (seq (S k) m) w)))) (picks v2)).
      2:{ intros [[j y] w] Hin. apply picks_spec in Hin. destruct Hin as (u1 & u2 & -> & -> & Hj).
          rewrite (product_of_split k m v1 (u1 ++ u2) H1).
          - rewrite zscale_mul_r, zscale_zscale, sign_add. f_equal. rewrite !rmul_assoc. f_equal. apply ccr_c.
          - intros x Hx. apply H2'. apply in_app_iff in Hx. apply in_app_iff. cbn. tauto. }
      assert (E2 : rsum (map (fun p => zscale (sg (length v1)) (N (map snd v1) * (let '(j, y, w) := p in zscale (sg j) (contr o (snd y) * product_of (seq (S k) m) w)))) (picks v2))
              = zscale (sg (length v1)) (N (map snd v1) * rsum (map (fun '(j, y, w) => zscale (sg j) (contr o (snd y) * product_of (seq (S k) m) w)) (picks v2)))).
      { rewrite <- rsum_map_mul_l, zscale_rsum, map_map. reflexivity. }
      rewrite E2. clear E2.
      pose proof (minus_normal o (map snd v1)) as HN. rewrite <- map_snd_picks, map_map, map_length in HN.
      rewrite (rsum_ext _ (fun p => let '(j, y, w) := p in zscale (sg j) (contr o (snd y) * N (map snd w)))) in HN
        by (intros [[j y] w] _; reflexivity).
      rewrite rmul_assoc, HN, (rdistr_l R), zscale_mul_l, <- (rmul_assoc R _ (minus o)), (IH (S k) v2 H2).
      rewrite (rdistr_r R), zscale_add, zscale_mul_r, zscale_zscale, <- sign_add, app_length, rmul_assoc.
      ncr.
  Qed.

  (** The first operator of a product: it waits on the left, or it is contracted with an operator
      of another normal product. *)
  Lemma first_operator m k x v : tags_ok k m (x :: v) ->
    product_of (seq k m) (x :: v) = wait (length v) [snd x] (product_of (seq k m) v) +
      rsum (map (fun '(j, y, w) => if Nat.eqb (fst x) (fst y) then r0 R
                                    else zscale (sg j) (contr (snd x) (snd y) * product_of (seq k m) w)) (picks v)).
  Proof.
    revert k x v. induction m as [|m IH]; intros k x v H; [cbn in H; lia|].
    destruct (tags_split k m (x :: v) H) as (v1 & v2 & E & H1 & H2).
    pose proof (tags_ok_ge _ _ _ H2) as H2'.
    destruct v1 as [|x' v1].
    - (* no operator with tag k *)
      cbn [app] in E. subst v2. specialize (IH (S k) x v H2).
      assert (HS : forall w, (forall z, In z w -> S k <= fst z) -> product_of (seq k (S m)) w = product_of (seq (S k) m) w).
      { intros w Hw. rewrite <- (app_nil_l w), (product_of_split k m [] w); [cbn; ncr|intros z Hz; destruct Hz|exact Hw]. }
      rewrite (HS (x :: v)) by exact H2'. rewrite IH. f_equal.
      + rewrite (HS v); [reflexivity|]. intros z Hz. apply H2'. right; auto.
      + apply rsum_ext. intros [[j y] w] Hin. apply picks_spec in Hin. destruct Hin as (u1 & u2 & -> & -> & Hj).
        rewrite (HS (u1 ++ u2)); [reflexivity|]. intros z Hz. apply H2'. right. apply in_app_iff in Hz. apply in_app_iff. cbn. tauto.
    - injection E as <- ->.
      assert (Hx : fst x = k) by (apply H1; left; auto).
      assert (H1' : forall z, In z v1 -> fst z = k) by (intros z Hz; apply H1; right; auto).
      change (x :: v1 ++ v2) with ((x :: v1) ++ v2).
      rewrite (product_of_split k m (x :: v1) v2 H1 H2'), (product_of_split k m v1 v2 H1' H2').
      cbn [map normal wait]. rewrite map_length, app_length. cbn [length Nat.add].
      rewrite picks_app, map_app, rsum_app, !map_map.
      rewrite (rsum_zero _ (picks v1)).
      2:{ intros [[j y] w] Hin. apply picks_spec in Hin. destruct Hin as (u1 & u2 & -> & -> & Hj).
          rewrite Hx, (H1' y), Nat.eqb_refl; [reflexivity|]. apply in_app_iff. cbn. tauto. }
      rewrite (rsum_ext _ (fun p => zscale (sg (length v1)) (N (map snd v1) * (let '(j, y, w) := p in zscale (sg j) (contr (snd x) (snd y) * product_of (seq (S k) m) w)))) (picks v2)).
      2:{ intros [[j y] w] Hin. apply picks_spec in Hin. destruct Hin as (u1 & u2 & -> & -> & Hj).
          assert (Hy : S k <= fst y) by (apply H2'; apply in_app_iff; cbn; tauto).
          destruct (Nat.eqb_spec (fst x) (fst y)) as [E|E]; [lia|].
          rewrite (product_of_split k m v1 (u1 ++ u2) H1').
          - rewrite zscale_mul_r, zscale_zscale, sign_add. f_equal. rewrite !rmul_assoc. f_equal. apply ccr_c.
          - intros z Hz. apply H2'. apply in_app_iff in Hz. apply in_app_iff. cbn. tauto. }
      assert (E2 : rsum (map (fun p => zscale (sg (length v1)) (N (map snd v1) * (let '(j, y, w) := p in zscale (sg j) (contr (snd x) (snd y) * product_of (seq (S k) m) w)))) (picks v2))
              = zscale (sg (length v1)) (N (map snd v1) * rsum (map (fun '(j, y, w) => zscale (sg j) (contr (snd x) (snd y) * product_of (seq (S k) m) w)) (picks v2)))).
      { rewrite <- rsum_map_mul_l, zscale_rsum, map_map. reflexivity. }
      rewrite E2. clear E2.
      rewrite (rdistr_l R), zscale_mul_l, <- (rmul_assoc R _ (minus (snd x))), (minus_product (snd x) m (S k) v2 H2).
      rewrite (rdistr_r R), zscale_add, zscale_mul_r, zscale_zscale, <- sign_add, !rmul_assoc.
      ncr.
  Qed.
End Ring.
