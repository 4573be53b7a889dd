(** Final statements about the expression algebra (C25-C29, C31). *)
From Coq Require Import List ZArith Bool Arith Lia Permutation.
From Verif Require Import Wick_Spec Wick_Ring Expr_Model Expr_Spec Expr_Proofs1 Expr_Proofs2 Expr_Proofs3 Expr_Proofs4 Expr_Proofs5.
Import ListNotations.

Section Statements.
  Variable k : kops.
  Variable a : aops k.
  Notation E := (expr (K k) (A a)).
  Variable i : interpretation k a.
  Notation value := (value i).
  Local Open Scope op_scope.

  (** Every result is a well-formed expression and has the stated value. *)
  Definition gives (e : E) (v : car (ir i)) : Prop := ok e /\ value e = v.

  (** ** C25: products *)
  Theorem C25_product_constructor kd s t fs : Forall ok fs -> gives (mk_prod k a kd s t fs) (emb i s * rprod (map value fs)).
  Proof. apply mk_prod_ok. Qed.
  Theorem C25_product_from_expression t e : ok e -> gives (prod_of_expr k a t e) (value e).
  Proof. apply prod_of_expr_ok. Qed.
  Theorem C25_append z f t kd s fs : ok f -> ok (k:=k) (a:=a) (EProd kd s fs) ->
    gives (product_append k a z f t (EProd kd s fs)) (value (EProd kd s fs) * (emb i z * value f)).
  Proof. apply product_append_ok. Qed.
  Theorem C25_times l r : ok l -> ok r -> gives (times k a l r) (value l * value r).
  Proof. apply times_ok. Qed.
  Theorem C25_nctimes l r : ok l -> ok r -> gives (nctimes k a l r) (value l * value r).
  Proof. apply nctimes_ok. Qed.
  Theorem C25_times_assign l r : ook k a l -> ook k a r ->
    ook k a (times_assign k a l r) /\ oval k a i (r1 _) (times_assign k a l r) = oval k a i (r1 _) l * oval k a i (r1 _) r.
  Proof. apply times_assign_ok. Qed.
  (** Only for factors that are not products: see C25_prepend_product_refuted for the others. *)
  Theorem C25_prepend_partial z f t kd s fs : is_prod k a f = false -> ok f -> ok (k:=k) (a:=a) (EProd kd s fs) ->
    gives (product_prepend k a z f t (EProd kd s fs)) (emb i z * value f * value (EProd kd s fs)).
  Proof. apply product_prepend_ok. Qed.
  (** A clone is an expression with the same value. *)
  Theorem C25_clone e : ok e -> gives (clone k a e) (value e).
  Proof. apply clone_ok. Qed.

  (** ** C26: sums *)
  Theorem C26_sum_constructor ss : Forall ok ss -> gives (mk_sum k a ss) (rsum (map value ss)).
  Proof. apply mk_sum_ok. Qed.
  Theorem C26_append x ci ss : ok x -> ok (k:=k) (a:=a) (ESum ci ss) ->
    gives (sum_append_to k a x (ESum ci ss)) (value (ESum ci ss) + value x).
  Proof. apply sum_append_to_ok. Qed.
  Theorem C26_prepend x ci ss : ok x -> ok (k:=k) (a:=a) (ESum ci ss) ->
    gives (sum_prepend_to k a x (ESum ci ss)) (value x + value (ESum ci ss)).
  Proof. apply sum_prepend_to_ok. Qed.
  Theorem C26_plus l r : ok l -> ok r -> gives (plus k a l r) (value l + value r).
  Proof. apply plus_ok. Qed.
  Theorem C26_minus l r : ok l -> ok r -> gives (minus k a l r) (value l + ropp _ (value r)).
  Proof. apply minus_ok. Qed.
  Theorem C26_plus_assign l r : ook k a l -> ook k a r ->
    ook k a (plus_assign k a l r) /\ oval k a i (r0 _) (plus_assign k a l r) = oval k a i (r0 _) l + oval k a i (r0 _) r.
  Proof. apply plus_assign_ok. Qed.
  Theorem C26_minus_assign l r : ook k a l -> ook k a r ->
    ook k a (minus_assign k a l r) /\ oval k a i (r0 _) (minus_assign k a l r) = oval k a i (r0 _) l + ropp _ (oval k a i (r0 _) r).
  Proof. apply minus_assign_ok. Qed.

  (** ** C27: expand. [width] bounds the number of operands of a node; the result is the same for
      every larger number of rounds, so the loops of the C++ code end with it. *)
  Theorem C27_expand e : ok e -> exists r, (forall n, width k a e + 4 <= n -> expand k a n e = r) /\ gives r (value e) /\ expanded r.
  Proof.
    intros He. exists (expand k a (width k a e + 4) e). split.
    - intros n Hn. now apply (expand_fuel k a i).
    - destruct (expand_good k a i (width k a e + 4) e) as (H1 & H2 & H3); auto. unfold gives. auto.
  Qed.

  (** ** C28: flatten *)
  Theorem C28_flatten e : ok e -> gives (flatten k a e) (value e) /\ unnested (flatten k a e).
  Proof. intros He. split; [now apply flatten_ok|apply flatten_unnested]. Qed.

  (** ** C29: rapid_simplify *)
  Theorem C29_rapid_simplify e : ok e -> exists r, (forall n, size e < n -> rapid_simplify k a n e = r) /\ gives r (value e) /\
    (good_leaves e -> simplified r).
  Proof.
    intros He. exists (rapid_simplify k a (S (size e)) e). split.
    - intros n Hn. apply (rapid_simplify_fuel k a i); auto.
    - destruct (rapid_simplify_good k a i (S (size e)) e) as (H1 & H2 & H3); auto. unfold gives. auto.
  Qed.

  (** ** C31: adjoint *)
  Theorem C31_adjoint_value (st : star_interp i) e : ok e -> gives (adjoint k a e) (star st (value e)).
  Proof. apply adjoint_ok. Qed.
  (** the member function on a product with any factors, and on a CProduct *)
  Theorem C31_adjoint_member (st : star_interp i) e : ok e ->
    (forall s fs, e = EProd PComm s fs -> forall x y, In x fs -> In y fs -> value x * value y = value y * value x) ->
    gives (adj_in_place k a e) (star st (value e)).
  Proof.
    intros He Hc. destruct e as [z|y|kd s fs|ci ss|]; try (apply adj_in_place_ok; [auto|discriminate]). destruct kd.
    - apply adj_in_place_ok; auto; discriminate. - apply adj_comm_ok; auto. eapply Hc; reflexivity. - apply adj_in_place_ok; auto; discriminate.
  Qed.
  Theorem C31_adjoint_form (e : E) :
    (forall z, kconj k (kconj k z) = z) -> kconj k (k0 k) = k0 k -> (forall x, aadj a (aadj a x) = x) -> (forall x, azero a (aadj a x) = azero a x) ->
    tidy e -> adjoint k a e = adjoint_of e /\ tidy (adjoint k a e) /\ adjoint k a (adjoint k a e) = e.
  Proof.
    intros H1 H2 H3 H4 He. pose proof (keqb_iff _ _ i) as Hk.
    assert (Ha : forall x : E, tidy x -> adjoint k a x = adjoint_of x) by (intros; now apply adjoint_tidy).
    assert (Ht : tidy (adjoint_of e)) by now apply adjoint_of_tidy.
    rewrite Ha by auto. split; auto. split; auto. rewrite Ha by auto. now apply adjoint_of_involutive.
  Qed.
End Statements.

(** * Non-vacuity and counterexamples: integer scalars, 2x2 integer matrices. *)
Module ExprExample.
  Definition kz : kops := mkkops Z 0%Z 1%Z Z.add Z.mul Z.opp (fun z => z) Z.eqb.
  (** two matrices that do not commute, and powers of integers *)
  Inductive leaf := Up | Down | Pow (b : Z) (n : nat).
  Definition leaf_eqb (x y : leaf) : bool :=
    match x, y with Up, Up | Down, Down => true | Pow b n, Pow c m => Z.eqb b c && Nat.eqb n m | _, _ => false end.
  Definition is_pow (x : leaf) : bool := match x with Pow _ _ => true | _ => false end.
  Definition az : aops kz := mkaops kz leaf
    (fun x => match x with Pow b n => Z.eqb b 0 && negb (Nat.eqb n 0) | _ => false end)
    (fun x => match x with Pow b n => Some (inl (b ^ Z.of_nat n)%Z) | _ => None end)
    (fun x => match x with Up => Down | Down => Up | p => p end) leaf_eqb is_pow is_pow (fun x y => is_pow x || is_pow y || leaf_eqb x y).

  Definition mat := (Z * Z * Z * Z)%type.
  Definition madd (x y : mat) : mat := let '(a, b, c, d) := x in let '(a', b', c', d') := y in (a + a', b + b', c + c', d + d')%Z.
  Definition mmul (x y : mat) : mat := let '(a, b, c, d) := x in let '(a', b', c', d') := y in (a * a' + b * c', a * b' + b * d', c * a' + d * c', c * b' + d * d')%Z.
  Definition mopp (x : mat) : mat := let '(a, b, c, d) := x in (- a, - b, - c, - d)%Z.
  Definition transpose (x : mat) : mat := let '(a, b, c, d) := x in (a, c, b, d).
  Ltac mring := intros; repeat match goal with x : mat |- _ => destruct x as [[[? ?] ?] ?] end; cbn [madd mmul mopp transpose]; repeat (f_equal; try ring).
  Definition R : ring.
  Proof. refine (mkring mat (0, 0, 0, 0)%Z (1, 0, 0, 1)%Z madd mmul mopp _ _ _ _ _ _ _ _ _). all: mring. Defined.
  Definition zemb (z : Z) : mat := (z, 0, 0, z)%Z.
  Definition lval (x : leaf) : mat := match x with Up => (0, 1, 0, 0)%Z | Down => (0, 0, 1, 0)%Z | Pow b n => zemb (b ^ Z.of_nat n) end.
  Definition int : interpretation kz az.
  Proof.
    refine (mkinterp kz az R zemb lval Z.eqb_eq eq_refl eq_refl _ _ _ _ _ _).
    - intros x y. reflexivity.
    - intros x y. unfold zemb. cbn. repeat (f_equal; try ring).
    - intros x. reflexivity.
    - intros x y. destruct y as [[[? ?] ?] ?]. unfold zemb. cbn. repeat (f_equal; try ring).
    - intros [| |b n]; cbn; try discriminate. intros H. apply andb_prop in H as [H1 H2]. apply Z.eqb_eq in H1. subst b.
      unfold zemb. destruct n as [|n]; [discriminate|]. rewrite Z.pow_0_l by lia. reflexivity.
    - intros [| |b n]; cbn; auto.
  Defined.
  Definition st : star_interp int.
  Proof.
    refine (mkstar kz az int transpose eq_refl eq_refl _ _ _ _).
    - intros [[[? ?] ?] ?] [[[? ?] ?] ?]. reflexivity.
    - intros [[[? ?] ?] ?] [[[? ?] ?] ?]. cbn. repeat (f_equal; try ring).
    - reflexivity.
    - intros [| |b n]; reflexivity.
  Defined.
  Notation EX := (expr Z leaf).
  Definition c (z : Z) : EX := EConst z.
  Definition u : EX := EAtom Up.
  Definition d : EX := EAtom Down.
  Definition pr (s : Z) (l : list EX) : EX := EProd PPlain s l.

  (** 3 u (2 + d + (u + 5)) d, a product with a nested sum *)
  Definition e1 : EX := pr 3 [u; ESum (Some 0) [c 2; d; ESum (Some 1) [u; c 5]]; d].
  Example e1_ok : ok (k:=kz) (a:=az) e1.
  Proof. cbn. repeat split; eauto. Qed.
  Example e1_expand : expand kz az 20 e1 = ESum None [pr 21 [u; d]; pr 3 [u; d; d]; pr 3 [u; u; d]].
  Proof. reflexivity. Qed.
  Example e1_value : value int e1 = (21, 0, 0, 0)%Z /\ value int (expand kz az 20 e1) = (21, 0, 0, 0)%Z.
  Proof. split; reflexivity. Qed.
  Example e1_flatten : flatten kz az e1 = pr 3 [u; ESum (Some 0) [c 7; d; u]; d].
  Proof. reflexivity. Qed.
  (** 1 (2 (3 u 2^3) (0 + (1 d))): constants and powers folded, trivial nodes collapsed *)
  Definition e2 : EX := pr 1 [pr 2 [pr 3 [u; EAtom (Pow 2 3)]; ESum None [c 0; pr 1 [d]]]].
  Example e2_ok : ok (k:=kz) (a:=az) e2 /\ good_leaves (k:=kz) (a:=az) e2.
  Proof. cbn. repeat split. Qed.
  Example e2_simplify : rapid_simplify kz az 40 e2 = pr 48 [u; d].
  Proof. reflexivity. Qed.
  Example e2_zero : rapid_simplify kz az 40 (ESum None [pr 2 [u; pr 0 [d]]; pr 0 []; u]) = u.
  Proof. reflexivity. Qed.
  Example e3_tidy : tidy (k:=kz) (a:=az) (pr 2 [u; ESum (Some 1) [pr 3 [u; d]; c 4]; u]).
  Proof.
    cbn. repeat split; try discriminate; try (intros (z & Hz)).
    - destruct i as [|[|[|i]]]; cbn in Hz; try discriminate. reflexivity.
    - intros H. inversion H; subst. exists 4%Z. reflexivity.
  Qed.
  Example e3_adjoint : adjoint kz az (pr 2 [u; ESum (Some 1) [pr 3 [u; d]; c 4]; u]) = pr 2 [d; ESum (Some 1) [pr 3 [u; d]; c 4]; d].
  Proof. reflexivity. Qed.
  Example operators : times kz az (pr 2 [u]) (pr 3 [d]) = pr 6 [u; d] /\ nctimes kz az u d = EProd PNonComm 1%Z [u; d] /\
    plus kz az (c 2) (plus kz az u (c 3)) = ESum (Some 1) [u; c 5] /\ minus kz az u (pr 2 [d]) = ESum None [u; pr (-2) [d]].
  Proof. repeat split; reflexivity. Qed.

  (** ** Counterexamples *)
  (** prepending a product reverses its factors, and with Flatten::No its scalar counts twice *)
  Theorem C25_prepend_product_refuted :
    (exists e f, ok e /\ ok f /\ value int (product_prepend kz az 1%Z f FRec e) <> mmul (value int f) (value int e)) /\
    (exists e f, ok e /\ ok f /\ value int (product_prepend kz az 1%Z f FOnce e) <> mmul (value int f) (value int e)) /\
    (exists e f, ok e /\ ok f /\ value int (product_prepend kz az 1%Z f FNo e) <> mmul (value int f) (value int e)).
  Proof.
    split; [|split].
    - exists (pr 1 []), (pr 1 [u; d]). split; [cbn; auto|]. split; [cbn; auto|]. vm_compute. discriminate.
    - exists (pr 1 []), (pr 1 [u; d]). split; [cbn; auto|]. split; [cbn; auto|]. vm_compute. discriminate.
    - exists (pr 1 [u]), (pr 2 [d]). split; [cbn; auto|]. split; [cbn; auto|]. vm_compute. discriminate.
  Qed.
  (** a power that is zero is dropped when a sum is rebuilt inside a product, which is not looked
      at again: the result has a sum of one summand *)
  Definition e4 : EX := pr 2 [pr 3 [u; ESum None [d; EAtom (Pow 0 1)]]].
  Theorem C29_zero_power_refuted :
    exists e, ok (k:=kz) (a:=az) e /\ forall n, size (k:=kz) (a:=az) e < n -> ~ simplified (k:=kz) (a:=az) (rapid_simplify kz az n e).
  Proof.
    exists e4. assert (Hok : ok (k:=kz) (a:=az) e4) by (cbn; repeat split). split; auto. intros n Hn.
    rewrite (rapid_simplify_fuel kz az int (S (size (k:=kz) (a:=az) e4)) n e4) by (auto; lia).
    vm_compute. intros (_ & _ & _ & _ & (_ & _ & (H & _) & _) & _). inversion H as [|? H']; inversion H'.
  Qed.
End ExprExample.

Print Assumptions C25_times.
Print Assumptions C26_minus.
Print Assumptions C27_expand.
Print Assumptions C28_flatten.
Print Assumptions C29_rapid_simplify.
Print Assumptions C31_adjoint_form.
Print Assumptions C31_adjoint_member.
Print Assumptions ExprExample.C29_zero_power_refuted.
