(** * Python evaluation of the printed scalars *)
From Coq Require Import List Bool Arith Lia ZArith QArith Qcanon Ascii String.
From Verif Require Import Num_Model Num_Proofs1 Ein_Model Ein_Spec.
Import ListNotations.
Local Open Scope nat_scope.

Definition zq (z : Z) : Qc := Q2Qc (inject_Z z).

Lemma qc_frac : forall q : Qc, (q = zq (numerator q) / zq (denominator q))%Qc.
Proof.
  intros q. apply Qc_is_canon. unfold zq, numerator, denominator.
  unfold Qcdiv, Qcmult, Qcinv. cbn [this Q2Qc]. rewrite !Qred_correct.
  destruct q as [[a b] H]. cbn [this Qnum Qden]. rewrite (Qmake_Qdiv a b). reflexivity.
Qed.

Lemma den_nonzero : forall q : Qc, zq (denominator q) <> 0%Qc.
Proof.
  intros q E. unfold zq, denominator in E. apply (f_equal this) in E. cbn [this Q2Qc] in E.
  assert (X : (inject_Z (Z.pos (Qden (this q))) == 0)%Q).
  { rewrite <- (Qred_correct (inject_Z _)). rewrite E. reflexivity. }
  unfold Qeq in X. cbn in X. lia.
Qed.

Lemma zq_opp : forall z, zq (- z) = (- zq z)%Qc.
Proof. intros z. apply Qc_is_canon. unfold zq, Qcopp. cbn [this Q2Qc]. rewrite !Qred_correct. unfold inject_Z, Qopp, Qeq. cbn. lia. Qed.
Lemma zq_1 : zq 1 = 1%Qc. Proof. apply Qc_is_canon. reflexivity. Qed.

Lemma div_real : forall x d, d <> 0%Qc -> c_div x (c_of d) = Some (mkc (re x / d) (im x / d)).
Proof.
  intros x d N. unfold c_div, norm_squared, c_of. cbn [re im].
  assert (M : (d * d + 0 * 0 <> 0)%Qc).
  { intros E. apply N. assert (F : (d * d = 0)%Qc) by (rewrite <- E; ring). destruct (Qcmult_integral _ _ F); assumption. }
  unfold qeqb. destruct (Qc_eq_dec _ 0) as [E|_]; [congruence|]. f_equal. apply c_eq; cbn; field; auto.
Qed.

Lemma ofN_abs : forall z, ofN (Z.abs_N z) = c_of (zq (Z.abs z)).
Proof. intros z. unfold ofN, zq. now rewrite N2Z.inj_abs_N. Qed.
Lemma imagN_abs : forall z, imagN (Z.abs_N z) = mkc 0 (zq (Z.abs z)).
Proof. intros z. unfold imagN, zq. now rewrite N2Z.inj_abs_N. Qed.

Section P.
  Variable names : nat -> cplx.
  Variable calls : call -> option cplx.
  Notation py_expr := (py_expr names calls).
  Notation py_expr_loop := (py_expr_loop names calls).
  Notation py_term := (py_term names calls).
  Notation py_term_loop := (py_term_loop names calls).
  Notation py_unary := (py_unary names calls).

  (** Unfolding equations. *)
  Lemma expr_S : forall n ts, py_expr (S n) ts = match py_term n ts with Some (v, r) => py_expr_loop n v r | None => None end.
  Proof. reflexivity. Qed.
  Lemma eloop_S : forall n v ts, py_expr_loop (S n) v ts =
    match ts with
    | TPlus :: r => match py_term n r with Some (w, r') => py_expr_loop n (c_add v w) r' | None => None end
    | TMinus :: r => match py_term n r with Some (w, r') => py_expr_loop n (c_sub v w) r' | None => None end
    | _ => Some (v, ts) end.
  Proof. reflexivity. Qed.
  Lemma term_S : forall n ts, py_term (S n) ts = match py_unary n ts with Some (v, r) => py_term_loop n v r | None => None end.
  Proof. reflexivity. Qed.
  Lemma tloop_S : forall n v ts, py_term_loop (S n) v ts =
    match ts with
    | TStar :: r => match py_unary n r with Some (w, r') => py_term_loop n (c_mul v w) r' | None => None end
    | TSlash :: r => match py_unary n r with
                     | Some (w, r') => match c_div v w with Some q => py_term_loop n q r' | None => None end
                     | None => None end
    | _ => Some (v, ts) end.
  Proof. reflexivity. Qed.
  Lemma unary_S : forall n ts, py_unary (S n) ts =
    match ts with
    | TMinus :: r => match py_unary n r with Some (v, r') => Some (c_opp v, r') | None => None end
    | TInt k :: r => Some (ofN k, r)
    | TImag k :: r => Some (imagN k, r)
    | TName x :: r => Some (names x, r)
    | TCall c :: r => match calls c with Some v => Some (v, r) | None => None end
    | TLp :: r => match py_expr n r with Some (v, TRp :: r') => Some (v, r') | _ => None end
    | _ => None end.
  Proof. reflexivity. Qed.

  (** A text that can be the first, or a later, factor of a term. *)
  Definition first_factor (p : list tok) (v : cplx) : Prop :=
    exists k, forall n rest, 12 <= n -> py_term (S (k + n)) (p ++ rest) = py_term_loop n v rest.
  Definition later_factor (p : list tok) (v : cplx) : Prop :=
    exists k, forall n rest w, 12 <= n -> py_term_loop (S (k + n)) w (TStar :: p ++ rest) = py_term_loop n (c_mul w v) rest.

  (** Head of a printed rational: sign and numerator. *)
  Definition head (q : Qc) : list tok :=
    (if Z.ltb (numerator q) 0 then [TMinus] else []) ++ [TInt (Z.abs_N (numerator q))].
  Lemma head_value : forall q n rest, 2 <= n -> py_unary n (head q ++ rest) = Some (c_of (zq (numerator q)), rest).
  Proof.
    intros q n rest L. destruct n as [|[|n]]; [lia..|]. unfold head. destruct (Z.ltb_spec (numerator q) 0) as [H|H].
    - cbn [app]. rewrite unary_S, unary_S. f_equal. f_equal. rewrite ofN_abs. rewrite Z.abs_neq by lia.
      unfold c_opp, c_of. cbn [re im]. rewrite zq_opp. apply c_eq; cbn; ring.
    - cbn [app]. rewrite unary_S. f_equal. f_equal. rewrite ofN_abs. now rewrite Z.abs_eq by lia.
  Qed.

  Lemma print_rat_head : forall q, print_rat TInt q = head q ++
    (if N.eqb (Z.abs_N (denominator q)) 1 then [] else [TSlash; TInt (Z.abs_N (denominator q))]).
  Proof.
    intros q. unfold print_rat, head. destruct (N.eqb _ 1); rewrite ?app_nil_r, <- ?app_assoc; reflexivity.
  Qed.

  Lemma den_pos : forall q : Qc, (0 < denominator q)%Z. Proof. intros. unfold denominator. lia. Qed.
  Lemma den_one : forall q : Qc, N.eqb (Z.abs_N (denominator q)) 1 = true -> denominator q = 1%Z.
  Proof. intros q H. apply N.eqb_eq in H. pose proof (den_pos q). lia. Qed.

  Lemma tail_value : forall q w n rest, 2 <= n ->
    py_term_loop (S n) (mkc (re w * zq (numerator q)) (im w * zq (numerator q)))
      ((if N.eqb (Z.abs_N (denominator q)) 1 then [] else [TSlash; TInt (Z.abs_N (denominator q))]) ++ rest) =
    py_term_loop (if N.eqb (Z.abs_N (denominator q)) 1 then S n else n) (c_mul w (c_of q)) rest.
  Proof.
    intros q w n rest L. pose proof (qc_frac q) as Q. pose proof (den_nonzero q) as DN.
    destruct (N.eqb (Z.abs_N (denominator q)) 1) eqn:D; cbn [app].
    - apply den_one in D. rewrite D, zq_1 in Q. f_equal.
      set (a := zq (numerator q)) in *. clearbody a. apply c_eq; cbn; rewrite Q; field; discriminate.
    - rewrite tloop_S. destruct n as [|n]; [lia|]. rewrite unary_S, ofN_abs.
      rewrite (Z.abs_eq (denominator q)) by (pose proof (den_pos q); lia).
      rewrite div_real by exact DN. f_equal. set (a := zq (numerator q)) in *. set (b := zq (denominator q)) in *. clearbody a b. apply c_eq; cbn; rewrite Q; field; exact DN.
  Qed.

  Lemma rat_first : forall q, first_factor (print_rat TInt q) (c_of q).
  Proof.
    intros q. exists (if N.eqb (Z.abs_N (denominator q)) 1 then 0 else 1). intros n rest L.
    rewrite print_rat_head, <- app_assoc. rewrite term_S, head_value by (destruct (N.eqb _ 1); lia).
    replace (c_of (zq (numerator q))) with (mkc (re c1 * zq (numerator q)) (im c1 * zq (numerator q)))
      by (apply c_eq; cbn; ring).
    replace (c_of q) with (c_mul c1 (c_of q)) by ring.
    destruct n as [|n]; [lia|].
    destruct (N.eqb (Z.abs_N (denominator q)) 1) eqn:D.
    - cbn [Nat.add]. pose proof (tail_value q c1 n rest ltac:(lia)) as T. rewrite D in T. exact T.
    - cbn [Nat.add]. pose proof (tail_value q c1 (S n) rest ltac:(lia)) as T. rewrite D in T. exact T.
  Qed.

  Lemma rat_later : forall q, later_factor (print_rat TInt q) (c_of q).
  Proof.
    intros q. exists (if N.eqb (Z.abs_N (denominator q)) 1 then 0 else 1). intros n rest w L.
    rewrite print_rat_head, <- app_assoc. rewrite tloop_S, head_value by (destruct (N.eqb _ 1); lia).
    replace (c_mul w (c_of (zq (numerator q)))) with (mkc (re w * zq (numerator q)) (im w * zq (numerator q)))
      by (apply c_eq; cbn; ring).
    destruct n as [|n]; [lia|].
    destruct (N.eqb (Z.abs_N (denominator q)) 1) eqn:D.
    - cbn [Nat.add]. pose proof (tail_value q w n rest ltac:(lia)) as T. rewrite D in T. exact T.
    - cbn [Nat.add]. pose proof (tail_value q w (S n) rest ltac:(lia)) as T. rewrite D in T. exact T.
  Qed.

  (** A parenthesized or atomic text is a factor. *)
  Lemma atom_factor : forall p v, (forall n rest, 12 <= n -> py_unary n (p ++ rest) = Some (v, rest)) ->
    first_factor p v /\ later_factor p v.
  Proof.
    intros p v H. split; exists 0; intros; cbn [Nat.add].
    - rewrite term_S, H by assumption. reflexivity.
    - rewrite tloop_S, H by assumption. reflexivity.
  Qed.

  Lemma const_factor : forall c, whole_imaginary c -> first_factor (print_const c) c /\ later_factor (print_const c) c.
  Proof.
    intros c W. unfold print_const. destruct (qeqb (im c) 0) eqn:Z0.
    - assert (E : c = c_of (re c)).
      { unfold qeqb in Z0. destruct (Qc_eq_dec (im c) 0) as [E|]; [|discriminate]. now apply c_eq. }
      rewrite E at 2 4. split; [apply rat_first|apply rat_later].
    - apply atom_factor. intros n rest L. cbn [app].
      destruct n as [|n]; [lia|]. rewrite unary_S.
      assert (D : N.eqb (Z.abs_N (denominator (im c))) 1 = true) by (rewrite W; reflexivity).
      assert (I : im c = zq (numerator (im c))).
      { pose proof (qc_frac (im c)) as Q. rewrite W, zq_1 in Q. set (a := zq (numerator (im c))) in *. clearbody a. rewrite Q. field. discriminate. }
      assert (X : py_expr n ((print_rat TInt (re c) ++ (if qltb (im c) 0 then print_rat TImag (im c) else TPlus :: print_rat TImag (im c)) ++ [TRp]) ++ rest)
                = Some (c, TRp :: rest)).
      { rewrite <- !app_assoc. cbn [app].
        destruct n as [|n]; [lia|]. rewrite expr_S.
        pose proof (print_rat_head (re c)) as PH. rewrite PH, <- app_assoc.
        destruct n as [|n]; [lia|]. rewrite term_S, head_value by lia.
        replace (c_of (zq (numerator (re c)))) with (mkc (re c1 * zq (numerator (re c))) (im c1 * zq (numerator (re c))))
          by (apply c_eq; cbn; ring).
        destruct n as [|n]; [lia|]. rewrite tail_value by lia.
        replace (c_mul c1 (c_of (re c))) with (c_of (re c)) by ring.
        assert (T : forall m ts, 1 <= m -> match ts with TStar :: _ | TSlash :: _ => False | _ => True end ->
                     py_term_loop m (c_of (re c)) ts = Some (c_of (re c), ts)).
        { intros m ts L1 T. destruct m; [lia|]. rewrite tloop_S. destruct ts as [|[] ts]; try reflexivity; contradiction. }
        unfold print_rat. rewrite D.
        assert (NZ : numerator (im c) <> 0%Z).
        { intros E. rewrite E in I. unfold qeqb in Z0. destruct (Qc_eq_dec (im c) 0) as [|N]; [discriminate|]. apply N. rewrite I. apply Qc_is_canon. reflexivity. }
        assert (LT : qltb (im c) 0 = Z.ltb (numerator (im c)) 0).
        { unfold qltb, Qccompare, numerator. cbn [this Q2Qc]. unfold Qcompare. cbn [Qnum Qden Qred].
          rewrite Z.mul_1_r. cbn. destruct (Z.ltb_spec (Qnum (this (im c))) 0) as [H|H].
          - destruct (Z.compare_spec (Qnum (this (im c))) 0); try reflexivity; lia.
          - destruct (Z.compare_spec (Qnum (this (im c))) 0); try reflexivity; lia. }
        assert (LM : 1 <= (if N.eqb (Z.abs_N (denominator (re c))) 1 then S n else n)) by (destruct (N.eqb (Z.abs_N (denominator (re c))) 1); lia).
        rewrite LT. destruct (Z.ltb_spec (numerator (im c)) 0) as [H|H].
        - cbn [app]. rewrite T; [|exact LM|exact Logic.I].
          rewrite eloop_S. rewrite term_S. destruct n as [|n]; [lia|]. rewrite unary_S, imagN_abs.
          destruct n as [|n]; [lia|]. rewrite tloop_S. rewrite eloop_S. f_equal. f_equal.
          rewrite Z.abs_neq, zq_opp by lia. rewrite <- I. apply c_eq; cbn; ring.
        - cbn [app]. rewrite T; [|exact LM|exact Logic.I].
          rewrite eloop_S. rewrite term_S. destruct n as [|n]; [lia|]. rewrite unary_S, imagN_abs.
          destruct n as [|n]; [lia|]. rewrite tloop_S. rewrite eloop_S. f_equal. f_equal.
          rewrite Z.abs_eq by lia. rewrite <- I. apply c_eq; cbn; ring. }
      rewrite X. reflexivity.
  Qed.

  Lemma name_factor : forall x, first_factor [TName x] (names x) /\ later_factor [TName x] (names x).
  Proof. intros x. apply atom_factor. intros n rest L. destruct n; [lia|]. reflexivity. Qed.

  (** The accumulated scalar factor. *)
  Definition text_value (f : list tok) (v : cplx) : Prop := (f = [] /\ v = c1) \/ (f <> [] /\ first_factor f v).
  Lemma add_factor_value : forall f v p w, text_value f v -> first_factor p w -> later_factor p w -> p <> [] ->
    text_value (add_factor f p) (c_mul v w).
  Proof.
    intros f v p w [[-> ->]|[N F]] P1 P2 NP; unfold add_factor.
    - right. split; [exact NP|]. replace (c_mul c1 w) with w by ring. exact P1.
    - right. destruct f as [|t f]; [congruence|]. split; [discriminate|].
      destruct F as (k1 & F), P2 as (k2 & P2). exists (k1 + S k2). intros n rest L.
      rewrite <- app_assoc. cbn [app]. replace (S (k1 + S k2 + n)) with (S (k1 + S (k2 + n))) by lia.
      change (t :: f ++ TStar :: p ++ rest) with ((t :: f) ++ TStar :: p ++ rest).
      rewrite F by lia. now apply P2.
  Qed.

  Lemma term_done : forall n v, 1 <= n -> py_term_loop n v [] = Some (v, []).
  Proof. intros [|n] v L; [lia|reflexivity]. Qed.

  Lemma first_value : forall f v, first_factor f v -> py_value names calls f v.
  Proof.
    intros f v (k & F). exists (14 + k). intros n L. replace n with (S (S (k + (n - 2 - k)))) by lia.
    rewrite expr_S. rewrite <- (app_nil_r f), F by lia. rewrite term_done by lia. rewrite eloop_S. reflexivity.
  Qed.

  Lemma call_factor : forall c v, calls c = Some v -> first_factor [TCall c] v /\ later_factor [TCall c] v.
  Proof. intros c v E. apply atom_factor. intros n rest L. destruct n; [lia|]. cbn [app]. rewrite unary_S, E. reflexivity. Qed.
End P.
