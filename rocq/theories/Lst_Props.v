(** C98: the similarity transformation gives the Campbell expansion, and the exponential form when the
    expansion ends. C99: screening changes no vacuum expectation value. *)
From Coq Require Import List Bool Arith Lia ZArith QArith Qcanon.
From Verif Require Import Wick_Model Wick_Spec Wick_Ring Qn_Model Qn_Spec Qn_Props Expr_Model Expr_Spec Expr_Proofs1 Expr_Proofs2 Expr_Proofs3 Expr_Proofs4 Expr_Proofs5.
From Verif Require Import Lst_Model Lst_Spec Lst_Proofs1 Lst_Proofs2.
Import ListNotations.
Close Scope Q_scope. Close Scope Z_scope. Close Scope Qc_scope.

Section Statements.
  Context {k : kops} {a : aops k}.
  Variable i : interpretation k a.
  Notation E := (expr (K k) (A a)).
  Notation value := (value i).
  Local Open Scope op_scope.
  Variables is_op is_var : A a -> bool.
  Hypothesis vars : forall x, is_var x = true -> central (val i x).
  Variable inverse : nat -> K k.
  Hypothesis Hinv : reciprocals inverse.
  Variable canonicalize : E -> E.
  Hypothesis Hcan : canonicalizer i canonicalize.
  Variable total : list E -> E.
  Hypothesis Htot : totals i total.
  Notation lst := (lst k a is_op is_var inverse canonicalize total).
  (** 1/n! in the algebra *)
  Notation c n := (emb i (reciprocal_factorial inverse n)).

  Lemma emb_count n x : emb i (count n) * x = times_nat n x.
  Proof. induction n as [|n IH]; cbn [count times_nat]; [rewrite emb_0; ncr|]. rewrite emb_add, emb_1, <- IH. ncr. Qed.
  Lemma factorials : inverse_factorials (fun n => c n).
  Proof.
    split; [intros n; apply emb_central|]. induction n as [|n IH]; [cbn; rewrite emb_1; ncr|].
    change (fact (S n)) with (S n * fact n)%nat. rewrite times_nat_mul. cbn [reciprocal_factorial]. rewrite emb_mul.
    rewrite <- times_nat_r, IH, rmul_1_r, <- emb_count, <- emb_mul. rewrite <- (emb_1 _ _ i). rewrite <- (Hinv n), !emb_mul. apply emb_central.
  Qed.

  Lemma lst_dispatch o B rank n : forall e, lst_rec k a is_op is_var inverse canonicalize total n o B rank e =
    dispatch is_op is_var canonicalize total (transform k a inverse canonicalize o B rank) (fun e => Done (transform k a inverse canonicalize o B rank e)) n e.
  Proof.
    induction n as [|n IH]; intros e; [reflexivity|]. destruct e; cbn [lst_rec dispatch]; auto; [destruct (existsb _ fs); auto|].
    f_equal. f_equal. apply map_ext. auto.
  Qed.

  (** The generator: B, or B - B^+ if the option is set. *)
  Definition generator (st : star_interp i) (o : options) (B : E) : car (ir i) :=
    if unitary o then rsub (value B) (star st (value B)) else value B.

  Lemma iter_step st o B : use_connected_form o = false -> forall n x, Nat.iter n (step i st o B) x = nested (generator st o B) n x.
  Proof.
    intros Ho n x. unfold nested. induction n as [|n IH]; [reflexivity|]. cbn [Nat.iter nat_rect]. change (step i st o B (Nat.iter n (step i st o B) x) = bracket (generator st o B) (Nat.iter n (bracket (generator st o B)) x)).
    rewrite IH. unfold step, generator, bracket, rsub. rewrite Ho. destruct (unitary o); ncr.
  Qed.

  (** Whatever the fuel, a result has the value of the expansion. *)
  Theorem C98_commutators st o B rank A fuel r : use_connected_form o = false -> ok B -> ok A ->
    lst fuel o B rank A = Done r -> has_value i r (campbell (fun n => c n) rank (generator st o B) (value A)).
  Proof.
    intros Ho HB HA H. destruct rank as [|n].
    { injection H as <-. split; auto. unfold campbell. rewrite sum_to_0. cbn [reciprocal_factorial]. rewrite emb_1. change (nested _ 0 ?x) with x. ncr. }
    cbn [Lst_Model.lst] in H. rewrite lst_dispatch in H. set (g := generator st o B). set (rank := S n) in *.
    assert (T : forall e, ok e -> has_value i (transform k a inverse canonicalize o B rank e) (campbell (fun n => c n) rank g (value e))).
    { intros e He. destruct (transform_value i canonicalize Hcan st o B HB inverse rank e He) as [H1 E1]. split; auto. rewrite E1. unfold series, campbell.
      apply sum_to_ext. intros j _. now rewrite iter_step. }
    apply (dispatch_value i is_op is_var canonicalize Hcan total Htot _ _ (fun v x => v = campbell (fun n => c n) rank g x)) in H; auto.
    - rewrite (campbell_central _ factorials); auto. intros y. ncr.
    - intros v w x y -> ->. now rewrite campbell_add.
    - intros x Hx. now rewrite (campbell_central _ factorials).
    - intros x Hx. apply T. exact Logic.I.
    - intros kd s fs r' Hok _ Er. injection Er as <-. now apply T.
  Qed.

  (** For operators and variables the recursion ends, without an exception. *)
  Theorem C98_ends o B rank A : ok B -> ok A -> (forall x, is_op x = true \/ is_var x = true) ->
    exists r, forall fuel, depth k a A + 2 <= fuel -> lst fuel o B rank A = Done r.
  Proof.
    intros HB HA Hs. destruct rank as [|n]; [exists A; reflexivity|]. set (rank := S n) in *. set (h := fun e => Done (transform k a inverse canonicalize o B rank e)).
    assert (hf : forall e, h e <> NoFuel) by discriminate.
    pose proof (dispatch_ends i is_op is_var canonicalize Hcan total (transform k a inverse canonicalize o B rank) h hf (depth k a A + 2) A HA (le_n _)) as H1.
    pose proof (dispatch_supported i is_op is_var canonicalize Hcan total (transform k a inverse canonicalize o B rank) h (depth k a A + 2) Hs ltac:(discriminate) A HA) as H2.
    destruct (dispatch _ _ _ _ _ h (depth k a A + 2) A) as [r| |] eqn:Er; [|now destruct H2|now destruct H1].
    exists r. intros fuel Hf. cbn [Lst_Model.lst]. change (lst_rec k a is_op is_var inverse canonicalize total fuel o B rank A = Done r). rewrite lst_dispatch. rewrite <- Er.
    apply dispatch_more; auto. fold h. rewrite Er. discriminate.
  Qed.

  (** If the generator is nilpotent and the commutators beyond the rank vanish, the result is
      e^(-g) A e^g. *)
  Theorem C98_exponential st o B rank A fuel r N : use_connected_form o = false -> ok B -> ok A ->
    power (generator st o B) (S N) = r0 _ -> nested (generator st o B) (S rank) (value A) = r0 _ ->
    lst fuel o B rank A = Done r ->
    has_value i r (exponential (fun n => c n) N (ropp _ (generator st o B)) * value A * exponential (fun n => c n) N (generator st o B)).
  Proof.
    intros Ho HB HA Hn Hx H. destruct (C98_commutators st o B rank A fuel r Ho HB HA H) as [H1 E1]. split; auto. rewrite E1.
    now apply (campbell_exponential _ factorials).
  Qed.

  (** The connected form, with the generator B: for everything that does not see terms with B on the
      very left (as an expectation value in which every B has to be connected to an operator on its
      left) the result is the Campbell expansion. *)
  Theorem C98_connected (st : star_interp i) o B rank A fuel r (f : car (ir i) -> car (ir i)) : use_connected_form o = true -> unitary o = false -> ok B -> ok A ->
    (forall x y, f (x + y) = f x + f y) -> (forall x, f (value B * x) = r0 _) ->
    lst fuel o B rank A = Done r -> ok r /\ f (value r) = f (campbell (fun n => c n) rank (value B) (value A)).
  Proof.
    intros Ho Hu HB HA fadd fB H. set (b := value B) in *.
    assert (f0 : f (r0 _) = r0 _) by (rewrite <- (rmul_0_r k a i b) at 1; apply fB).
    assert (N : forall j x, exists y, nested b j x = Nat.iter j (step i st o B) x + b * y).
    { induction j as [|j IH]; intros x; [exists (r0 _); change (x = x + b * r0 (ir i)); ncr|]. destruct (IH x) as [y Hy]. rewrite nested_S, Hy.
      change (Nat.iter (S j) (step i st o B) x) with (step i st o B (Nat.iter j (step i st o B) x)). set (z := Nat.iter j _ x).
      replace (step i st o B z) with (z * b) by (unfold step; now rewrite Ho, Hu).
      exists (y * b + ropp _ z + ropp _ (b * y)). unfold bracket, rsub. ncr. }
    assert (S : forall n x, f (campbell (fun n => c n) n b x) = f (series i st o B inverse n x)).
    { assert (G : forall j x, f (c j * nested b j x) = f (c j * Nat.iter j (step i st o B) x)).
      { intros j x. destruct (N j x) as [y ->]. rewrite rdistr_r, fadd, rmul_assoc, (emb_central _ _ i _ b), <- rmul_assoc, fB. rewrite radd_comm. apply radd_0. }
      intros n x. unfold campbell, series. induction n as [|n IH]; [rewrite !sum_to_0; apply G|]. now rewrite !sum_to_S, !fadd, IH, G. }
    destruct rank as [|n].
    { injection H as <-. split; auto. rewrite S. unfold series. rewrite sum_to_0. cbn [reciprocal_factorial]. rewrite emb_1. change (Nat.iter 0 _ ?x) with x. f_equal. ncr. }
    cbn [Lst_Model.lst] in H. rewrite lst_dispatch in H. set (rank := Datatypes.S n) in *.
    assert (T : forall e, ok e -> ok (transform k a inverse canonicalize o B rank e) /\ f (value (transform k a inverse canonicalize o B rank e)) = f (campbell (fun n => c n) rank b (value e))).
    { intros e He. destruct (transform_value i canonicalize Hcan st o B HB inverse rank e He) as [H1 E1]. split; auto. now rewrite E1, S. }
    apply (dispatch_value i is_op is_var canonicalize Hcan total Htot _ _ (fun v x => f v = f (campbell (fun n => c n) rank b x))) in H; auto.
    - rewrite (campbell_central _ factorials); auto. intros y. ncr.
    - intros v w x y Hv Hw. rewrite campbell_add, !fadd. congruence.
    - intros x Hx. now rewrite (campbell_central _ factorials).
    - intros x Hx. apply (T (EAtom x)). exact Logic.I.
    - intros kd s fs r' Hok _ Er. injection Er as <-. now apply T.
  Qed.

  (** ** C99 *)
  Section Screening.
    Variable V : car (ir i) -> car (ir i).
    Hypothesis V_add : forall x y, V (x + y) = V x + V y.
    Hypothesis V_0 : V (r0 _) = r0 _.
    Hypothesis V_op : forall x, is_op x = true -> V (val i x) = r0 _.
    Lemma screen_dispatch can n : forall e, screen_vac_av k a is_op is_var canonicalize total can n e =
      dispatch is_op is_var canonicalize total (fun _ => EConst (k0 k)) (fun e => match can e with Done b => Done (if b then e else EConst (k0 k)) | Throws => Throws | NoFuel => NoFuel end) n e.
    Proof.
      induction n as [|n IH]; intros e; [reflexivity|]. destruct e; reflexivity.
    Qed.
    Lemma screen_value can e fuel r : (forall kd s fs, can (EProd kd s fs) = Done false -> V (value (EProd kd s fs)) = r0 _) ->
      ok e -> screen_vac_av k a is_op is_var canonicalize total can fuel e = Done r -> ok r /\ V (value r) = V (value e).
    Proof.
      intros Hc He H. rewrite screen_dispatch in H.
      apply (dispatch_value i is_op is_var canonicalize Hcan total Htot _ _ (fun v x => V v = V x)) in H; auto.
      - intros v w x y Hv Hw. rewrite !V_add. congruence.
      - intros x Hx. split; [exact Logic.I|]. cbn [Expr_Spec.value]. now rewrite emb_0, V_0, V_op.
      - intros kd s fs r' Hok _ Er. destruct (can (EProd kd s fs)) as [[|]| |] eqn:Ec; try discriminate; injection Er as <-; [auto|].
        split; [exact Logic.I|]. rewrite (Hc kd s fs Ec). cbn [Expr_Spec.value]. now rewrite emb_0, V_0.
    Qed.
  End Screening.

  (** Operators with quantum number changes: every operator is a sum of normal-ordered terms, none of
      them a number, that keep what its quantum numbers promise. *)
  Section Vacuum.
    Variable ctx : context.
    Context {I : Type}.
    Variable base : I -> nat.
    Variable fermi : bool.
    Variables plus minus : op I -> car (ir i).
    Variable contr : op I -> op I -> car (ir i).
    Variable V : car (ir i) -> car (ir i).
    Hypothesis Hvac : vacuum_of ctx base fermi plus minus contr V.
    Hypothesis low : occupied_lowest ctx.
    Variable action : A a -> operator.
    Variable terms : A a -> list (car (ir i) * list (op I)).
    Hypothesis described : forall x, is_op x = true -> val i x = operator_value fermi plus minus (terms x) /\
      Forall (fun t => central (fst t) /\ keeps_promise ctx base (action x) (snd t) /\ snd t <> []) (terms x).

    Lemma V_scale x y : central x -> V (x * y) = x * V y.
    Proof. destruct Hvac as (_ & (_ & H & _) & _). auto. Qed.
    Lemma V_sum x y : V (x + y) = V x + V y.
    Proof. destruct Hvac as (_ & (H & _) & _). auto. Qed.
    Lemma V_zero : V (r0 _) = r0 _.
    Proof. assert (H : central (r0 (ir i))) by (intros y; ncr). rewrite <- (rmul_0_l k a i (r0 _)) at 1. rewrite V_scale by auto. ncr. Qed.

    (** the value of the factors is a central element times the product of the operators *)
    Lemma actions_value fs : forall l, actions k a is_op is_var action fs = Some l ->
      exists z ls, central z /\ rprod (map value fs) = z * rprod (map (operator_value fermi plus minus) ls) /\ operators ctx base l ls.
    Proof.
      induction fs as [|e fs IH]; intros l H; cbn [actions] in H.
      - injection H as <-. exists (r1 _), []. split; [intros y; ncr|]. split; [cbn; ncr|constructor].
      - destruct e as [z|x|kd s gs|ci ss|]; try discriminate.
        + destruct (IH l H) as (w & ls & Hw & Ew & Ho). exists (emb i z * w), ls. split; [|split; auto].
          * intros y. rewrite <- rmul_assoc, (Hw y), rmul_assoc, (emb_central _ _ i z y). now rewrite !rmul_assoc.
          * cbn [map rprod fold_right Expr_Spec.value]. fold (rprod (map value fs)). now rewrite Ew, rmul_assoc.
        + destruct (is_var x) eqn:Hv.
          * destruct (IH l H) as (w & ls & Hw & Ew & Ho). exists (val i x * w), ls. split; [|split; auto].
            -- intros y. rewrite <- rmul_assoc, (Hw y), rmul_assoc, (vars x Hv y). now rewrite !rmul_assoc.
            -- cbn [map rprod fold_right Expr_Spec.value]. fold (rprod (map value fs)). now rewrite Ew, rmul_assoc.
          * destruct (is_op x) eqn:Hx; [|discriminate]. destruct (actions k a is_op is_var action fs) as [l'|] eqn:El; [|discriminate]. injection H as <-.
            destruct (IH l' eq_refl) as (w & ls & Hw & Ew & Ho). destruct (described x Hx) as [Ev Ht]. exists w, (terms x :: ls). split; [auto|split].
            -- cbn [map rprod fold_right Expr_Spec.value]. fold (rprod (map value fs)). fold (rprod (map (operator_value fermi plus minus) ls)).
               now rewrite Ew, Ev, !rmul_assoc, (Hw (operator_value fermi plus minus (terms x))).
            -- constructor; auto. eapply Forall_impl; [|exact Ht]. intros t (H1 & H2 & _). auto.
    Qed.
    Lemma V_word w : w <> [] -> V (normal fermi plus minus w) = r0 _.
    Proof.
      destruct Hvac as (_ & (Hadd & _ & _ & Hp & Hm) & _). destruct w as [|o w]; [congruence|]. intros _. cbn [normal].
      assert (Vz : forall z x, V x = r0 _ -> V (zscale z x) = r0 _).
      { intros z x Hx. assert (Gi : forall m, V (Nat.iter m (radd _ x) (r0 _)) = r0 _).
        { induction m as [|m IHm]; [apply V_zero|]. change (V (x + Nat.iter m (radd _ x) (r0 _)) = r0 _). rewrite Hadd, Hx, IHm. ncr. }
        assert (Go : forall y, V y = r0 _ -> V (ropp _ y) = r0 _).
        { intros y Hy. assert (Q : V (y + ropp _ y) = r0 _) by (rewrite radd_opp; apply V_zero). rewrite Hadd, Hy in Q. now rewrite radd_0 in Q. }
        destruct z as [|p|p]; cbn [zscale]; [apply V_zero|apply Gi|apply Go, Gi]. }
      rewrite Hadd, Hp, Vz by apply Hm. ncr.
    Qed.

    Theorem C99_screening e fuel r : ok e ->
      screen_vac_av k a is_op is_var canonicalize total (can_keep_vacuum k a is_op is_var action ctx) fuel e = Done r ->
      ok r /\ V (value r) = V (value e).
    Proof.
      apply screen_value; [apply V_sum|apply V_zero| |].
      - intros x Hx. destruct (described x Hx) as [-> Ht]. unfold operator_value. induction Ht as [|t l (H1 & _ & H3) Ht IH]; cbn [map rsum fold_right]; [apply V_zero|].
        fold (rsum (map (fun t => rmul (ir i) (fst t) (normal fermi plus minus (snd t))) l)). rewrite V_sum, IH, V_scale, V_word by auto. ncr.
      - intros kd s fs Hc. unfold can_keep_vacuum in Hc. destruct (actions k a is_op is_var action fs) as [l|] eqn:El; [|discriminate].
        destruct (can_change_qns ctx l (zero_qns ctx) (zero_qns ctx)) as [bb|] eqn:Eb; [|discriminate]. injection Hc as ->.
        destruct (actions_value fs l El) as (z & ls & Hz & Ev & Ho). cbn [Expr_Spec.value]. rewrite Ev, V_scale by apply emb_central. rewrite V_scale by auto.
        rewrite (C68_screen ctx base fermi plus minus contr V l ls low Hvac Ho); [ncr|]. unfold screened. now rewrite Eb.
    Qed.
  End Vacuum.
End Statements.

(** * Concrete cases *)
Module LstExamples.
  Ltac qcanon := apply Qc_is_canon; vm_compute; reflexivity.
  (** Rational numbers and 2x2 matrices of them; two nilpotent matrices as operators, and a variable. *)
  Definition kq : kops := mkkops Qc (Q2Qc 0) (Q2Qc 1) Qcplus Qcmult Qcopp (fun z => z) Qc_eq_bool.
  Inductive leaf := Up | Down | Var.
  Definition leaf_eqb (x y : leaf) : bool := match x, y with Up, Up | Down, Down | Var, Var => true | _, _ => false end.
  Definition aq : aops kq := mkaops kq leaf (fun _ => false) (fun _ => None)
    (fun x => match x with Up => Down | Down => Up | Var => Var end) leaf_eqb
    (fun x => leaf_eqb x Var) (fun x => leaf_eqb x Var) (fun x y => leaf_eqb x Var || leaf_eqb y Var || leaf_eqb x y).
  Definition ring_Qc : ring.
  Proof. refine (mkring Qc (Q2Qc 0) (Q2Qc 1) Qcplus Qcmult Qcopp _ _ _ _ _ _ _ _ _); abstract (intros; ring). Defined.
  Definition M : ring := Qn_Example.ring_mat2 ring_Qc.
  Definition mat (a b c d : Qc) : car M := (a, b, c, d).
  Definition qemb (z : Qc) : car M := mat z (Q2Qc 0) (Q2Qc 0) z.
  Definition qval (x : leaf) : car M := match x with Up => mat (Q2Qc 0) (Q2Qc 1) (Q2Qc 0) (Q2Qc 0) | Down => mat (Q2Qc 0) (Q2Qc 0) (Q2Qc 1) (Q2Qc 0) | Var => qemb (Q2Qc 5) end.
  Ltac entries := cbn -[Qcplus Qcmult Qcopp Q2Qc]; unfold qemb, mat; cbn -[Qcplus Qcmult Qcopp Q2Qc]; repeat match goal with x : K kq |- _ => change Qc in x end; repeat match goal with |- (_, _) = (_, _) => f_equal end; try ring.
  Definition int : interpretation kq aq.
  Proof.
    refine (mkinterp kq aq M qemb qval _ eq_refl eq_refl _ _ _ _ _ _).
    - intros x y. cbn. split; [apply Qc_eq_bool_correct|]. intros ->. unfold Qc_eq_bool. destruct (Qc_eq_dec y y); congruence.
    - intros x y. entries.
    - intros x y. entries.
    - intros x. entries.
    - intros x [[[? ?] ?] ?]. entries.
    - discriminate.
    - intros x. exact Logic.I.
  Defined.
  Definition transpose (x : car M) : car M := let '(a, b, c, d) := (x : Qc * Qc * Qc * Qc) in mat a c b d.
  Definition st : star_interp int.
  Proof.
    refine (mkstar kq aq int transpose eq_refl eq_refl _ _ _ _).
    - intros [[[? ?] ?] ?] [[[? ?] ?] ?]. entries.
    - intros [[[? ?] ?] ?] [[[? ?] ?] ?]. entries.
    - reflexivity.
    - intros [| |]; reflexivity.
  Defined.
  Definition is_op (x : leaf) : bool := negb (leaf_eqb x Var).
  Definition is_var (x : leaf) : bool := leaf_eqb x Var.
  Definition inv (n : nat) : Qc := Q2Qc (Qinv (inject_Z (Z.of_nat n))).
  Lemma count_Z n : count (k := kq) n = Q2Qc (inject_Z (Z.of_nat n)).
  Proof.
    induction n as [|n IH]; [reflexivity|]. cbn [count kadd kq k1]. rewrite IH. apply Qc_is_canon.
    change (Qeq (Qred (Qplus (Qred 1) (Qred (inject_Z (Z.of_nat n))))) (Qred (inject_Z (Z.of_nat (S n))))).
    rewrite !Qred_correct, Nat2Z.inj_succ. unfold inject_Z, Qeq, Qplus. cbn [Qnum Qden Pos.mul]. lia.
  Qed.
  Lemma inv_ok : reciprocals (k := kq) inv.
  Proof.
    intros n. rewrite count_Z. apply Qc_is_canon. unfold inv.
    change (Qeq (Qred (Qmult (Qred (Qinv (inject_Z (Z.of_nat (S n))))) (Qred (inject_Z (Z.of_nat (S n)))))) (Qred 1)).
    rewrite !Qred_correct. rewrite Qmult_comm. apply Qmult_inv_r.
    unfold inject_Z, Qeq. cbn. lia.
  Qed.
  Lemma vars x : is_var x = true -> central (val int x).
  Proof. destruct x; try discriminate. intros _ y. apply (emb_central _ _ int (Q2Qc 5) y). Qed.
  Lemma can_ok : canonicalizer int (fun e => e).
  Proof. intros e He. split; [split; auto|auto]. Qed.
  Lemma total_ok : totals int (mk_sum kq aq).
  Proof. intros l Hl. now apply mk_sum_ok. Qed.
  Notation EX := (expr (K kq) (A aq)).
  Notation lstq := (lst kq aq is_op is_var inv (fun e => e) (mk_sum kq aq)).
  Definition u : EX := EAtom (Up : A aq).
  Definition d : EX := EAtom (Down : A aq).
  (** 3 v d u + d, where v is a variable: e^(-u) (...) e^u, and with u - d *)
  Definition A1 : EX := plus kq aq (times kq aq (EConst (Q2Qc 3)) (times kq aq (EAtom Var) (times kq aq d u))) d.
  Lemma A1_ok : ok (a := aq) A1. Proof. vm_compute. tauto. Qed.
  Definition plain := mkoptions false false.

  Lemma mat_eq (a b c d a' b' c' d' : Qc) : a = a' -> b = b' -> c = c' -> d = d' -> mat a b c d = mat a' b' c' d'.
  Proof. congruence. Qed.
  Definition qeqb (x y : car M) : bool :=
    let '(a, b, c, d) := (x : Qc * Qc * Qc * Qc) in let '(a', b', c', d') := (y : Qc * Qc * Qc * Qc) in
    Qeq_bool a a' && Qeq_bool b b' && Qeq_bool c c' && Qeq_bool d d'.
  Lemma qeqb_eq x y : qeqb x y = true -> x = y.
  Proof.
    destruct x as [[[a b] c] d], y as [[[a' b'] c'] d']. unfold qeqb. intros H. apply andb_prop in H as [H H4]. apply andb_prop in H as [H H3]. apply andb_prop in H as [H1 H2].
    apply (mat_eq a b c d a' b' c' d'); apply Qc_is_canon, Qeq_bool_iff; auto.
  Qed.
  Lemma nilpotent : power (generator int st plain u) 2 = r0 M /\ nested (generator int st plain u) 3 (value int A1) = r0 M.
  Proof. split; apply qeqb_eq; vm_compute; reflexivity. Qed.

  Example transformed : exists r, lstq 10 plain u 2 A1 = Done r /\
    has_value int r (rmul M (rmul M (mat (Q2Qc 1) (Q2Qc (-1)) (Q2Qc 0) (Q2Qc 1)) (value int A1)) (mat (Q2Qc 1) (Q2Qc 1) (Q2Qc 0) (Q2Qc 1))).
  Proof.
    destruct (lstq 10 plain u 2 A1) as [r| |] eqn:Er; [|vm_compute in Er; discriminate|vm_compute in Er; discriminate]. exists r. split; auto.
    destruct nilpotent as [N1 N2].
    destruct (C98_exponential int is_op is_var vars inv inv_ok _ can_ok _ total_ok st plain u 2 A1 10 r 1 eq_refl Logic.I A1_ok N1 N2 Er) as [H1 H2].
    split; [exact H1|]. rewrite H2. apply qeqb_eq. vm_compute. reflexivity.
  Qed.
  (** unitary, three commutators; and the connected form for the functional that takes the lower row *)
  Example unitary_series : exists r, lstq 10 (mkoptions true false) u 3 A1 = Done r /\
    has_value int r (campbell (fun n => emb int (reciprocal_factorial (k := kq) inv n)) 3 (mat (Q2Qc 0) (Q2Qc 1) (Q2Qc (-1)) (Q2Qc 0)) (value int A1)).
  Proof.
    destruct (lstq 10 (mkoptions true false) u 3 A1) as [r| |] eqn:Er; [|vm_compute in Er; discriminate|vm_compute in Er; discriminate]. exists r. split; auto.
    exact (C98_commutators int is_op is_var vars inv inv_ok _ can_ok _ total_ok st (mkoptions true false) u 3 A1 10 r eq_refl Logic.I A1_ok Er).
  Qed.
  Definition lower (x : car M) : car M := let '(_, _, c, d) := (x : Qc * Qc * Qc * Qc) in mat (Q2Qc 0) (Q2Qc 0) c d.
  Example connected : exists r, lstq 10 (mkoptions false true) u 2 A1 = Done r /\
    lower (value int r) = lower (campbell (fun n => emb int (reciprocal_factorial (k := kq) inv n)) 2 (value int u) (value int A1)) /\
    lower (value int r) <> r0 M /\ qeqb (value int r) (campbell (fun n => emb int (reciprocal_factorial (k := kq) inv n)) 2 (value int u) (value int A1)) = false.
  Proof.
    destruct (lstq 10 (mkoptions false true) u 2 A1) as [r| |] eqn:Er; [|vm_compute in Er; discriminate|vm_compute in Er; discriminate]. exists r. split; auto. split.
    - apply (C98_connected int is_op is_var vars inv inv_ok _ can_ok _ total_ok st (mkoptions false true) u 2 A1 10 r lower eq_refl eq_refl Logic.I A1_ok); auto.
      + intros [[[? ?] ?] ?] [[[? ?] ?] ?]. entries.
      + intros [[[? ?] ?] ?]. entries.
    - injection Er as <-. split; [|vm_compute; reflexivity]. intros H. apply (f_equal (fun x => qeqb x (r0 M))) in H. vm_compute in H. discriminate.
  Qed.

  (** Screening: one hole and one particle state, the one-electron operator, the excitation and the
      deexcitation. *)
  Inductive mbop := F | T | L.
  Definition mbop_eqb (x y : mbop) : bool := match x, y with F, F | T, T | L, L => true | _, _ => false end.
  Definition kz : kops := mkkops Z 0%Z 1%Z Z.add Z.mul Z.opp (fun z => z) Z.eqb.
  Definition az : aops kz := mkaops kz mbop (fun _ => false) (fun _ => None)
    (fun x => match x with F => F | T => L | L => T end) mbop_eqb (fun _ => false) (fun _ => false) mbop_eqb.
  Definition mb_terms (x : mbop) := match x with F => QnExample.f_terms | T => QnExample.t_terms | L => QnExample.l_terms end.
  Definition mb_action (x : mbop) : operator := match x with F => op_general Qn_Example.sr 1 | T => op_t Qn_Example.sr 1 | L => op_lambda Qn_Example.sr 1 end.
  Definition zemb (z : Z) : car Qn_Example.R4 := Qn_Example.m4 (Qn_Example.m2 z 0 0 z) Qn_Example.O2 Qn_Example.O2 (Qn_Example.m2 z 0 0 z).
  Ltac entries4 := unfold zemb, Qn_Example.m4, Qn_Example.m2, Qn_Example.O2; cbn -[Z.add Z.mul Z.opp]; repeat match goal with |- (_, _) = (_, _) => f_equal end; unfold Qn_Example.m2; repeat match goal with |- (_, _) = (_, _) => f_equal end; try ring.
  Definition int4 : interpretation kz az.
  Proof.
    refine (mkinterp kz az Qn_Example.R4 zemb (fun x => operator_value true Qn_Example.plus4 Qn_Example.minus4 (mb_terms x)) Z.eqb_eq eq_refl eq_refl _ _ _ _ _ _).
    - intros x y. entries4.
    - intros x y. entries4.
    - intros x. entries4.
    - intros x [[[[[[? ?] ?] ?] [[[? ?] ?] ?]] [[[? ?] ?] ?]] [[[? ?] ?] ?]]. entries4.
    - discriminate.
    - intros x. exact Logic.I.
  Defined.
  Lemma mb_described x : true = true -> val int4 x = operator_value true Qn_Example.plus4 Qn_Example.minus4 (mb_terms x) /\
    Forall (fun t => central (fst t) /\ keeps_promise Qn_Example.sr Qn_Example.sr_base (mb_action x) (snd t) /\ snd t <> []) (mb_terms x).
  Proof.
    intros _. split; [reflexivity|].
    assert (H : Forall (fun t => central (fst t) /\ keeps_promise Qn_Example.sr Qn_Example.sr_base (mb_action x) (snd t)) (mb_terms x)).
    { destruct x; [apply QnExample.f_general|apply QnExample.t_excites|apply QnExample.l_deexcites]. }
    assert (N : Forall (fun t : car Qn_Example.R4 * list (op nat) => snd t <> []) (mb_terms x)) by (destruct x; repeat constructor; discriminate).
    rewrite Forall_forall in *. intros t Ht. destruct (H t Ht). auto.
  Qed.
  Notation EZ := (expr (K kz) (A az)).
  Definition mb (x : mbop) : EZ := EAtom (x : A az).
  (** <l (2 t + 3 t t)>: the second term is screened out, the value is not zero *)
  Definition A2 : EZ := EProd PPlain 1%Z [mb L; ESum None [EProd PPlain 2%Z [mb T]; EProd PPlain 3%Z [mb T; mb T]]].
  Example screening : exists r, screen_vac_av kz az (fun _ => true) (fun _ => false) (fun e => e) (mk_sum kz az)
      (can_keep_vacuum kz az (fun _ => true) (fun _ => false) mb_action Qn_Example.sr) 10 A2 = Done r /\
    Qn_Example.V4 (value int4 r) = Qn_Example.V4 (value int4 A2) /\ Qn_Example.V4 (value int4 r) <> r0 Qn_Example.R4.
  Proof.
    destruct (screen_vac_av kz az (fun _ => true) (fun _ => false) (fun e => e) (mk_sum kz az)
      (can_keep_vacuum kz az (fun _ => true) (fun _ => false) mb_action Qn_Example.sr) 10 A2) as [r| |] eqn:Er; [|vm_compute in Er; discriminate|vm_compute in Er; discriminate].
    exists r. split; [reflexivity|]. split.
    - refine (proj2 (C99_screening int4 (fun _ => true) (fun _ => false) _ _ _ _ _ Qn_Example.sr Qn_Example.sr_base true Qn_Example.plus4 Qn_Example.minus4 Qn_Example.contr4 Qn_Example.V4
        QnExample.vacuum4 (proj1 Qn_Example.sr_ok) mb_action mb_terms mb_described A2 10 r _ Er)).
      + discriminate.
      + intros e He. split; [split; auto|auto].
      + intros l Hl. now apply mk_sum_ok.
      + vm_compute. tauto.
    - vm_compute in Er. injection Er as <-. vm_compute. discriminate.
  Qed.
End LstExamples.
