(** * Properties of the Python einsum generators *)
From Coq Require Import List Bool Arith Lia ZArith QArith Qcanon Ascii String.
From Verif Require Import Num_Model Num_Proofs1 Ein_Model Ein_Spec Ein_Proofs1 Ein_Proofs2 Ein_Proofs3.
Import ListNotations.
Local Open Scope nat_scope.

(** ** C117: letters *)
(** Two positions carry the same letter exactly if they carry the same index. *)
Theorem C117_letters : forall chars ls cs m, subscript chars ls [] = Some (cs, m) ->
  List.length cs = List.length ls /\
  (forall i j a b c d, nth_error ls i = Some a -> nth_error ls j = Some b ->
     nth_error cs i = Some c -> nth_error cs j = Some d -> (c = d <-> a = b)) /\
  ((forall l, In l ls -> In (base_char l) chars) -> forall c, In c cs -> In c chars).
Proof.
  intros chars ls cs m E. destruct (subscript_spec _ _ _ _ _ wf_nil E) as (W & _ & F & _ & L).
  assert (N : forall i a c, nth_error ls i = Some a -> nth_error cs i = Some c -> find_char m a = Some c).
  { clear -F. induction F as [|l c ls cs H _ IH]; intros [|i] a d A D; cbn in *; try discriminate; [congruence|eauto]. }
  split; [clear -F; induction F; cbn; congruence|]. split.
  - intros i j a b c d A B C D. pose proof (N _ _ _ A C) as FA. pose proof (N _ _ _ B D) as FB. split.
    + intros <-. exact (find_char_inj m W a b c FA FB).
    + intros <-. congruence.
  - intros H c I. assert (IM : In c (map snd m)).
    { clear -F I. induction F as [|l d ls cs E _ IH]; [destruct I|]. destruct I as [->|I]; [|auto].
      apply find_char_in in E. apply (in_map snd) in E. exact E. }
    destruct (L c IM) as [[]|[X|(l & X & ->)]]; auto.
Qed.

(** A product with no more different indices than there are letters always gets a statement. *)
Theorem C117_enough : forall chars e result, NoDup chars -> no_sum e ->
  (forall ds, NoDup ds -> (forall d, In d ds -> In d (indices e) \/ In d result) -> List.length ds <= List.length chars) ->
  exists ts, to_einsum_expr chars e result = Some ts.
Proof.
  intros chars e result ND NS H. unfold to_einsum_expr.
  destruct (extract chars e (mkS [] [] [])) as [s|] eqn:X.
  - destruct (subscript chars result (s_map s)) as [[out m]|] eqn:Su.
    + destruct (s_ops s); [eexists; reflexivity|]. destruct (s_scalar s); [eexists; reflexivity|].
      destruct (is_one _); eexists; reflexivity.
    + exfalso. destruct (extract_letters _ _ (mkS [] [] []) _ wf_nil X) as (W & _ & _ & K). cbn in K.
      destruct (subscript_none _ _ _ W ND Su) as (ds & A & B & C). specialize (H ds A).
      assert (List.length ds <= List.length chars); [|lia]. apply H. intros d I. destruct (C d I) as [Y|Y]; [|auto].
      apply K in Y. destruct Y as [[]|Y]. auto.
  - exfalso. destruct (extract_fail _ _ (mkS [] [] []) ND wf_nil NS X) as (ds & A & B & C). specialize (H ds A).
    assert (List.length ds <= List.length chars); [|lia]. apply H. intros d I. destruct (C d I) as [[]|Y]. auto.
Qed.

Theorem C117_alphabets : NoDup pytorch_chars /\ NoDup numpy_chars /\
  List.length pytorch_chars = 26 /\ List.length numpy_chars = 52.
Proof.
  assert (X : forall l : list ascii, distinct Ascii.eqb l = l -> NoDup l).
  { induction l as [|a l IH]; intros E; [constructor|]. cbn in E. injection E as E.
    assert (L : distinct Ascii.eqb l = l /\ ~ In a l).
    { assert (SZ : forall l : list ascii, List.length (distinct Ascii.eqb l) <= List.length l).
      { clear. induction l as [|b l IH]; [reflexivity|]. cbn.
        assert (forall p (k : list ascii), List.length (filter p k) <= List.length k).
        { intros p k. induction k as [|x k IHk]; cbn; [lia|]. destruct (p x); cbn; lia. }
        specialize (H (fun b0 => negb (Ascii.eqb b b0)) (distinct Ascii.eqb l)). lia. }
      assert (FL : forall (p : ascii -> bool) (k : list ascii), List.length (filter p k) <= List.length k /\
                   (List.length (filter p k) = List.length k -> filter p k = k)).
      { intros p k. induction k as [|x k [I1 I2]]; cbn; [auto|]. destruct (p x); cbn.
        - split; [lia|]. intros Q. f_equal. apply I2. lia.
        - split; [lia|]. intros Q. lia. }
      destruct (FL (fun b => negb (Ascii.eqb a b)) (distinct Ascii.eqb l)) as [F1 F2].
      specialize (SZ l). rewrite E in F1, F2. assert (D : l = distinct Ascii.eqb l) by (apply F2; lia).
      split; [now symmetry|]. intros I. rewrite <- E in I. apply filter_In in I. destruct I as [_ I].
      rewrite Ascii.eqb_refl in I. discriminate. }
    constructor; [apply L|apply IH; apply L]. }
  split; [apply X; vm_compute; reflexivity|]. split; [apply X; vm_compute; reflexivity|]. split; reflexivity.
Qed.

(** ** C118: the statement computes the contraction *)
Theorem C118_statement_value_partial : forall dim shape array var chars e result at_ ts,
  to_einsum_expr chars e result = Some ts ->
  plain e -> NoDup result -> (forall l, In l result -> In l (indices e)) ->
  (forall t, In t (tensors e) -> shape t = map dim (t_idx t)) ->
  py_value var (fun k => einsum shape array k at_) ts (expr_value dim array var e result at_).
Proof. exact statement_value. Qed.

(** Sums are refused, never mistranslated. *)
Theorem C118_sum_refused : forall chars e result ts, to_einsum_expr chars e result = Some ts -> no_sum e.
Proof.
  intros chars e result ts E. unfold to_einsum_expr in E.
  destruct (extract chars e (mkS [] [] [])) as [s|] eqn:X; [|discriminate]. exact (extract_no_sum _ _ _ _ X).
Qed.

(** ** C119: constants *)
Theorem C119_constants_partial : forall names calls c, whole_imaginary c -> py_value names calls (print_const c) c.
Proof. intros names calls c W. apply first_value. apply const_factor. exact W. Qed.

Theorem C119_rationals : forall names calls q, py_value names calls (print_rat TInt q) (c_of q).
Proof. intros names calls q. apply first_value. apply rat_first. Qed.

(** ** C120: names *)
Lemma sanitize_char_ok : forall c, is_alnum (sanitize_char c) = true \/ sanitize_char c = "_"%char \/ 128 <= nat_of_ascii (sanitize_char c).
Proof.
  intros c. unfold sanitize_char. destruct (Nat.ltb_spec (nat_of_ascii c) 128) as [L|L]; cbn [andb]; [|auto].
  destruct (is_alnum c) eqn:A; cbn [negb andb]; [auto|].
  destruct (Ascii.eqb_spec c "_"%char) as [->|]; cbn [negb]; auto.
Qed.

Theorem C120_identifier : forall s, s <> EmptyString -> identifier (sanitize s).
Proof.
  intros s NE.
  assert (F : Forall (fun c => is_alnum c = true \/ c = "_"%char \/ 128 <= nat_of_ascii c) (list_ascii_of_string (sanitize_chars s))).
  { clear NE. induction s as [|c s IH]; cbn; [constructor|]. constructor; [apply sanitize_char_ok|exact IH]. }
  unfold sanitize. destruct s as [|c s]; [congruence|]. cbn [sanitize_chars] in *.
  destruct (is_digit (sanitize_char c)) eqn:D; split; try reflexivity; try exact D; try exact F.
  cbn [list_ascii_of_string] in *. constructor; [now right; left|exact F].
Qed.

(** Names that already are identifiers are kept. *)
Theorem C120_kept : forall s, identifier s -> sanitize s = s.
Proof.
  intros s [H F]. assert (E : sanitize_chars s = s).
  { clear H. induction s as [|c s IH]; [reflexivity|]. cbn in *. inversion F as [|? ? Hc F']; subst. rewrite (IH F'). f_equal.
    unfold sanitize_char. destruct Hc as [A|[->|G]].
    - rewrite A. cbn. now rewrite andb_false_r.
    - reflexivity.
    - destruct (Nat.ltb_spec (nat_of_ascii c) 128); [lia|reflexivity]. }
  unfold sanitize. rewrite E. destruct s as [|c s]; [destruct H|]. now rewrite H.
Qed.

Module EinExamples.
  Definition zc (z : Z) : cplx := c_of (Q2Qc (inject_Z z)).
  (** -1/2 g(i_1,a_1,i_2) t(a_1,i_2) with the result over i_1. *)
  Definition half : cplx := c_of (Q2Qc (-1 # 2)).
  Definition g := mkT 0 ["i_1"%string; "a_1"%string; "i_2"%string].
  Definition t := mkT 1 ["a_1"%string; "i_2"%string].
  Definition e1 := EProduct half [ETensor g; ELeaf (LVar 7 false); ETensor t].
  Example e1_text : exists cs ct, to_einsum_expr numpy_chars e1 ["i_1"%string] =
    Some [TMinus; TInt 1; TSlash; TInt 2; TStar; TName 7; TStar; TCall (mkCall [(cs, g); (ct, t)] ["i"%char])].
  Proof. eexists. eexists. vm_compute. reflexivity. Qed.
  Example e1_letters : subscript numpy_chars (t_idx g ++ t_idx t) [] =
    Some (["i"%char; "a"%char; "b"%char; "a"%char; "b"%char], [("i_2"%string, "b"%char); ("a_1"%string, "a"%char); ("i_1"%string, "i"%char)]).
  Proof. reflexivity. Qed.
  Example e1_ok : plain e1 /\ NoDup ["i_1"%string] /\ (forall l, In l ["i_1"%string] -> In l (indices e1)).
  Proof.
    split; [cbn; repeat split; reflexivity|]. split; [constructor; [intros []|constructor]|]. intros l [<-|[]]. now left.
  Qed.
  Example enough_ok : no_sum e1. Proof. cbn. tauto. Qed.

  (** Findings. *)
  (** A Greek label gives a byte that is no einsum letter. *)
  Theorem C117_greek_refuted : let alpha := String (ascii_of_nat 206) (String (ascii_of_nat 177) "_1"%string) in
    exists c m, subscript numpy_chars [alpha] [] = Some ([c], m) /\ ~ In c numpy_chars /\ nat_of_ascii c = 206.
  Proof.
    eexists. eexists. split; [vm_compute; reflexivity|]. split; [|reflexivity].
    intros H. vm_compute in H. repeat (destruct H as [H|H]; [discriminate|]). exact H.
  Qed.

  (** A conjugated variable is printed without the conjugation. *)
  Theorem C118_conjugate_refuted : exists e ts, to_einsum_expr numpy_chars e [] = Some ts /\
    forall dim shape array, exists var v, py_value var (fun k => einsum shape array k []) ts v /\ v <> expr_value dim array var e [] [].
  Proof.
    exists (ELeaf (LVar 0 true)), [TName 0]. split; [reflexivity|]. intros dim shape array.
    exists (fun _ => mkc 0 1), (mkc 0 1). split.
    - exists 4. intros n L. destruct n as [|[|[|[|n]]]]; try lia. reflexivity.
    - cbn. intros E. apply (f_equal im) in E. cbn in E. discriminate.
  Qed.

  (** i/2 is printed as "(0+1/2j)", which Python reads as 1/(2j) = -i/2. *)
  Theorem C119_constants_refuted : exists c v, (forall names calls, py_value names calls (print_const c) v) /\ v <> c /\ v = c_opp c.
  Proof.
    exists (mkc 0 (Q2Qc (1 # 2))), (mkc 0 (Q2Qc (-1 # 2))). split; [|split].
    - intros names calls. exists 14. intros n L. replace n with (14 + (n - 14)) by lia. generalize (n - 14). clear. intros n.
      cbn [Nat.add].
      assert (P : print_const (mkc 0 (Q2Qc (1 # 2))) = [TLp; TInt 0; TPlus; TInt 1; TSlash; TImag 2; TRp]) by reflexivity.
      rewrite P. rewrite expr_S, term_S, unary_S, expr_S, term_S, unary_S, tloop_S, eloop_S, term_S, unary_S, tloop_S, unary_S.
      assert (D : c_div (ofN 1) (imagN 2) = Some (mkc 0 (Q2Qc (-1 # 2)))).
      { unfold c_div. assert (Q : qeqb (norm_squared (imagN 2)) 0 = false) by reflexivity. rewrite Q. f_equal.
        apply c_eq; apply Qc_is_canon; reflexivity. }
      rewrite D. rewrite tloop_S, eloop_S, tloop_S, eloop_S. reflexivity.
    - intros E. apply (f_equal im) in E. cbn in E. discriminate.
    - apply c_eq; apply Qc_is_canon; reflexivity.
  Qed.

  (** Different names can become the same. *)
  Theorem C120_injective_refuted : exists a b, a <> b /\ sanitize a = sanitize b /\ a <> EmptyString /\ b <> EmptyString.
  Proof. exists "t'"%string, "t_"%string. split; [discriminate|]. split; [reflexivity|]. split; discriminate. Qed.
End EinExamples.
