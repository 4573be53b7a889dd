(** Theorems on the text form of expressions. *)
From Coq Require Import ZArith List Bool QArith Qcanon String Ascii Lia.
From Verif Require Import Tsr_Model Ser_Model Ser_Spec Ser_Proofs5 Ser_Proofs6 Ser_Proofs7.
Import ListNotations.
Close Scope Q_scope.
Open Scope Z_scope.
Open Scope list_scope.

(** C89. Reading the text of an expression gives the expression, whatever the option that writes the symmetries of
    tensors ([good] asks that they be the default ones if they are not written). *)
Theorem C89_round_trip : forall cs real torn distinct known psort min_tmp fdiv defaults annot e,
  usual cs -> exact real ->
  good cs known distinct psort min_tmp annot defaults e ->
  from_string cs real torn distinct known psort min_tmp fdiv defaults (to_string annot e) = Expression e.
Proof. intros. now apply round_trip. Qed.

(** C89. Different expressions have different texts. *)
Theorem C89_texts_differ : forall cs distinct known psort min_tmp defaults annot e e',
  usual cs -> 
  good cs known distinct psort min_tmp annot defaults e -> good cs known distinct psort min_tmp annot defaults e' ->
  to_string annot e = to_string annot e' -> e = e'.
Proof.
  intros cs distinct known psort min_tmp defaults annot e e' U G G' E.
  set (real := fun (neg : bool) (ds _ : str) (_ : option Z) => Qmake (if neg then - value_of ds else value_of ds) 1).
  assert (X : exact real) by (intros neg ds _; reflexivity).
  pose proof (C89_round_trip cs real (fun s => s) distinct known psort min_tmp Qdiv defaults annot e U X G) as A.
  pose proof (C89_round_trip cs real (fun s => s) distinct known psort min_tmp Qdiv defaults annot e' U X G') as B.
  rewrite E, B in A. now injection A.
Qed.

(** C90. Reading ends for every text: the recursion of the grammar is never cut short. *)
Theorem C90_reading_ends : forall cs real torn s, parse cs real torn s <> Fuel.
Proof. exact parse_total. Qed.

(** C90. The whole text is read: a closing parenthesis too many is an error, whatever follows. *)
Theorem C90_rest_is_an_error : forall cs real torn distinct known psort min_tmp fdiv defaults annot e s,
  usual cs -> exact real -> good cs known distinct psort min_tmp annot defaults e ->
  from_string cs real torn distinct known psort min_tmp fdiv defaults (to_string annot e ++ txt ")" ++ s) = Error.
Proof. intros. now apply read_rest. Qed.

(** C90. A star with nothing behind it is an error. *)
Theorem C90_dangling_star : forall cs real torn distinct known psort min_tmp fdiv defaults annot e,
  usual cs -> exact real -> good cs known distinct psort min_tmp annot defaults e ->
  match e with ECon _ | EProd _ _ | ESum _ => False | _ => True end ->
  from_string cs real torn distinct known psort min_tmp fdiv defaults (to_string annot e ++ txt " * ") = Error.
Proof. intros. apply read_star; auto. destruct e; auto; contradiction. Qed.

(** C91. The text of a sum that is not in normal form (several constants, zero terms, a single term) is read as an
    expression of the same value, for every notion of value that adds up. *)
Theorem C91_sum_value : forall cs real torn distinct known psort min_tmp fdiv defaults annot K (zero : K) plus value l,
  usual cs -> exact real -> monoid zero plus -> additive zero plus value -> l <> [] ->
  (forall e, In e l -> good cs known distinct psort min_tmp annot defaults e /\ is_sum e = false) ->
  exists e, from_string cs real torn distinct known psort min_tmp fdiv defaults (to_string annot (ESum l)) = Expression e /\ value e = value (ESum l).
Proof. intros. eapply read_sum; eauto. Qed.

(** A concrete set of characters, and texts for which reading does not undo writing. *)
Module SerExamples.
  Definition cs0 : charset := mkcharset
    (fun c => (65 <=? c) && (c <=? 90) || (97 <=? c) && (c <=? 122) || (192 <=? c) && (c <? 700))%bool
    (fun c => (65 <=? c) && (c <=? 90) || (97 <=? c) && (c <=? 122) || (48 <=? c) && (c <=? 57) || (192 <=? c) && (c <? 700))%bool
    (fun c => (9 <=? c) && (c <=? 13) || (c =? 32))%bool
    (fun c => (65 <=? c) && (c <=? 90))%bool
    (fun _ => false).
  Lemma usual0 : usual cs0.
  Proof.
    split; cbn [alpha alnum blank upper cs0]; intros.
    - lia.
    - lia.
    - reflexivity.
    - reflexivity.
    - lia.
    - cbn [In] in H. lia.
    - reflexivity.
  Qed.
  (** Reading rounds to 53 bits as long as it is an integer below [2^54]. *)
  Definition round54 (n : Z) : Z := if n <=? 9007199254740992 then n else 2 * (n / 2).
  Definition real0 (neg : bool) (ds fs : str) (e : option Z) : Q := Qmake (if neg then - round54 (value_of ds) else round54 (value_of ds)) 1.
  Lemma exact0 : exact real0.
  Proof. intros neg ds H. unfold real0, round54. apply Z.leb_le in H. now rewrite H. Qed.
  Fixpoint labels (l : list index) : list str := match l with [] => [] | i :: l' => index_str i :: labels l' end.
  Fixpoint nodup (l : list str) : bool := match l with [] => true | s :: l' => (negb (existsb (same s) l') && nodup l')%bool end.
  Definition distinct0 (l : list index) : bool := nodup (labels l).
  Definition known0 (k : str) : bool := existsb (same k) [txt "i"; txt "a"; txt "p"].
  Fixpoint before (a b : str) : bool := match a, b with [], _ => true | _, [] => false | x :: a', y :: b' => ((x <? y) || (x =? y) && before a' b')%bool end.
  Fixpoint insert (i : index) (l : list index) : list index :=
    match l with [] => [i] | j :: l' => if before (index_str i) (index_str j) then i :: l else j :: insert i l' end.
  Definition sort0 (l : list index) : list index := fold_right insert [] l.
  Definition defaults0 := (Nonsymm, BKConjugate, ColSymm).
  Definition read (s : str) : outcome := from_string cs0 real0 (fun s => s) distinct0 known0 sort0 100 Qdiv defaults0 s.
  Definition write := to_string true.
  Definition r (n : Z) (d : positive) : Qc := Q2Qc (Qmake n d).
  Definition c (n : Z) (d : positive) : cplx := (r n d, r 0 1).
  Definition var (s : string) : expr := EVar (txt s, false).
  Definition ix (s : string) (n : Z) : index := Ix (txt s) (Some n) [].
  (** [x^* * t{i_1<a_2,a_3>;a_1;p_7}:A-C-S], a product with a power and a sum, a constant, an operator. *)
  Definition t0 : tensor := mkt (txt "t") [Ix (txt "i") (Some 1) [ix "a" 2; ix "a" 3]] [ix "a" 1] [ix "p" 7] Antisymm BKConjugate ColSymm.
  Definition e0 : expr :=
    ESum [EProd (c 1 2) [EVar (txt "x", true); ETen t0];
          EProd (c (-1) 1) [EPow (inl (c 3 1)) (r 1 2) false; ESum [EProd (c 2 1) [var "x"; var "y_2"]; var "z"]];
          ECon (c (-2) 3);
          EPow (inr (txt "w", true)) (r (-2) 1) true;
          EProd (c 1 1) [var "y"; EOp false true [ix "i" 1] [ix "a" 2]]].

  Lemma name_ok_dec n : (match n with
                         | [] => false
                         | x :: w => alpha cs0 x && forallb (word cs0) w && (match w with [] => true | _ => negb (last w 0 =? 95) end) &&
                                     negb (same (map small (firstn 3 n)) (txt "inf")) && negb (same (map small (firstn 3 n)) (txt "nan"))
                         end)%bool = true -> name_ok cs0 n.
  Proof.
    assert (R : forall s, same s s = true) by (induction s as [|x s IH]; cbn; [reflexivity|now rewrite Z.eqb_refl, IH]).
    destruct n as [|x w]; [discriminate|]. intros H. repeat (apply andb_prop in H; destruct H as [H ?]).
    exists x, w. split; [reflexivity|]. split; [assumption|]. split; [apply Forall_forall; now apply forallb_forall|]. split.
    - destruct w; [now left|right]. intros E. rewrite E in *. discriminate.
    - intros [E|E]; rewrite E, R in *; discriminate.
  Qed.
  Lemma label_ok_dec k n : (negb (match k with [] => true | _ => false end) && forallb (index_char cs0) k && known0 k && (0 <=? n) && (n <? 100))%bool = true -> label_ok cs0 known0 100 k (Some n).
  Proof.
    intros H. repeat (apply andb_prop in H; destruct H as [H ?]). split; [now destruct k|]. split; [apply Forall_forall; now apply forallb_forall|].
    split; [assumption|]. exists n. split; [reflexivity|]. lia.
  Qed.
  Ltac plain := eexists; eexists; eexists; split; [reflexivity|]; split; [apply label_ok_dec; reflexivity|]; split; [apply Forall_nil|split; reflexivity].
  Ltac proto := eexists; eexists; split; [reflexivity|]; apply label_ok_dec; reflexivity.
  Lemma good0 : good cs0 known0 distinct0 sort0 100 true defaults0 e0.
  Proof.
    apply good_sum; [cbn; lia|..|cbn; lia]; [|intros f H; repeat (destruct H as [<-|H]; [split; reflexivity|]); destruct H].
    intros f H. destruct H as [<-|[<-|[<-|[<-|[<-|[]]]]]].
    - apply good_prod; [split; [split; vm_compute; discriminate|reflexivity]|discriminate|intros E; cbn; lia|..];
        [|intros f H; repeat (destruct H as [<-|H]; [reflexivity|]); destruct H].
      intros f [<-|[<-|[]]]; apply good_atom; [now apply name_ok_dec|].
      split; [now apply name_ok_dec|]. split; [intros [] []; discriminate|].
      split; [|split; [|split]].
      + apply Forall_cons; [|apply Forall_nil]. eexists; eexists; eexists; split; [reflexivity|]. split; [apply label_ok_dec; reflexivity|].
        split; [apply Forall_cons; [proto|]; apply Forall_cons; [proto|]; apply Forall_nil|]. split; reflexivity.
      + apply Forall_cons; [plain|apply Forall_nil].
      + apply Forall_cons; [plain|apply Forall_nil].
      + split; [reflexivity|]. split; [reflexivity|]. split; [reflexivity|]. split; [now right|]. split; [discriminate|now left].
    - apply good_prod; [split; [split; vm_compute; discriminate|reflexivity]|discriminate|intros E; cbn; lia|..];
        [|intros f H; repeat (destruct H as [<-|H]; [reflexivity|]); destruct H].
      intros f [<-|[<-|[]]].
      + apply good_atom. split; [split; vm_compute; discriminate|]. split; [split; [split; vm_compute; discriminate|reflexivity]|]. cbn. lia.
      + apply good_sum; [cbn; lia|..|cbn; lia]; [|intros f H; repeat (destruct H as [<-|H]; [split; reflexivity|]); destruct H].
        intros f [<-|[<-|[]]]; [|apply good_atom; now apply name_ok_dec].
        apply good_prod; [split; [split; vm_compute; discriminate|reflexivity]|discriminate|intros E; cbn; lia|..];
          [|intros f H; repeat (destruct H as [<-|H]; [reflexivity|]); destruct H].
        intros f [<-|[<-|[]]]; apply good_atom; now apply name_ok_dec.
    - apply good_atom. split; [split; vm_compute; discriminate|reflexivity].
    - apply good_atom. split; [split; vm_compute; discriminate|]. now apply name_ok_dec.
    - apply good_prod; [split; [split; vm_compute; discriminate|reflexivity]|discriminate|intros E; cbn; lia|..];
        [|intros f H; repeat (destruct H as [<-|H]; [reflexivity|]); destruct H].
      intros f [<-|[<-|[]]]; apply good_atom; [now apply name_ok_dec|].
      split; (apply Forall_cons; [plain|apply Forall_nil]).
  Qed.
  Example round_trip0 : read (write e0) = Expression e0.
  Proof. apply C89_round_trip; [exact usual0|exact exact0|exact good0]. Qed.
  Example text0 : write e0 = txt "1/2 x^* * t{i_1<a_2,a_3>;a_1;p_7}:A-C-S - 1 (3)^(1/2) * (2 x * y_2 + z) - 2/3 + ((w^*)^(-2))^* + y * " ++ [227] ++ txt "{a_2;i_1}".
  Proof. vm_compute. reflexivity. Qed.

  (** A value: variables, powers and tensors count 1, the real part of a sum or product. *)
  Fixpoint value0 (e : expr) : Qc :=
    match e with
    | ECon c => fst c
    | EPow (inl c) x _ => if (is_zero_c c && (0 <? numer x))%bool then 0%Qc else 1%Qc
    | EProd c fs => (fst c * fold_right (fun f k => (value0 f * k)%Qc) 1 fs)%Qc
    | ESum l => fold_right (fun f k => (value0 f + k)%Qc) 0%Qc l
    | _ => 1%Qc
    end.
  Lemma additive0 : additive 0%Qc Qcplus value0.
  Proof.
    split; try reflexivity.
    - intros fs. cbn. ring.
    - intros x k H. cbn. apply Z.ltb_lt in H. now rewrite H.
  Qed.
  Lemma monoid0 : monoid 0%Qc Qcplus.
  Proof. split; intros; ring. Qed.
  Example sum0 : exists e, read (write (ESum [ECon (c 1 2); var "x"; ECon (c 0 1); ECon (c 1 3)])) = Expression e /\ value0 e = r 11 6.
  Proof.
    destruct (C91_sum_value cs0 real0 (fun s => s) distinct0 known0 sort0 100 Qdiv defaults0 true Qc 0%Qc Qcplus value0 [ECon (c 1 2); var "x"; ECon (c 0 1); ECon (c 1 3)]) as (e & E & V);
      [exact usual0|exact exact0|exact monoid0|exact additive0|discriminate| |].
    - intros e He. destruct He as [<-|[<-|[<-|[<-|[]]]]]; (split; [|reflexivity]); apply good_atom; try (now apply name_ok_dec); (split; [split; vm_compute; discriminate|reflexivity]).
    - exists e. split; [exact E|]. rewrite V. vm_compute. apply Qc_is_canon. reflexivity.
  Qed.

  (** Expressions outside [good] that are not read back: what is read is something else, or nothing. *)
  Definition lost (e : expr) : Prop := read (write e) <> Expression e.
  Ltac refute := intros E; vm_compute in E; discriminate E.

  (** An imaginary number: the [i] is not written. *)
  Definition imaginary : expr := ECon (r 0 1, r 2 1).
  Theorem C89_imaginary_refuted : read (write imaginary) = Expression (ECon (c 2 1)).
  Proof. vm_compute. reflexivity. Qed.
  (** A complex number is read as a number plus a number times a variable. *)
  Definition complex : expr := ECon (r 1 1, r 2 1).
  Theorem C89_complex_refuted : read (write complex) = Expression (ESum [ECon (c 1 1); EProd (c 2 1) [var "i"]]).
  Proof. vm_compute. reflexivity. Qed.
  (** A sum in a sum is written twice. *)
  Definition nested : expr := ESum [var "x"; ESum [var "y"; var "z"]].
  Theorem C89_nested_sum_refuted : write nested = txt "x + y + z(y + z)" /\ lost nested.
  Proof. split; [vm_compute; reflexivity|refute]. Qed.
  (** An integer above [2^53] is rounded. *)
  Definition big : expr := ECon (c 9007199254740993 1).
  Theorem C89_large_integer_refuted : read (write big) = Expression (ECon (c 9007199254740992 1)).
  Proof. vm_compute. reflexivity. Qed.
  (** A variable whose name begins with [inf] or [nan] is read as a number. *)
  Theorem C89_infinity_refuted : read (write (var "info")) = Error /\ read (write (var "nano")) = Error.
  Proof. split; vm_compute; reflexivity. Qed.
  (** The proto-indices of a proto-index are not written. *)
  Definition deep : expr := ETen (mkt (txt "t") [Ix (txt "a") (Some 1) [Ix (txt "a") (Some 2) [ix "i" 1]]] [] [] Nonsymm BKConjugate ColSymm).
  Theorem C89_nested_proto_indices_refuted : exists t, read (write deep) = Expression (ETen t) /\ t_bra t = [Ix (txt "a") (Some 1) [ix "a" 2]].
  Proof. eexists. split; vm_compute; reflexivity. Qed.
  (** Temporary indices, indices without ordinal and empty slots are written but cannot be read. *)
  Definition slot (i : index) : expr := ETen (mkt (txt "t") [i] [ix "a" 1] [] Nonsymm BKConjugate ColSymm).
  Theorem C89_indices_refuted :
    read (write (slot (ix "i" 100))) = Error /\ read (write (slot (Ix (txt "i") None []))) = Error /\ lost (slot (Ix [] None [])).
  Proof. split; [vm_compute; reflexivity|split; [vm_compute; reflexivity|refute]]. Qed.
  (** A product of a factor, a sum of a summand, the empty product and the empty sum. *)
  Theorem C89_trivial_refuted :
    read (write (EProd (c 1 1) [var "x"])) = Expression (var "x") /\ read (write (ESum [var "x"])) = Expression (var "x") /\
    read (write (ESum [])) = NullPointer /\ read (write (EProd (c 1 1) [])) = NullPointer.
  Proof. repeat split; vm_compute; reflexivity. Qed.
  (** C90. White space decides between a product and a difference. *)
  Theorem C90_white_space_refuted :
    read (txt "a -2") = Expression (EProd (c (-2) 1) [var "a"]) /\ read (txt "a - 2") = Expression (ESum [var "a"; ECon (c (-2) 1)]).
  Proof. split; vm_compute; reflexivity. Qed.
End SerExamples.
