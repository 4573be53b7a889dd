(** * Conversion of strings to integers *)
From Coq Require Import List ZArith Bool Lia.
From Verif Require Import Cnv_Model Cnv_Spec.
Import ListNotations.
Local Open Scope Z_scope.

Lemma digit_spec base c d : 2 <= base <= 36 -> digit_of base c = Some d <-> is_digit base c d.
Proof.
  intros HB. unfold digit_of, is_digit.
  destruct (Z.leb_spec 48 c); destruct (Z.leb_spec c 57); destruct (Z.leb_spec 97 c); destruct (Z.leb_spec c 122);
  destruct (Z.leb_spec 65 c); destruct (Z.leb_spec c 90); cbn [andb]; cbv zeta;
  match goal with |- context [if ?x <? base then _ else _] => destruct (Z.ltb_spec x base) end;
  (split; [intros E; first [discriminate|injection E as <-; lia]|intros K; first [f_equal; lia|exfalso; lia]]).
Qed.

Lemma horner base ds : forall acc, fold_left (fun acc d => acc * base + d) ds acc = acc * base ^ Z.of_nat (length ds) + positional base ds.
Proof.
  induction ds as [|d ds IH]; intros acc; cbn [fold_left length positional].
  - change (Z.of_nat 0) with 0. rewrite Z.pow_0_r. lia.
  - rewrite IH. rewrite Nat2Z.inj_succ, Z.pow_succ_r by lia. ring.
Qed.

Lemma span_all base cs ds : 2 <= base <= 36 -> Forall2 (is_digit base) cs ds -> span_digits base cs = (ds, []).
Proof.
  intros HB. induction 1 as [|c d cs ds H F IH]; cbn [span_digits]; [reflexivity|].
  apply (digit_spec base c d HB) in H. rewrite H, IH. reflexivity.
Qed.
Lemma span_inv base s : 2 <= base <= 36 -> snd (span_digits base s) = [] -> Forall2 (is_digit base) s (fst (span_digits base s)).
Proof.
  intros HB. induction s as [|c s IH]; cbn [span_digits]; [constructor|].
  destruct (digit_of base c) as [d|] eqn:E; cbn [fst snd]; [|discriminate]. intros H. constructor; [|apply IH; exact H].
  apply digit_spec; assumption.
Qed.
Lemma minus_not_digit base : 2 <= base <= 36 -> forall d, ~ is_digit base 45 d.
Proof. intros HB d H. unfold is_digit in H. lia. Qed.

(** C148: converting a string gives [v] exactly if the whole string denotes [v] and the type can represent
    it; for every integer type and every base from 2 to 36. Everything else throws. *)
Theorem C148_value signed lo hi base s v : 2 <= base <= 36 ->
  string_to signed lo hi base s = COk v <-> denotes signed base s v /\ lo <= v <= hi.
Proof.
  intros HB. unfold string_to, from_chars. set (neg := match s with 45 :: _ => signed | _ => false end). cbv zeta. split.
  - destruct (fst (span_digits base (if neg then tl s else s))) as [|d ds] eqn:E; [discriminate|].
    set (w := if neg then - _ else _).
    destruct (Z.leb_spec lo w); destruct (Z.leb_spec w hi); cbn [andb]; try discriminate.
    destruct (snd (span_digits base (if neg then tl s else s))) eqn:R; [|discriminate]. intros H1. injection H1 as <-.
    split; [|lia]. pose proof (span_inv base _ HB R) as F. rewrite E in F. exists (if neg then tl s else s), (d :: ds).
    split; [discriminate|]. split; [exact F|]. unfold w. rewrite (horner base (d :: ds) 0).
    destruct neg eqn:N.
    + right. unfold neg in N. destruct s as [|c s']; [discriminate|]. destruct (Z.eq_dec c 45) as [->|NC].
      * split; [exact N|]. split; [reflexivity|]. lia.
      * exfalso. revert N. destruct c as [|p|p]; try discriminate. repeat (destruct p as [p|p|]; try discriminate). congruence.
    + left. split; [reflexivity|]. lia.
  - intros [(cs & ds & ND & F & D) R].
    assert (K : exists n, n = neg /\ (if n then tl s else s) = cs /\ v = (if n then - positional base ds else positional base ds)).
    { exists neg. split; [reflexivity|]. destruct D as [[-> ->]|[-> [-> ->]]].
      - assert (N : neg = false).
        { unfold neg. destruct cs as [|c cs']; [reflexivity|]. inversion F as [|? d ? ? H]; subst.
          assert (NC : c <> 45) by (intros ->; apply (minus_not_digit base HB d H)).
          clear - NC. destruct c as [|p|p]; try reflexivity. repeat (destruct p as [p|p|]; try reflexivity). congruence. }
        rewrite N. auto.
      - cbn. auto. }
    destruct K as (n & <- & K1 & K2). rewrite K1, (span_all base cs ds HB F). cbn [fst snd].
    rewrite horner. rewrite Z.mul_0_l, Z.add_0_l. destruct ds as [|d ds]; [congruence|].
    assert (V : (if n then - positional base (d :: ds) else positional base (d :: ds)) = v) by (symmetry; exact K2).
    rewrite V. destruct (Z.leb_spec lo v); [|lia]. destruct (Z.leb_spec v hi); [|lia]. reflexivity.
Qed.

(** The kinds of failure: a number too large or too small is out of range; a string without digits is
    not valid; digits followed by something else are not fully parsed, unless they are out of range. *)
Theorem C148_out_of_range signed lo hi base s v : 2 <= base <= 36 ->
  denotes signed base s v -> ~ lo <= v <= hi -> string_to signed lo hi base s = CThrow OutOfRange.
Proof.
  intros HB D R.
  assert (L : exists l h, l <= v <= h) by (exists v, v; lia). destruct L as (l & h & L).
  pose proof (proj2 (C148_value signed l h base s v HB) (conj D L)) as E.
  unfold string_to, from_chars in *. cbv zeta in *. set (neg := match s with 45 :: _ => signed | _ => false end) in *.
  destruct (fst (span_digits base (if neg then tl s else s))) as [|d ds]; [discriminate|].
  set (w := if neg then - _ else _) in *. destruct ((l <=? w) && (w <=? h)); [|discriminate].
  destruct (snd _); [|discriminate]. injection E as ->.
  destruct (Z.leb_spec lo v); destruct (Z.leb_spec v hi); cbn [andb]; try reflexivity. exfalso. apply R. lia.
Qed.

Theorem C148_not_valid signed lo hi base s : 2 <= base <= 36 ->
  (s = [] \/ (exists c s', s = c :: s' /\ (forall d, ~ is_digit base c d) /\ (c <> 45 \/ signed = false)) \/
   s = [45] \/ (exists c s', s = 45 :: c :: s' /\ forall d, ~ is_digit base c d)) ->
  string_to signed lo hi base s = CThrow NotValid.
Proof.
  intros HB H.
  assert (ND : forall c, (forall d, ~ is_digit base c d) -> digit_of base c = None).
  { intros c Hc. destruct (digit_of base c) as [d|] eqn:E; [|reflexivity]. apply (digit_spec base c d HB) in E. destruct (Hc d E). }
  pose proof (ND 45 (minus_not_digit base HB)) as N45.
  unfold string_to, from_chars. cbv zeta. destruct H as [->|[(c & s' & -> & Hc & K)|[->|(c & s' & -> & Hc)]]].
  - reflexivity.
  - assert (N : match c :: s' with 45 :: _ => signed | _ => false end = false).
    { destruct K as [NC| ->]; [|destruct c as [|p|p]; try reflexivity; repeat (destruct p as [p|p|]; try reflexivity)].
      destruct c as [|p|p]; try reflexivity. repeat (destruct p as [p|p|]; try reflexivity). congruence. }
    rewrite N. cbn [span_digits]. rewrite (ND c Hc). reflexivity.
  - destruct signed; cbn [tl span_digits fst]; [reflexivity|]. rewrite N45. reflexivity.
  - destruct signed; cbn [tl span_digits fst].
    + rewrite (ND c Hc). reflexivity.
    + rewrite N45. reflexivity.
Qed.

Theorem C148_not_fully_parsed signed lo hi base s v c t : 2 <= base <= 36 ->
  denotes signed base s v -> lo <= v <= hi -> (forall d, ~ is_digit base c d) ->
  string_to signed lo hi base (s ++ c :: t) = CThrow NotFullyParsed.
Proof.
  intros HB D R Hc.
  assert (NDc : digit_of base c = None).
  { destruct (digit_of base c) as [d|] eqn:E; [|reflexivity]. apply (digit_spec base c d HB) in E. destruct (Hc d E). }
  assert (SP : forall u, snd (span_digits base u) = [] -> span_digits base (u ++ c :: t) = (fst (span_digits base u), c :: t)).
  { intros u. induction u as [|x u IH]; cbn [app span_digits].
    - intros _. rewrite NDc. reflexivity.
    - destruct (digit_of base x); cbn [fst snd]; [|discriminate]. intros H. rewrite (IH H). reflexivity. }
  pose proof (proj2 (C148_value signed lo hi base s v HB) (conj D R)) as E.
  destruct s as [|x s]; [exfalso; destruct D as (cs & ds & ND & F & [[K _]|[_ [K _]]]); [subst; inversion F; subst; congruence|discriminate]|].
  unfold string_to, from_chars in *. cbv zeta in *. cbn [app].
  cbn beta iota in E |- *. set (neg := match x with 45 => signed | _ => false end) in *.
  assert (B : (if neg then tl (x :: s ++ c :: t) else x :: s ++ c :: t) = (if neg then tl (x :: s) else x :: s) ++ c :: t) by (destruct neg; reflexivity).
  rewrite B. destruct (snd (span_digits base (if neg then tl (x :: s) else x :: s))) eqn:S.
  - rewrite (SP _ S). cbn [fst snd]. destruct (fst (span_digits base (if neg then tl (x :: s) else x :: s))); [discriminate|].
    destruct (_ && _); [reflexivity|discriminate].
  - destruct (fst (span_digits base (if neg then tl (x :: s) else x :: s))); [discriminate|]. destruct (_ && _); discriminate.
Qed.

(** Every value of the type is the value of some string. *)
Lemma has_digits base : 2 <= base <= 36 -> forall n v, 0 <= v < Z.of_nat n -> exists cs ds, ds <> [] /\ Forall2 (is_digit base) cs ds /\ positional base ds = v.
Proof.
  intros HB.
  assert (ONE : forall d, 0 <= d < base -> exists c, is_digit base c d).
  { intros d Hd. unfold is_digit. destruct (Z_lt_le_dec d 10); [exists (48 + d)|exists (97 + (d - 10))]; lia. }
  induction n as [|n IH]; intros v Hv; [lia|]. destruct (Z_lt_le_dec v base) as [L|L].
  - destruct (ONE v) as [c Hc]; [lia|]. exists [c], [v]. split; [discriminate|]. split; [constructor; [exact Hc|constructor]|].
    cbn. change (Z.pow_pos base 1) with (base ^ 1). lia.
  - pose proof (Z.div_mod v base) as DM. pose proof (Z.mod_pos_bound v base) as MB.
    assert (Q : 0 <= v / base < v) by (split; [apply Z.div_pos; lia|apply Z.div_lt; lia]).
    destruct (IH (v / base)) as (cs & ds & ND & F & E); [lia|]. destruct (ONE (v mod base)) as [c Hc]; [lia|].
    exists (cs ++ [c]), (ds ++ [v mod base]). split; [destruct ds; discriminate|]. split; [apply Forall2_app; [exact F|constructor; [exact Hc|constructor]]|].
    assert (P : forall l, positional base (l ++ [v mod base]) = positional base l * base + v mod base).
    { induction l as [|d l IHl]; cbn [app positional length]; [change (Z.of_nat 0) with 0; rewrite Z.pow_0_r; lia|].
      rewrite IHl, app_length. cbn [length]. rewrite Nat2Z.inj_add. change (Z.of_nat 1) with 1.
      rewrite Z.pow_add_r by lia. rewrite Z.pow_1_r. ring. }
    rewrite P, E. lia.
Qed.

Theorem C148_every_value signed lo hi base v : 2 <= base <= 36 -> lo <= v <= hi -> (0 <= v \/ signed = true) ->
  exists s, string_to signed lo hi base s = COk v.
Proof.
  intros HB R K. destruct (has_digits base HB (S (Z.to_nat (Z.abs v))) (Z.abs v)) as (cs & ds & ND & F & E); [lia|].
  destruct (Z_lt_le_dec v 0) as [L|L].
  - exists (45 :: cs). apply C148_value; [exact HB|]. split; [|exact R]. exists cs, ds. split; [exact ND|]. split; [exact F|].
    right. split; [destruct K; [lia|assumption]|]. split; [reflexivity|]. lia.
  - exists cs. apply C148_value; [exact HB|]. split; [|exact R]. exists cs, ds. split; [exact ND|]. split; [exact F|]. left. split; [reflexivity|lia].
Qed.

(** C149: the same for wide strings, if no character is negative. Missing: negative values of [wchar_t],
    for which it is false. *)
Lemma denotes_ascii signed base s v : 2 <= base <= 36 -> denotes signed base s v -> Forall (fun c => 0 <= c <= 127) s.
Proof.
  intros HB (cs & ds & _ & F & D).
  assert (A : Forall (fun c => 0 <= c <= 127) cs).
  { clear D. induction F as [|c d cs ds H F IH]; constructor; [|exact IH]. unfold is_digit in H. lia. }
  destruct D as [[-> _]|[_ [-> _]]]; [exact A|]. constructor; [lia|exact A].
Qed.
Lemma to_char_id w : Forall (fun c => 0 <= c <= 127) w -> map to_char w = w.
Proof. induction 1 as [|c w H F IH]; cbn; [reflexivity|]. rewrite IH. f_equal. unfold to_char. rewrite Z.mod_small; lia. Qed.

Theorem C149_wide_partial signed lo hi base w v : 2 <= base <= 36 -> Forall (fun c => 0 <= c) w ->
  string_to_wide signed lo hi base w = COk v <-> denotes signed base w v /\ lo <= v <= hi.
Proof.
  intros HB NN. unfold string_to_wide. destruct (existsb (fun c => 127 <? c) w) eqn:X.
  - split; [discriminate|]. intros [D _]. apply existsb_exists in X. destruct X as [c [Hc X]]. apply Z.ltb_lt in X.
    pose proof (denotes_ascii signed base w v HB D) as F. rewrite Forall_forall in F. specialize (F c Hc). lia.
  - rewrite to_char_id.
    + apply C148_value; exact HB.
    + apply Forall_forall. intros c Hc. rewrite Forall_forall in NN. specialize (NN c Hc). split; [exact NN|].
      destruct (Z.ltb_spec 127 c) as [L|L]; [|exact L]. exfalso.
      assert (Y : existsb (fun c => 127 <? c) w = true) by (apply existsb_exists; exists c; split; [exact Hc|apply Z.ltb_lt; exact L]).
      congruence.
Qed.

(** A wide string with a character beyond ASCII is refused as not numeric. *)
Theorem C149_not_numeric signed lo hi base w c : In c w -> 127 < c ->
  string_to_wide signed lo hi base w = CThrow NotNumeric.
Proof.
  intros H K. unfold string_to_wide.
  assert (X : existsb (fun c => 127 <? c) w = true) by (apply existsb_exists; exists c; split; [exact H|apply Z.ltb_lt; exact K]).
  rewrite X. reflexivity.
Qed.

Module CnvExamples.
  (** "-7F" in base 16 as a signed byte, "128" as a signed byte, "12x". *)
  Example hex : string_to true (-128) 127 16 [45; 55; 70] = COk (-127). Proof. reflexivity. Qed.
  Example big : string_to true (-128) 127 10 [49; 50; 56] = CThrow OutOfRange. Proof. reflexivity. Qed.
  Example rest : string_to true (-128) 127 10 [49; 50; 120] = CThrow NotFullyParsed. Proof. reflexivity. Qed.
  Theorem denotes_example : denotes true 16 [45; 55; 70] (-127).
  Proof.
    exists [55; 70], [7; 15]. split; [discriminate|]. split.
    - constructor; [unfold is_digit; lia|constructor; [unfold is_digit; lia|constructor]].
    - right. split; [reflexivity|]. split; reflexivity.
  Qed.
  (** A negative wide character is truncated to a digit: the string of the one character -208 is read
      as 0 though it denotes nothing. *)
  Theorem C149_negative_refuted :
    string_to_wide true (-128) 127 10 [-208] = COk 0 /\ forall v, ~ denotes true 10 [-208] v.
  Proof.
    split; [reflexivity|]. intros v D. pose proof (denotes_ascii true 10 [-208] v ltac:(lia) D) as F. inversion F; subst. lia.
  Qed.
End CnvExamples.
