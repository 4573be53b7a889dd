(** Characters, white space, decimal numbers, names. *)
From Coq Require Import ZArith List Bool QArith Qcanon String Lia.
From Verif Require Import Tsr_Model Ser_Model Ser_Spec.
Import ListNotations.
Close Scope Q_scope.
Open Scope Z_scope.
Open Scope list_scope.

Definition fails (p : Z -> bool) (s : str) : Prop := match s with c :: _ => p c = false | [] => True end.
Lemma span_app p a b : Forall (fun c => p c = true) a -> fails p b -> span p (a ++ b) = (a, b).
Proof.
  intros Ha Hb. induction Ha as [|c a Hc Ha IH]; cbn.
  - destruct b as [|c b]; cbn in *; [reflexivity|]. now rewrite Hb.
  - now rewrite Hc, IH.
Qed.
Lemma span_length p s : (List.length (fst (span p s)) + List.length (snd (span p s)) = List.length s)%nat.
Proof. induction s as [|c s IH]; cbn; [reflexivity|]. destruct (p c); cbn; [|reflexivity]. destruct (span p s); cbn in *. lia. Qed.
Lemma span_all p s : Forall (fun c => p c = true) s -> span p s = (s, []).
Proof. intros H. rewrite <- (app_nil_r s) at 1. now apply span_app. Qed.
Lemma span_none p s : fails p s -> span p s = ([], s).
Proof. intros H. exact (span_app p [] s (Forall_nil _) H). Qed.

Lemma is_digit_iff c : is_digit c = true <-> 48 <= c <= 57.
Proof. unfold is_digit. rewrite andb_true_iff, !Z.leb_le. tauto. Qed.

(** Decimal numbers. *)
Lemma digits_of_value f : forall n acc, (1 <= f)%nat -> 0 <= n < 2 ^ Z.of_nat f ->
  fold_left (fun m c => 10 * m + (c - 48)) (digits_of f n acc) 0 = fold_left (fun m c => 10 * m + (c - 48)) acc n.
Proof.
  induction f as [|f IH]; intros n acc Hf Hn; [lia|]. cbn [digits_of]. destruct (Z.ltb_spec n 10).
  - cbn [fold_left]. f_equal. lia.
  - assert (Hn' : n < 2 * 2 ^ Z.of_nat f). { rewrite Nat2Z.inj_succ, Z.pow_succ_r in Hn by lia. lia. }
    assert (H10 : n = 10 * (n / 10) + n mod 10) by (apply Z.div_mod; lia).
    pose proof (Z.mod_pos_bound n 10 ltac:(lia)).
    assert (f <> 0%nat) by (intros ->; cbn in Hn'; lia).
    rewrite IH by lia. cbn [fold_left]. f_equal. lia.
Qed.
Lemma digits_of_digits f : forall n acc, 0 <= n -> Forall (fun c => is_digit c = true) acc -> Forall (fun c => is_digit c = true) (digits_of f n acc).
Proof.
  induction f as [|f IH]; intros n acc Hn Ha; cbn [digits_of]; [exact Ha|]. destruct (Z.ltb_spec n 10).
  - constructor; [|exact Ha]. apply is_digit_iff. lia.
  - pose proof (Z.mod_pos_bound n 10 ltac:(lia)). apply IH; [apply Z.div_pos; lia|]. constructor; [|exact Ha]. apply is_digit_iff. lia.
Qed.
Lemma digits_of_nonempty f : forall n acc, (1 <= f)%nat -> digits_of f n acc <> [].
Proof.
  assert (forall f n acc, acc <> [] -> digits_of f n acc <> []) as H.
  { clear f. induction f as [|f IH]; intros n acc H; cbn [digits_of]; [exact H|]. destruct (n <? 10); [discriminate|]. apply IH. discriminate. }
  intros n acc Hf. destruct f as [|f]; [lia|]. cbn [digits_of]. destruct (n <? 10); [discriminate|]. apply H. discriminate.
Qed.
Lemma nat_str_value n : 0 <= n -> value_of (nat_str n) = n.
Proof.
  intros H. unfold value_of, nat_str. rewrite digits_of_value; [reflexivity|lia|]. split; [exact H|].
  rewrite Nat2Z.inj_succ, Z2Nat.id by apply Z.log2_nonneg. destruct (Z.eq_dec n 0) as [->|]; [reflexivity|].
  apply Z.log2_spec. lia.
Qed.
Lemma nat_str_digits n : 0 <= n -> Forall (fun c => is_digit c = true) (nat_str n).
Proof. intros H. now apply digits_of_digits. Qed.
Lemma nat_str_cons n : 0 <= n -> exists c s, nat_str n = c :: s /\ is_digit c = true.
Proof.
  intros H. destruct (nat_str n) as [|c s] eqn:E.
  - exfalso. revert E. apply digits_of_nonempty. lia.
  - exists c, s. split; [reflexivity|]. pose proof (nat_str_digits n H) as F. rewrite E in F. now inversion F.
Qed.

Section Chars.
  Variable cs : charset.
  Hypothesis U : usual cs.

  Lemma blank_ascii c : 0 <= c < 128 -> blank cs c = ((9 <=? c) && (c <=? 13) || (c =? 32))%bool.
  Proof. apply (u_blank _ U). Qed.
  Lemma skip_stop s : fails (blank cs) s -> skip cs s = s.
  Proof. intros H. unfold skip. now rewrite span_none. Qed.
  Lemma skip_space s : skip cs (32 :: s) = skip cs s.
  Proof. unfold skip. cbn [span]. rewrite (blank_ascii 32) by (split; [discriminate|reflexivity]). change ((9 <=? 32) && (32 <=? 13) || (32 =? 32))%bool with true. destruct (span (blank cs) s); reflexivity. Qed.
  Lemma skip_solid c s : 0 <= c < 128 -> ((9 <=? c) && (c <=? 13) || (c =? 32))%bool = false -> skip cs (c :: s) = c :: s.
  Proof. intros Hc H. apply skip_stop. cbn [fails]. rewrite blank_ascii by exact Hc. exact H. Qed.
  Lemma skip_alpha c s : alpha cs c = true -> skip cs (c :: s) = c :: s.
  Proof. intros Hc. apply skip_stop. cbn. now apply (u_letter _ U). Qed.
  Lemma skip_digit c s : is_digit c = true -> skip cs (c :: s) = c :: s.
  Proof.
    intros H. apply is_digit_iff in H. apply skip_solid; [lia|].
    destruct (Z.leb_spec c 13), (Z.eqb_spec c 32); try lia.
  Qed.
  Lemma skip_length s : (List.length (skip cs s) <= List.length s)%nat.
  Proof. pose proof (span_length (blank cs) s). unfold skip. lia. Qed.
  Lemma skip_skip s : skip cs (skip cs s) = skip cs s.
  Proof.
    unfold skip. induction s as [|c s IH]; [reflexivity|]. cbn [span]. destruct (blank cs c) eqn:E.
    - destruct (span (blank cs) s) eqn:F. cbn in *. exact IH.
    - cbn [snd span]. now rewrite E.
  Qed.

  Lemma word_ascii c : 0 <= c < 128 ->
    word cs c = ((65 <=? c) && (c <=? 90) || (97 <=? c) && (c <=? 122) || (48 <=? c) && (c <=? 57) || (c =? 95))%bool.
  Proof.
    intros Hc. unfold word. rewrite (u_alnum _ U), (u_alpha _ U) by exact Hc.
    repeat match goal with
    | |- context [c ==? ?k] => (assert (k = 95) by reflexivity; fail 1) || (destruct (Z.eqb_spec c k); [lia|])
    end.
    destruct (Z.leb_spec 8304 c); [lia|]. destruct (Z.leb_spec 8592 c); [lia|]. cbn. now rewrite ?orb_false_r.
  Qed.
  Lemma index_char_ascii c : 0 <= c < 128 -> index_char cs c = ((65 <=? c) && (c <=? 90) || (97 <=? c) && (c <=? 122))%bool.
  Proof.
    intros Hc. unfold index_char. rewrite (u_alpha _ U) by exact Hc.
    repeat match goal with |- context [c ==? ?k] => destruct (Z.eqb_spec c k); [lia|] end. now rewrite ?orb_false_r.
  Qed.
  Lemma index_char_solid c : index_char cs c = true -> blank cs c = false.
  Proof.
    unfold index_char. rewrite !orb_true_iff, !Z.eqb_eq. intros H.
    destruct H as [[[[[H|H]|H]|H]|H]|H]; [now apply (u_letter _ U)|..]; apply (u_marks _ U); rewrite H; cbn; tauto.
  Qed.
  Lemma alpha_not_digit c : alpha cs c = true -> is_digit c = false.
  Proof.
    intros H. destruct (is_digit c) eqn:E; [|reflexivity]. apply is_digit_iff in E. rewrite (u_alpha _ U) in H by lia.
    rewrite orb_true_iff, !andb_true_iff, !Z.leb_le in H. lia.
  Qed.
  Lemma index_char_not c : index_char cs c = true -> is_digit c = false /\ c <> 95 /\ c <> 60 /\ c <> 125 /\ c <> 59 /\ c <> 44 /\ c <> 62.
  Proof.
    intros H. assert (0 <= c < 128 -> 65 <= c <= 90 \/ 97 <= c <= 122).
    { intros Hc. rewrite index_char_ascii in H by exact Hc. rewrite orb_true_iff, !andb_true_iff, !Z.leb_le in H. lia. }
    split; [|lia]. destruct (is_digit c) eqn:E; [|reflexivity]. apply is_digit_iff in E. lia.
  Qed.

  (** Literals. *)
  Lemma lit_space c s : lit cs c (32 :: s) = lit cs c s.
  Proof. unfold lit. now rewrite skip_space. Qed.
  Lemma lit_here c s : 0 <= c < 128 -> ((9 <=? c) && (c <=? 13) || (c =? 32))%bool = false -> lit cs c (c :: s) = Ok tt s.
  Proof. intros Hc H. unfold lit. rewrite skip_solid by assumption. unfold lit0. now rewrite Z.eqb_refl. Qed.
  Lemma lit_fail c s : fails (Z.eqb c) (skip cs s) -> lit cs c s = Fail.
  Proof. unfold lit, lit0. destruct (skip cs s) as [|d t]; cbn; [reflexivity|]. intros H. rewrite Z.eqb_sym in H. now rewrite H. Qed.
  Lemma lit_ok_length c s u t : lit cs c s = Ok u t -> (List.length t < List.length s)%nat.
  Proof.
    unfold lit, lit0. pose proof (skip_length s). destruct (skip cs s) as [|d r]; [discriminate|]. destruct (d ==? c); [|discriminate].
    intros [= _ ->]. cbn in *. lia.
  Qed.

  (** Numbers. *)
  Variable real : bool -> str -> str -> option Z -> Q.
  Hypothesis X : exact real.

  Definition num_tail (c : Z) : bool := is_digit c || (c =? 46) || (c =? 101) || (c =? 69).
  Lemma p_exp_none s : fails num_tail s -> p_exp s = (None, s).
  Proof.
    destruct s as [|c s]; [reflexivity|]. cbn. intros H. unfold num_tail in H. rewrite !orb_false_iff in H. destruct H as [[[_ _] H1] H2].
    unfold letter. now rewrite H1, H2.
  Qed.
  Lemma fails_weaken (p q : Z -> bool) s : (forall c, p c = true -> q c = true) -> fails q s -> fails p s.
  Proof. destruct s as [|c s]; cbn; [trivial|]. intros H Hq. destruct (p c) eqn:E; [|reflexivity]. rewrite (H c E) in Hq. discriminate. Qed.
  Lemma digit_tail c : is_digit c = true -> num_tail c = true.
  Proof. unfold num_tail. now intros ->. Qed.
  Lemma p_real_sign (neg : bool) s0 n rest : 0 <= n <= 9007199254740992 -> fails num_tail rest ->
    p_sign (skip cs s0) = (neg, nat_str n ++ rest) -> p_real cs real s0 = Ok (Fin (Qmake (if neg then - n else n) 1)) rest.
  Proof.
    intros Hn Hr E. unfold p_real. rewrite E.
    assert (Hd : fails is_digit rest) by (eapply fails_weaken; [apply digit_tail|exact Hr]).
    rewrite (span_app is_digit (nat_str n) rest (nat_str_digits n (proj1 Hn)) Hd).
    destruct (nat_str_cons n (proj1 Hn)) as (c & t & Ec & _).
    assert (V : real neg (nat_str n) [] None = Qmake (if neg then - n else n) 1).
    { rewrite X; rewrite nat_str_value by lia; [reflexivity|lia]. }
    rewrite Ec in *. rewrite (p_exp_none rest Hr), V.
    destruct rest as [|d rest]; [reflexivity|]. cbn in Hr. unfold num_tail in Hr. rewrite !orb_false_iff, Z.eqb_neq in Hr.
    destruct Hr as [[[_ Hdot] _] _]. destruct d as [|d|d]; try reflexivity.
    do 6 (destruct d as [d|d|]; try reflexivity). exfalso. apply Hdot. reflexivity.
  Qed.
  Lemma p_sign_digits n rest : 0 <= n -> p_sign (nat_str n ++ rest) = (false, nat_str n ++ rest).
  Proof.
    intros Hn. destruct (nat_str_cons n Hn) as (c & t & -> & Hc). cbn. apply is_digit_iff in Hc.
    destruct (Z.eqb_spec c 45); [lia|]. destruct (Z.eqb_spec c 43); [lia|]. reflexivity.
  Qed.
  Lemma skip_digits n rest : 0 <= n -> skip cs (nat_str n ++ rest) = nat_str n ++ rest.
  Proof. intros Hn. destruct (nat_str_cons n Hn) as (c & t & -> & Hc). cbn. now apply skip_digit. Qed.
  Lemma p_real_int n rest : Z.abs n <= 9007199254740992 -> fails num_tail rest ->
    p_real cs real (int_str n ++ rest) = Ok (Fin (Qmake n 1)) rest.
  Proof.
    intros Hn Hr. unfold int_str. destruct (Z.ltb_spec n 0).
    - rewrite (p_real_sign true ((45 :: nat_str (- n)) ++ rest) (- n) rest); [now rewrite Z.opp_involutive|lia|exact Hr|].
      cbn [app]. rewrite skip_solid by (try lia; reflexivity). reflexivity.
    - apply (p_real_sign false); [lia|exact Hr|]. rewrite skip_digits by lia. apply p_sign_digits. lia.
  Qed.
  (** What may follow a number. *)
  Definition num_stop (rest : str) : Prop := fails num_tail rest /\ fails (fun c => (c =? 47) || (c =? 94)) (skip cs rest).
  Lemma p_number_frac n d rest : Z.abs n <= 9007199254740992 -> 0 < d <= 9007199254740992 -> num_stop rest ->
    p_number cs real (frac_str n d ++ rest) = Ok (Fin (Qmake n 1), Fin (Qmake d 1)) rest.
  Proof.
    intros Hn Hd [H1 H2]. unfold p_number, frac_str. rewrite <- app_assoc.
    destruct (Z.eqb_spec d 1) as [->|Hne].
    - cbn [app]. rewrite p_real_int by assumption. cbn [bind].
      rewrite (lit_fail 47); [reflexivity|]. eapply fails_weaken; [|exact H2]. intros c Hc. cbn beta. apply Z.eqb_eq in Hc. subst c. reflexivity.
    - rewrite p_real_int; [|exact Hn|reflexivity]. cbn [bind]. rewrite <- app_assoc. change (txt "/" ++ int_str d ++ rest) with (47 :: int_str d ++ rest).
      rewrite lit_here by (try lia; reflexivity). cbn [bind]. rewrite p_real_int; [reflexivity|lia|exact H1].
  Qed.

  (** Names. *)
  Variable torn : str -> str.
  Lemma name_here n rest : name_ok cs n -> fails (word cs) rest -> name cs torn (n ++ rest) = Ok n rest.
  Proof.
    intros (c & w & -> & Hc & Hw & Hl & _) Hr. cbn [app name]. rewrite Hc, (span_app (word cs) w rest Hw Hr).
    destruct w as [|x [|y w]]; [reflexivity|..]; (destruct Hl as [Hl|Hl]; [discriminate|]); apply Z.eqb_neq in Hl; now rewrite Hl.
  Qed.
  Lemma skip_name n rest : name_ok cs n -> skip cs (n ++ rest) = n ++ rest.
  Proof. intros (c & w & -> & Hc & _). cbn. now apply skip_alpha. Qed.

  Lemma letter_small l u c : 97 <= l <= 122 -> u = l - 32 -> letter l u c = true -> small c = l.
  Proof.
    intros Hl -> H. unfold letter in H. rewrite orb_true_iff, !Z.eqb_eq in H. unfold small.
    destruct (Z.leb_spec 65 c), (Z.leb_spec c 90); cbn; lia.
  Qed.
  Lemma letter_word l u c : 97 <= l <= 122 -> u = l - 32 -> letter l u c = true -> word cs c = true.
  Proof.
    intros Hl -> H. unfold letter in H. rewrite orb_true_iff, !Z.eqb_eq in H. rewrite word_ascii by lia.
    rewrite !orb_true_iff, !andb_true_iff, !Z.leb_le, Z.eqb_eq. lia.
  Qed.
  (** A name is not taken for a number. *)
  Lemma p_real_name n rest : name_ok cs n -> fails (word cs) rest -> p_real cs real (n ++ rest) = Fail.
  Proof.
    intros Hn Hr. unfold p_real. rewrite skip_name by exact Hn. destruct Hn as (c & w & -> & Hc & Hw & _ & Hnum). cbn [app].
    assert (Hd : is_digit c = false) by now apply alpha_not_digit.
    assert (Hp : forall k, 0 <= k < 65 -> (c ==? k) = false).
    { intros k Hk. destruct (Z.eqb_spec c k) as [->|]; [|reflexivity]. rewrite (u_alpha _ U) in Hc by lia.
      rewrite orb_true_iff, !andb_true_iff, !Z.leb_le in Hc. lia. }
    cbn [p_sign]. rewrite !Hp by lia. cbn [span]. rewrite Hd.
    assert (Hin : forall l1 u1 l2 u2 l3 u3, 97 <= l1 <= 122 -> u1 = l1 - 32 -> 97 <= l2 <= 122 -> u2 = l2 - 32 -> 97 <= l3 <= 122 -> u3 = l3 - 32 ->
      forall a b d t, c :: w ++ rest = a :: b :: d :: t -> letter l1 u1 a && letter l2 u2 b && letter l3 u3 d = true ->
      map small (firstn 3 (c :: w)) = [l1; l2; l3]).
    { intros l1 u1 l2 u2 l3 u3 A1 B1 A2 B2 A3 B3 a b d t E H. rewrite !andb_true_iff in H. destruct H as [[H1 H2] H3].
      injection E as <- E. destruct w as [|x w]; cbn [app] in E.
      { subst rest. cbn in Hr. rewrite (letter_word l2 u2) in Hr by assumption. discriminate. }
      injection E as -> E. destruct w as [|y w]; cbn [app] in E.
      { subst rest. cbn in Hr. rewrite (letter_word l3 u3) in Hr by assumption. discriminate. }
      injection E as -> E. cbn [firstn map]. f_equal; [now apply (letter_small l1 u1)|]. f_equal; [now apply (letter_small l2 u2)|].
      f_equal. now apply (letter_small l3 u3). }
    assert (N1 : p_nan (c :: w ++ rest) = None).
    { remember (c :: w ++ rest) as s eqn:E. destruct s as [|a [|b [|d t]]]; try reflexivity. unfold p_nan.
      destruct (letter 110 78 a && letter 97 65 b && letter 110 78 d) eqn:L; [|reflexivity].
      exfalso. apply Hnum. right. cbn [txt]. rewrite (Hin 110 78 97 65 110 78) with (a := a) (b := b) (d := d) (t := t); try lia; auto. }
    assert (N2 : p_inf (c :: w ++ rest) = None).
    { remember (c :: w ++ rest) as s eqn:E. destruct s as [|a [|b [|d t]]]; try reflexivity. unfold p_inf.
      destruct (letter 105 73 a && letter 110 78 b && letter 102 70 d) eqn:L; [|reflexivity].
      exfalso. apply Hnum. left. rewrite (Hin 105 73 110 78 102 70) with (a := a) (b := b) (d := d) (t := t); try lia; auto. }
    rewrite N1, N2. pose proof (Hp 46 ltac:(lia)) as H46. apply Z.eqb_neq in H46. destruct c as [|c|c]; try reflexivity.
    do 6 (destruct c as [c|c|]; try reflexivity). exfalso. apply H46. reflexivity.
  Qed.
  Lemma p_number_name n rest : name_ok cs n -> fails (word cs) rest -> p_number cs real (n ++ rest) = Fail.
  Proof. intros Hn Hr. unfold p_number. now rewrite p_real_name. Qed.
End Chars.
