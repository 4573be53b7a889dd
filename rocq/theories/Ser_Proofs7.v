(** Texts of sums that are not in normal form; texts with something behind them. *)
From Coq Require Import ZArith List Bool QArith Qcanon String Ascii Lia.
From Verif Require Import Tsr_Model Ser_Model Ser_Spec Ser_Proofs1 Ser_Proofs3 Ser_Proofs4 Ser_Proofs5.
Import ListNotations.
Close Scope Q_scope.
Open Scope Z_scope.
Open Scope list_scope.

Section Sums.
  Context {K : Type} (zero : K) (plus : K -> K -> K) (value : expr -> K).
  Hypothesis Mon : monoid zero plus.
  Hypothesis Add : additive zero plus value.
  Definition total (l : list expr) : K := fold_right (fun e k => plus (value e) k) zero l.
  Lemma plus_zero a : plus a zero = a.
  Proof. rewrite (m_comm _ _ Mon). apply (m_zero _ _ Mon). Qed.
  Lemma total_app l m : total (l ++ m) = plus (total l) (total m).
  Proof.
    induction l as [|e l IH]; cbn.
    - now rewrite (m_zero _ _ Mon).
    - fold (total (l ++ m)). fold (total l). now rewrite IH, (m_assoc _ _ Mon).
  Qed.
  Lemma numer_zero q : numer q = 0 -> q = 0%Qc.
  Proof. intros H. apply Qc_is_canon. unfold numer in H. destruct q as [[n d] q]. cbn in *. subst n. reflexivity. Qed.
  Lemma is_zero_c_value c : is_zero_c c = true -> c = (0, 0)%Qc.
  Proof.
    unfold is_zero_c. intros H. apply andb_prop in H as [A B]. apply Z.eqb_eq in A, B. destruct c as [a b]. cbn in *. now rewrite (numer_zero a A), (numer_zero b B).
  Qed.
  Lemma is_zero_value e : is_zero e = true -> value e = zero.
  Proof.
    destruct e as [c|v|[c|v] x k|t|f v cr an|c fs|l]; cbn; try discriminate.
    - intros H. rewrite (is_zero_c_value c H). apply (a_zero _ _ _ Add).
    - intros H. apply andb_prop in H as [H P]. rewrite (is_zero_c_value c H). apply (a_power _ _ _ Add). now apply Z.ltb_lt.
    - intros H. rewrite (is_zero_c_value c H). apply (a_product _ _ _ Add).
  Qed.
  Lemma add_constant_total c l l' : add_constant c l = Some l' -> total l' = plus (total l) (value (ECon c)).
  Proof.
    revert l'. induction l as [|e l IH]; intros l'; [discriminate|].
    assert (D : option_map (cons e) (add_constant c l) = Some l' -> total l' = plus (total (e :: l)) (value (ECon c))).
    { destruct (add_constant c l) as [m|]; [|discriminate]. intros [= <-]. cbn. fold (total m). fold (total l). now rewrite (IH m eq_refl), (m_assoc _ _ Mon). }
    destruct e as [d|v|b x k|t|f v cr an|d fs|m]; try exact D.
    cbn. intros [= <-]. cbn. fold (total l). destruct c as [a b], d as [a' b']. unfold cadd. cbn [fst snd]. rewrite (a_constant _ _ _ Add).
    rewrite <- !(m_assoc _ _ Mon). f_equal. apply (m_comm _ _ Mon).
  Qed.
  Lemma append_plain_total l e : total (append_plain l e) = plus (total l) (value e).
  Proof.
    unfold append_plain. destruct (is_zero e) eqn:Z; [now rewrite (is_zero_value e Z), plus_zero|].
    assert (D : total (l ++ [e]) = plus (total l) (value e)) by (rewrite total_app; cbn; now rewrite plus_zero).
    destruct e; try exact D. destruct (add_constant c l) as [l'|] eqn:E; [|exact D]. now apply add_constant_total.
  Qed.
  Lemma append_total e : forall l, is_sum e = false -> total (append l e) = plus (total l) (value e).
  Proof. intros l. destruct e; try discriminate; intros _; apply append_plain_total. Qed.
  Lemma fold_append_total m : forall l, (forall e, In e m -> is_sum e = false) -> total (fold_left append m l) = plus (total l) (total m).
  Proof.
    induction m as [|e m IH]; intros l H; cbn [fold_left].
    - cbn. now rewrite plus_zero.
    - rewrite IH by (intros x Hx; apply H; now right). rewrite append_total by (apply H; now left). cbn. fold (total m). now rewrite (m_assoc _ _ Mon).
  Qed.
  Lemma make_sum_value l : (forall e, In e l -> is_sum e = false) -> value (make_sum l) = total l.
  Proof.
    intros H. unfold make_sum. rewrite (a_sum _ _ _ Add). fold (total (fold_left append l [])). rewrite fold_append_total by exact H. cbn. apply (m_zero _ _ Mon).
  Qed.
End Sums.

Section P7.
  Variable cs : charset.
  Hypothesis U : usual cs.
  Variable real : bool -> str -> str -> option Z -> Q.
  Hypothesis X : exact real.
  Variable torn : str -> str.
  Variables (known : str -> bool) (distinct : list index -> bool) (psort : list index -> list index) (min_tmp : Z).
  Variable fdiv : Q -> Q -> Q.
  Variable annot : bool.
  Variable defaults : symmetry * bksymmetry * colsymmetry.
  Notation good := (good cs known distinct psort min_tmp annot defaults).
  Notation to_string := (to_string annot).
  Notation read := (from_string cs real torn distinct known psort min_tmp fdiv defaults).
  Notation conv_product := (conv_product distinct known psort min_tmp fdiv defaults).

  Lemma all_some_here ps l : Forall2 (fun p x => conv_product p = Some x) ps l -> all_some (map conv_product ps) = Some l.
  Proof. induction 1 as [|p x ps l Hp _ IH]; [reflexivity|]. cbn [map all_some fold_right]. fold (all_some (map conv_product ps)). now rewrite Hp, IH. Qed.

  Lemma read_sum {K} (zero : K) plus value l : monoid zero plus -> additive zero plus value -> l <> [] ->
    (forall e, In e l -> good e /\ is_sum e = false) ->
    exists e, read (to_string (ESum l)) = Expression e /\ value e = value (ESum l).
  Proof.
    intros Mon Add Hl H. destruct l as [|e l]; [congruence|]. clear Hl.
    assert (Es : to_string (ESum (e :: l)) = to_string e ++ addends annot l ++ []).
    { cbn [Ser_Model.to_string map sum_str]. rewrite app_nil_r. destruct (H e (or_introl eq_refl)) as [_ ->]. reflexivity. }
    destruct (p_sum_here cs U real torn known distinct psort min_tmp fdiv annot defaults (S (List.length (to_string (ESum (e :: l))))) e l []) as (ps & P & HF).
    { intros x Hx. destruct (H x Hx) as [G Hs]. now apply (good_here cs U real X torn known distinct psort min_tmp fdiv annot defaults x G). }
    { intros x Hx. now apply H. } { now left. } { rewrite Es. lia. }
    rewrite <- Es in P. unfold from_string, parse. rewrite P. cbn [optional bind]. change (skip cs []) with (@nil Z). cbv iota.
    pose proof (all_some_here ps (e :: l) HF) as A. destruct ps as [|p ps]; [inversion HF|].
    unfold to_sum. cbn [map]. destruct ps as [|p' ps].
    - cbn [map]. inversion HF as [|? ? ? ? Hp Hq]; subst. inversion Hq; subst. rewrite Hp. eexists. split; [reflexivity|].
      rewrite (a_sum _ _ _ Add). cbn. now rewrite (plus_zero zero plus Mon).
    - cbn [map] in A |- *. rewrite A. cbn [option_map]. eexists. split; [reflexivity|].
      rewrite (make_sum_value zero plus value Mon Add) by (intros x Hx; now apply H). now rewrite (a_sum _ _ _ Add).
  Qed.
  Lemma read_rest e s : good e -> read (to_string e ++ 41 :: s) = Error.
  Proof.
    intros He. destruct (good_here cs U real X torn known distinct psort min_tmp fdiv annot defaults e He) as (_ & _ & HS & _).
    destruct (HS (S (List.length (to_string e ++ 41 :: s))) (41 :: s)) as (l & P & Hl & Q); [right; eauto|lia|].
    unfold from_string, parse. rewrite P. cbn [optional bind]. rewrite skip_solid by (auto; lia). reflexivity.
  Qed.
  Lemma read_star e : good e -> atom e = true -> read (to_string e ++ txt " * ") = Error.
  Proof.
    intros He Ha. change (txt " * ") with [32; 42; 32]. pose proof (atom_good cs known distinct psort min_tmp annot defaults e He Ha) as Hg.
    set (f := S (List.length (to_string e ++ [32; 42; 32]))).
    destruct (atom_here cs U real X torn known distinct psort min_tmp fdiv annot defaults f e [32; 42; 32]) as (a & G & _); auto.
    { right. right. exists 42, []. cbn. tauto. } { subst f. lia. }
    destruct (atom_head cs U torn known distinct psort min_tmp annot defaults e He Ha) as (c & t & E & Hc).
    assert (PS : p_sum cs (grouped cs real torn f) (to_string e ++ [32; 42; 32]) = Ok [[a]] [32; 42; 32]).
    { unfold p_sum. rewrite E in *. cbn [app] in *. rewrite !(begins_lit cs U c) by auto.
      unfold product. cbn [p_product]. rewrite G. cbn [bind]. rewrite lit_space by auto. rewrite lit_here by (auto; lia).
      cbn [List.length app]. rewrite app_length. cbn [List.length]. replace (S (List.length t + 3))%nat with (S (S (S (S (List.length t)))))%nat by lia.
      cbn [p_product]. rewrite grouped_space by auto. assert (GN : grouped cs real torn f [] = Fail) by (apply grouped_ends; [exact U|now left|subst f; lia]). rewrite GN. cbn [bind].
      cbn [p_addends List.length]. rewrite !lit_space by auto. rewrite !lit_fail by (rewrite skip_solid by (auto; lia); unfold fails; lia). reflexivity. }
    unfold from_string, parse. fold f. rewrite PS. cbn [optional bind]. unfold skip. cbn [span].
    assert (B1 : blank cs 32 = true) by (rewrite (u_blank _ U) by lia; reflexivity). assert (B2 : blank cs 42 = false) by (rewrite (u_blank _ U) by lia; reflexivity).
    rewrite B1, B2. reflexivity.
  Qed.
End P7.
