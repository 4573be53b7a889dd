(** Factors, products, sums: what was written is read again. *)
From Coq Require Import ZArith List Bool QArith Qcanon String Ascii Lia.
From Verif Require Import Tsr_Model Ser_Model Ser_Spec Ser_Proofs1 Ser_Proofs2 Ser_Proofs3.
Import ListNotations.
Close Scope Q_scope.
Open Scope Z_scope.
Open Scope list_scope.

Section P4.
  Variable cs : charset.
  Hypothesis U : usual cs.
  Variable real : bool -> str -> str -> option Z -> Q.
  Hypothesis X : exact real.
  Variable torn : str -> str.
  Variables (known : str -> bool) (distinct : list index -> bool) (psort : list index -> list index) (min_tmp : Z).
  Variable fdiv : Q -> Q -> Q.
  Variable annot : bool.
  Variable defaults : symmetry * bksymmetry * colsymmetry.
  Notation skip := (skip cs).
  Notation lit := (lit cs).
  Notation numvar := (numvar cs real torn).
  Notation p_core := (p_core cs real torn).
  Notation p_power := (p_power cs real torn).
  Notation p_nullary := (p_nullary cs real torn).
  Notation grouped := (grouped cs real torn).
  Notation index_ok := (index_ok cs known distinct psort min_tmp).
  Notation tensor_ok := (tensor_ok cs known distinct psort min_tmp annot defaults).
  Notation atomic_ok := (atomic_ok cs known distinct psort min_tmp annot defaults).
  Notation good := (good cs known distinct psort min_tmp annot defaults).
  Notation conv := (conv distinct known psort min_tmp fdiv defaults).
  Notation conv_product := (conv_product distinct known psort min_tmp fdiv defaults).
  Notation reads := (reads known distinct psort min_tmp fdiv defaults).
  Notation to_string := (to_string annot).

  (** Leading white space. *)
  Lemma numvar_space s : numvar (32 :: s) = numvar s.
  Proof. unfold Ser_Model.numvar, p_number, p_real, p_variable. now rewrite skip_space by auto. Qed.
  Lemma p_core_space s : p_core (32 :: s) = p_core s.
  Proof. unfold Ser_Model.p_core. now rewrite lit_space, numvar_space by auto. Qed.
  Lemma grouped_space f s : grouped f (32 :: s) = grouped f s.
  Proof.
    destruct f as [|f]; [reflexivity|]. cbn [Ser_Model.grouped]. unfold Ser_Model.p_power, Ser_Model.p_nullary, p_number, p_real, p_tensor, p_variable.
    now rewrite p_core_space, !lit_space, !skip_space by auto.
  Qed.
  Lemma p_product_space f n s : p_product cs (grouped f) n (32 :: s) = p_product cs (grouped f) n s.
  Proof. destruct n as [|n]; [reflexivity|]. cbn [p_product]. now rewrite grouped_space. Qed.

  (** What a name begins with. *)
  Lemma lit_alpha c d s : alpha cs d = true -> 0 <= c < 65 -> lit c (d :: s) = Fail.
  Proof.
    intros Hd Hc. apply lit_fail. rewrite skip_alpha by auto. cbn. destruct (Z.eqb_spec c d) as [->|H]; [|reflexivity].
    rewrite (u_alpha _ U) in Hd by lia. lia.
  Qed.
  Lemma lit_name c n s : name_ok cs n -> 0 <= c < 65 -> lit c (n ++ s) = Fail.
  Proof. intros (d & w & -> & Hd & _) Hc. cbn [app]. now apply lit_alpha. Qed.
  Lemma power_name n s x t : name_ok cs n -> numvar (n ++ s) = Ok x t -> lit 94 t = Fail -> p_core (n ++ s) = Fail /\ p_power (n ++ s) = Fail.
  Proof.
    intros Hn Hx Ht. assert (E : p_core (n ++ s) = Fail). { unfold Ser_Model.p_core. rewrite lit_name by (auto; lia). cbn [bind either]. rewrite Hx. cbn [bind]. now rewrite Ht. }
    split; [exact E|]. unfold Ser_Model.p_power. rewrite E. cbn [bind either]. now rewrite lit_name by (auto; lia).
  Qed.

  (** A text that is not a base or a power followed by a closing parenthesis. *)
  Definition closed (s : str) : Prop :=
    (numvar s = Fail \/ exists x t, numvar s = Ok x t /\ lit 41 t = Fail) /\ (p_core s = Fail \/ exists x t, p_core s = Ok x t /\ lit 41 t = Fail).
  Lemma closed_core s : (numvar s = Fail \/ exists x t, numvar s = Ok x t /\ lit 41 t = Fail) -> p_core (40 :: s) = Fail.
  Proof.
    intros H. unfold Ser_Model.p_core. rewrite lit_here by (auto; lia). cbn [bind]. rewrite numvar_40 by auto.
    destruct H as [->|(x & t & -> & E)]; [reflexivity|]. cbn [bind]. now rewrite E.
  Qed.
  Lemma closed_power s : closed s -> p_power (40 :: s) = Fail.
  Proof.
    intros [H1 H2]. unfold Ser_Model.p_power. rewrite closed_core by exact H1. cbn [bind either]. rewrite lit_here by (auto; lia). cbn [bind].
    destruct H2 as [->|(x & t & -> & E)]; [reflexivity|]. cbn [bind]. now rewrite E.
  Qed.

  (** Numbers. *)
  Lemma frac_head n d rest : 0 <= n -> exists c t, frac_str n d ++ rest = c :: t /\ is_digit c = true.
  Proof.
    intros Hn. unfold frac_str, int_str. destruct (Z.ltb_spec n 0); [lia|]. destruct (nat_str_cons n Hn) as (c & t & -> & Hc). cbn. eauto.
  Qed.
  Lemma frac_head' n d rest : exists c t, frac_str n d ++ rest = c :: t /\ (is_digit c = true \/ c = 45).
  Proof.
    destruct (Z.ltb_spec n 0).
    - unfold frac_str, int_str. destruct (Z.ltb_spec n 0); [|lia]. cbn. eauto.
    - destruct (frac_head n d rest) as (c & t & -> & Hc); [lia|]. eauto.
  Qed.
  Lemma lit_frac c n d rest : ~ 48 <= c <= 57 -> c <> 45 -> lit c (frac_str n d ++ rest) = Fail.
  Proof.
    intros H1 H2. destruct (frac_head' n d rest) as (e & t & -> & He). apply lit_fail.
    assert (Hs : skip (e :: t) = e :: t). { destruct He as [He| ->]; [now apply skip_digit|apply skip_solid; auto; lia]. }
    rewrite Hs. cbn. apply Z.eqb_neq. intros ->. rewrite is_digit_iff in He. lia.
  Qed.
  Lemma stop_caret s : num_stop cs s -> lit 94 s = Fail.
  Proof.
    intros [_ H]. apply lit_fail. eapply fails_weaken; [|exact H]. intros c Hc. cbn beta. apply Z.eqb_eq in Hc. subst c. reflexivity.
  Qed.
  Lemma numvar_frac n d rest : Z.abs n <= 9007199254740992 -> 0 < d <= 9007199254740992 -> num_stop cs rest ->
    numvar (frac_str n d ++ rest) = Ok (inl (Fin (Qmake n 1), Fin (Qmake d 1))) rest.
  Proof. intros Hn Hd Hr. unfold Ser_Model.numvar. now rewrite p_number_frac by auto. Qed.
  Lemma core_frac n d rest : Z.abs n <= 9007199254740992 -> 0 < d <= 9007199254740992 -> num_stop cs rest -> p_core (frac_str n d ++ rest) = Fail.
  Proof.
    intros Hn Hd Hr. unfold Ser_Model.p_core. rewrite lit_frac by lia. cbn [bind either]. rewrite numvar_frac by auto. cbn [bind]. now rewrite stop_caret.
  Qed.
  Lemma grouped_frac f n d rest : Z.abs n <= 9007199254740992 -> 0 < d <= 9007199254740992 -> num_stop cs rest -> (1 <= f)%nat ->
    grouped f (frac_str n d ++ rest) = Ok (ANum (Fin (Qmake n 1)) (Fin (Qmake d 1))) rest.
  Proof.
    intros Hn Hd Hr Hf. destruct f as [|f]; [lia|]. cbn [Ser_Model.grouped]. unfold Ser_Model.p_power. rewrite core_frac by auto. cbn [bind either].
    rewrite lit_frac by lia. cbn [bind either]. unfold Ser_Model.p_nullary. rewrite p_number_frac by auto. reflexivity.
  Qed.
  Lemma closed_frac n d rest : Z.abs n <= 9007199254740992 -> 0 < d <= 9007199254740992 -> num_stop cs rest -> lit 41 rest = Fail -> closed (frac_str n d ++ rest).
  Proof.
    intros Hn Hd Hr H41. split; [right|left; now apply core_frac]. eexists _, _. split; [now apply numvar_frac|exact H41].
  Qed.

  (** Atoms that are not constants. *)
  Definition atom (e : expr) : bool := match e with ECon _ | EProd _ _ | ESum _ => false | _ => true end.
  Lemma groups_fail s : lit 95 s = Fail -> (lit 94 s = Fail \/ exists t, lit 94 s = Ok tt (42 :: t)) -> lit 123 s = Fail -> p_groups cs s = Fail.
  Proof.
    intros H1 H2 H3. unfold p_groups, p_two. rewrite H1. cbn [bind either]. destruct H2 as [->|[t ->]]; cbn [bind either]; now rewrite ?H3.
  Qed.
  Lemma tensor_head e rest : (exists t, e = ETen t /\ name_ok cs (t_label t)) \/ (exists b v c a, e = EOp b v c a) ->
    exists n s, to_string e ++ rest = n ++ 123 :: s /\ name_ok cs n.
  Proof.
    intros [(t & -> & Hn)|(b & v & c & a & ->)].
    - cbn [Ser_Model.to_string]. rewrite tensor_str_slots, <- !app_assoc. exists (t_label t). unfold slots_str. rewrite <- !app_assoc. cbn [txt app]. eauto.
    - cbn [Ser_Model.to_string]. unfold op_str. rewrite <- !app_assoc. exists (op_label b v). cbn [txt app]. eexists. split; [reflexivity|]. now apply op_name.
  Qed.
  Lemma tensor_numvar n s : name_ok cs n -> numvar (n ++ 123 :: s) = Ok (inr (n, false)) (123 :: s).
  Proof.
    intros Hn. pose proof (numvar_var cs U real torn (n, false) (123 :: s) Hn) as H. unfold var_str in H. cbn [fst snd] in H. rewrite app_nil_r in H.
    apply H; [cbn; rewrite word_ascii by (auto; lia); reflexivity|]. cbn. destruct s; [exact Logic.I|discriminate].
  Qed.
  Lemma lit_123 c s : c <> 123 -> lit c (123 :: s) = Fail.
  Proof. intros Hc. apply lit_fail. rewrite skip_solid by (auto; lia). unfold fails. lia. Qed.
  Lemma atom_here f e rest : atomic_ok e -> atom e = true -> follows rest -> (1 <= f)%nat ->
    exists a, grouped f (to_string e ++ rest) = Ok a rest /\ reads a e.
  Proof.
    intros He Ha Hr Hf. destruct f as [|f]; [lia|]. destruct e as [c|v|b x k|t|bo v cr an|c fs|l]; try discriminate Ha; cbn [Ser_Spec.atomic_ok] in He.
    - (* variable *)
      exists (AVar v). split; [|split; reflexivity]. cbn [Ser_Model.to_string].
      pose proof (follows_word cs U rest Hr) as Hw. pose proof (follows_no_star rest Hr) as Hs.
      pose proof (numvar_var cs U real torn v rest He Hw Hs) as Hv. pose proof (p_variable_here cs U torn v rest He Hw Hs) as Hp.
      destruct (var_str_name cs U v rest He Hw) as (t & E & Ht).
      assert (T : t = 94 :: 42 :: rest \/ t = rest).
      { destruct v as [n [|]]; unfold var_str in E; cbn [fst snd] in E; rewrite <- app_assoc in E; apply app_inv_head in E; subst t; [now left|now right]. }
      rewrite E in *.
      assert (H94 : lit 94 rest = Fail) by (apply follows_lit; auto; cbn; lia).
      destruct (power_name _ _ _ _ He Hv H94) as [_ P]. cbn [Ser_Model.grouped]. rewrite P. cbn [either].
      rewrite lit_name by (auto; lia). cbn [bind either]. unfold Ser_Model.p_nullary. rewrite p_number_name by auto. cbn [bind either].
      unfold p_tensor. rewrite skip_name by auto. rewrite name_here by auto. cbn [bind]. rewrite groups_fail; [cbn [bind either]; now rewrite Hp|..].
      + destruct T as [-> | ->]; [|apply follows_lit; auto; cbn; lia]. apply lit_fail. rewrite skip_solid by (auto; lia). reflexivity.
      + destruct T as [-> | ->]; [|now left]. right. exists rest. now rewrite lit_here by (auto; lia).
      + destruct T as [-> | ->]; [|apply follows_lit; auto; cbn; lia]. apply lit_fail. rewrite skip_solid by (auto; lia). reflexivity.
    - (* power *)
      destruct He as [Hm Hb]. exists (APow (base_ast b) (num_of x) k). cbn [Ser_Model.to_string Ser_Model.grouped].
      assert (B : base_ok cs b) by (destruct b; cbn; tauto).
      rewrite p_power_here by auto. split; [reflexivity|]. split; [|reflexivity]. cbn [Ser_Model.conv]. apply (to_power_here cs); auto.
      intros c -> Hc. now apply (proj2 Hb).
    - (* tensor *)
      exists (ATen (tast_of annot t)). split; [|split; [cbn [Ser_Model.conv]; now apply (to_tensor_here cs U)|reflexivity]].
      pose proof He as (Hn & _ & Hb & Hk & Hx & _).
      destruct (tensor_head (ETen t) rest) as (n & s & E & Hn'); [left; eauto|].
      pose proof (p_tensor_here cs U torn known distinct psort min_tmp annot t rest Hn Hb Hk Hx Hr) as P. cbn [Ser_Model.to_string] in *. rewrite E in *.
      destruct (power_name n (123 :: s) _ _ Hn' (tensor_numvar n s Hn') (lit_123 94 s ltac:(lia))) as [_ Q]. cbn [Ser_Model.grouped]. rewrite Q. cbn [either].
      rewrite lit_name by (auto; lia). cbn [bind either]. unfold Ser_Model.p_nullary. rewrite p_number_name; auto.
      + cbn [bind either]. now rewrite P.
      + cbn. rewrite word_ascii by (auto; lia). reflexivity.
    - (* operator *)
      destruct He as [Hc Hx]. exists (ATen (mkta (op_label bo v) (map iast_of an) (map iast_of cr) [] None)).
      split; [|split; [cbn [Ser_Model.conv]; now apply (to_tensor_op cs U)|reflexivity]].
      destruct (tensor_head (EOp bo v cr an) rest) as (n & s & E & Hn'); [right; eauto|].
      pose proof (p_tensor_op cs U torn known distinct psort min_tmp bo v cr an rest Hc Hx Hr) as P. cbn [Ser_Model.to_string] in *. rewrite E in *.
      destruct (power_name n (123 :: s) _ _ Hn' (tensor_numvar n s Hn') (lit_123 94 s ltac:(lia))) as [_ Q]. cbn [Ser_Model.grouped]. rewrite Q. cbn [either].
      rewrite lit_name by (auto; lia). cbn [bind either]. unfold Ser_Model.p_nullary. rewrite p_number_name; auto.
      + cbn [bind either]. now rewrite P.
      + cbn. rewrite word_ascii by (auto; lia). reflexivity.
  Qed.
  Lemma atom_closed e rest : atomic_ok e -> atom e = true -> follows rest -> lit 41 rest = Fail -> closed (to_string e ++ rest).
  Proof.
    intros He Ha Hr H41. destruct e as [c|v|b x k|t|bo v cr an|c fs|l]; try discriminate Ha; cbn [Ser_Spec.atomic_ok] in He.
    - cbn [Ser_Model.to_string]. pose proof (follows_word cs U rest Hr) as Hw. pose proof (follows_no_star rest Hr) as Hs.
      pose proof (numvar_var cs U real torn v rest He Hw Hs) as Hv. split; [right; eauto|left].
      destruct (var_str_name cs U v rest He Hw) as (t & E & Ht). rewrite E in *.
      assert (H94 : lit 94 rest = Fail) by (apply follows_lit; auto; cbn; lia). now destruct (power_name _ _ _ _ He Hv H94).
    - destruct He as [Hm Hb]. assert (B : base_ok cs b) by (destruct b; cbn; tauto). cbn [Ser_Model.to_string]. rewrite pow_str_core. destruct k.
      + rewrite <- !app_assoc. change (txt "(" ++ ?y) with (40 :: y). split; [left; now apply numvar_40|left]. apply closed_core.
        destruct (core_str_head cs U real torn b x (txt ")^*" ++ rest) B) as [->|(y & t & ->)]; [now left|right]. exists y, (94 :: t). split; [reflexivity|].
        apply lit_fail. rewrite skip_solid by (auto; lia). reflexivity.
      + split.
        * destruct (core_str_head cs U real torn b x rest B) as [->|(y & t & ->)]; [now left|right]. exists y, (94 :: t). split; [reflexivity|].
          apply lit_fail. rewrite skip_solid by (auto; lia). reflexivity.
        * right. rewrite p_core_here by auto. eauto.
    - pose proof He as (Hn & _). destruct (tensor_head (ETen t) rest) as (n & s & E & Hn'); [left; eauto|]. rewrite E.
      destruct (power_name n (123 :: s) _ _ Hn' (tensor_numvar n s Hn') (lit_123 94 s ltac:(lia))) as [Q _]. split; [right|now left].
      rewrite tensor_numvar by exact Hn'. eexists _, _. split; [reflexivity|]. apply lit_123. lia.
    - destruct (tensor_head (EOp bo v cr an) rest) as (n & s & E & Hn'); [right; eauto|]. rewrite E.
      destruct (power_name n (123 :: s) _ _ Hn' (tensor_numvar n s Hn') (lit_123 94 s ltac:(lia))) as [Q _]. split; [right|now left].
      rewrite tensor_numvar by exact Hn'. eexists _, _. split; [reflexivity|]. apply lit_123. lia.
  Qed.

  (** What may follow a summand; there, no factor begins. *)
  Definition ends (s : str) : Prop := s = [] \/ (exists t, s = 41 :: t) \/ exists c t, s = 32 :: c :: 32 :: t /\ In c [43; 45].
  Lemma ends_follows s : ends s -> follows s.
  Proof. intros [->|[[t ->]|(c & t & -> & H)]]; [now left|right; left; eauto|right; right]. exists c, t. split; [reflexivity|]. cbn in *. tauto. Qed.
  Lemma p_real_sign_space c t : c = 43 \/ c = 45 -> p_real cs real (c :: 32 :: t) = Fail.
  Proof.
    intros Hc. unfold p_real. rewrite skip_solid by (auto; lia).
    assert (E : exists neg, p_sign (c :: 32 :: t) = (neg, 32 :: t)) by (destruct Hc as [-> | ->]; cbn; eauto).
    destruct E as [neg ->]. rewrite span_none by reflexivity. destruct t as [|a [|b t]]; reflexivity.
  Qed.
  Lemma grouped_solid c t f : 0 <= c < 65 -> ((9 <=? c) && (c <=? 13) || (c =? 32))%bool = false -> c <> 40 -> p_real cs real (c :: t) = Fail -> (1 <= f)%nat ->
    grouped f (c :: t) = Fail.
  Proof.
    intros Hc Hb H40 Hn Hf. destruct f as [|f]; [lia|]. cbn [Ser_Model.grouped].
    assert (N : p_number cs real (c :: t) = Fail) by (unfold p_number; now rewrite Hn).
    assert (M : name cs torn (skip (c :: t)) = Fail). { rewrite skip_solid by (auto; lia). cbn [name]. rewrite (u_alpha _ U) by lia.
      destruct (Z.leb_spec 65 c); [lia|]. destruct (Z.leb_spec 97 c); [lia|]. reflexivity. }
    assert (V : p_variable cs torn (c :: t) = Fail) by (unfold p_variable; now rewrite M).
    assert (L : lit 40 (c :: t) = Fail). { apply lit_fail. rewrite skip_solid by (auto; lia). unfold fails. lia. }
    unfold Ser_Model.p_power, Ser_Model.p_core, Ser_Model.numvar, Ser_Model.p_nullary, p_tensor. rewrite N, V, L, M. reflexivity.
  Qed.
  Lemma grouped_ends f s : ends s -> (1 <= f)%nat -> grouped f s = Fail.
  Proof.
    intros [->|[[t ->]|(c & t & -> & H)]] Hf.
    - destruct f as [|f]; [lia|]. reflexivity.
    - apply grouped_solid; auto; try lia. unfold p_real. rewrite skip_solid by (auto; lia). cbn [p_sign]. change (41 ==? 45) with false. change (41 ==? 43) with false. cbv iota.
      rewrite span_none by reflexivity. destruct t as [|a [|b t]]; reflexivity.
    - cbn in H. rewrite grouped_space. apply grouped_solid; auto; try lia. apply p_real_sign_space. lia.
  Qed.
  Lemma ends_star s : ends s -> lit 42 s = Fail.
  Proof.
    intros [->|[[t ->]|(c & t & -> & H)]]; [reflexivity|..].
    - apply lit_fail. rewrite skip_solid by (auto; lia). reflexivity.
    - cbn in H. rewrite lit_space by auto. apply lit_fail. rewrite skip_solid by (auto; lia). unfold fails. lia.
  Qed.

  (** Factors. *)
  Definition fstr (e : expr) : str := match e with EProd _ _ | ESum _ => txt "(" ++ to_string e ++ txt ")" | _ => to_string e end.
  Definition factor_here (e : expr) : Prop := forall f rest, follows rest -> (List.length (fstr e ++ rest) < f)%nat ->
    exists a, grouped f (fstr e ++ rest) = Ok a rest /\ reads a e.
  Lemma atom_good e : good e -> atom e = true -> atomic_ok e.
  Proof. intros H Ha. destruct H; [assumption|discriminate..]. Qed.
  Lemma fstr_head e : good e -> is_constant e = false -> exists c t, fstr e = c :: t /\ (alpha cs c = true \/ c = 40).
  Proof.
    intros He Hc. destruct e as [c|v|b x k|t|bo v cr an|c fs|l]; try discriminate Hc.
    - apply atom_good in He; [|reflexivity]. cbn in He. destruct v as [n k], He as (d & w & E & Hd & _). cbn in E. subst n. cbn. eauto.
    - apply atom_good in He; [|reflexivity]. cbn in He. cbn [fstr Ser_Model.to_string]. rewrite pow_str_core. destruct k; [cbn; eauto|]. unfold core_str.
      destruct b as [c|[n [|]]]; [cbn; eauto..|]. destruct He as [_ (d & w & E & Hd & _)]. cbn in E. subst n. cbn. eauto.
    - apply atom_good in He; [|reflexivity]. destruct He as ((d & w & E & Hd & _) & _). cbn [fstr Ser_Model.to_string]. unfold tensor_str. rewrite E. cbn. eauto.
    - destruct (op_name cs U bo v) as (d & w & E & Hd & _). cbn [fstr Ser_Model.to_string]. unfold op_str. rewrite E. cbn. eauto.
    - cbn. eauto.
    - cbn. eauto.
  Qed.
  Lemma head_lit c d s : alpha cs d = true \/ d = 40 -> 0 <= c < 65 -> c <> 40 -> lit c (d :: s) = Fail.
  Proof.
    intros [H| ->] Hc H40; [now apply lit_alpha|]. apply lit_fail. rewrite skip_solid by (auto; lia). unfold fails. lia.
  Qed.
  Lemma stars_cons x y l : stars (x :: y :: l) = x ++ txt " * " ++ stars (y :: l).
  Proof. reflexivity. Qed.
  Lemma product_here f fs rest : fs <> [] -> (forall e, In e fs -> factor_here e) -> ends rest -> forall n,
    (List.length (stars (map fstr fs) ++ rest) < f)%nat -> (List.length (stars (map fstr fs) ++ rest) < n)%nat ->
    exists l, p_product cs (grouped f) n (stars (map fstr fs) ++ rest) = Ok l rest /\ Forall2 reads l fs.
  Proof.
    intros Hne HF He. induction fs as [|x fs IH]; intros n Hf Hn; [congruence|]. destruct n as [|n]; [lia|]. cbn [p_product].
    destruct fs as [|y fs].
    - cbn [map stars] in *. destruct (HF x (or_introl eq_refl) f rest (ends_follows _ He) Hf) as (a & -> & Ha). cbn [bind].
      rewrite ends_star by exact He. 
      assert (E : p_product cs (grouped f) n rest = Fail \/ n = 0%nat). { destruct n as [|n]; [now right|left]. cbn [p_product]. rewrite grouped_ends by (auto; lia). reflexivity. }
      destruct E as [->| ->]; [exists [a]; split; [reflexivity|constructor; [exact Ha|constructor]]|].
      exfalso.
      assert (L : fstr x ++ rest <> []). { intros L. apply app_eq_nil in L. destruct L as [L1 L2]. rewrite L1, L2 in *. 
        destruct (HF x (or_introl eq_refl) 1%nat [] (or_introl eq_refl)) as (b & Hb & _); [rewrite L1; cbn; lia|]. rewrite L1 in Hb. discriminate Hb. }
      destruct (fstr x ++ rest); [congruence|cbn in Hn; lia].
    - change (map fstr (x :: y :: fs)) with (fstr x :: fstr y :: map fstr fs) in *. rewrite stars_cons in *. change (fstr y :: map fstr fs) with (map fstr (y :: fs)) in *.
      rewrite <- !app_assoc in *. change (txt " * " ++ ?s) with (32 :: 42 :: 32 :: s) in *.
      rewrite app_length in *. cbn [List.length] in *.
      destruct (HF x (or_introl eq_refl) f (32 :: 42 :: 32 :: stars (map fstr (y :: fs)) ++ rest)) as (a & -> & Ha).
      { right. right. exists 42. eexists. split; [reflexivity|]. cbn. tauto. }
      { rewrite app_length. cbn [List.length]. lia. }
      cbn [bind]. rewrite lit_space by auto. rewrite lit_here by (auto; lia). rewrite p_product_space.
      destruct IH with (n := n) as (l & -> & Hl); [discriminate|intros; apply HF; now right|rewrite ?app_length in *; lia..|].
      exists (a :: l). split; [reflexivity|]. now constructor.
  Qed.
End P4.
