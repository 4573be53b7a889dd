(** Indices, tensors, variables, powers. *)
From Coq Require Import ZArith List Bool QArith Qcanon String Ascii Lia.
From Verif Require Import Tsr_Model Ser_Model Ser_Spec Ser_Proofs1.
Import ListNotations.
Close Scope Q_scope.
Open Scope Z_scope.
Open Scope list_scope.

Section P2.
  Variable cs : charset.
  Hypothesis U : usual cs.
  Variable real : bool -> str -> str -> option Z -> Q.
  Hypothesis X : exact real.
  Variable torn : str -> str.
  Variables (known : str -> bool) (distinct : list index -> bool) (psort : list index -> list index) (min_tmp : Z).

  (** Lists with commas. *)
  Lemma commas_length l : (List.length l <= S (List.length (commas l)))%nat.
  Proof.
    induction l as [|s [|s' l] IH]; [cbn; lia..|]. change (commas (s :: s' :: l)) with (s ++ txt "," ++ commas (s' :: l)).
    rewrite !app_length. change (List.length (txt ",")) with 1%nat. change (List.length (s :: s' :: l)) with (S (List.length (s' :: l))). lia.
  Qed.
  Lemma p_list_commas {A B} (p : str -> res A) (f : B -> str) (g : B -> A) (stop : str -> Prop) (xs : list B) rest :
    (forall x t, In x xs -> stop t -> p (f x ++ t) = Ok (g x) t) -> (forall t, stop (44 :: t)) -> stop rest -> lit cs 44 rest = Fail -> xs <> [] ->
    forall fuel, (List.length xs <= fuel)%nat -> p_list cs p fuel (commas (map f xs) ++ rest) = Ok (map g xs) rest.
  Proof.
    intros Hp Hs Hr Hc. induction xs as [|x xs IH]; intros Hne fuel Hf; [congruence|].
    destruct fuel as [|fuel]; [cbn in Hf; lia|]. cbn [p_list].
    destruct xs as [|y xs].
    - cbn [map commas]. rewrite Hp by (cbn; auto). cbn [bind]. now rewrite Hc.
    - change (commas (map f (x :: y :: xs))) with (f x ++ txt "," ++ commas (map f (y :: xs))). rewrite <- !app_assoc.
      change (txt "," ++ commas (map f (y :: xs)) ++ rest) with (44 :: commas (map f (y :: xs)) ++ rest).
      rewrite Hp; [|cbn; auto|apply Hs]. cbn [bind]. rewrite lit_here by (auto; lia). cbn [bind].
      rewrite IH; [reflexivity|intros; apply Hp; [cbn; auto|assumption]|discriminate|cbn in *; lia].
  Qed.
  Lemma commalist_commas {A B} (p : str -> res A) (f : B -> str) (g : B -> A) (stop : str -> Prop) (xs : list B) rest :
    (forall x t, In x xs -> stop t -> p (f x ++ t) = Ok (g x) t) -> (forall t, stop (44 :: t)) -> stop rest -> lit cs 44 rest = Fail -> xs <> [] ->
    commalist cs p (commas (map f xs) ++ rest) = Ok (map g xs) rest.
  Proof.
    intros Hp Hs Hr Hc Hne. unfold commalist. eapply p_list_commas; eauto.
    rewrite app_length. pose proof (commas_length (map f xs)). rewrite map_length in *. lia.
  Qed.

  (** Labels of indices. *)
  Definition ord_of (o : option Z) : Z := match o with Some n => n | None => 0 end.
  Notation label_ok := (label_ok cs known min_tmp).
  Lemma p_ilabel_here k o rest : label_ok k o -> fails is_digit rest -> p_ilabel cs (label_str k o ++ rest) = Ok (k, ord_of o) rest.
  Proof.
    intros (Hk & Hf & _ & n & -> & Hn & Hm) Hr. unfold p_ilabel, label_str. rewrite <- !app_assoc.
    assert (E : skip cs (k ++ txt "_" ++ int_str n ++ rest) = k ++ txt "_" ++ int_str n ++ rest).
    { apply skip_stop. destruct k as [|c k]; [congruence|]. cbn. apply (index_char_solid cs U). now inversion Hf. }
    rewrite E, (span_app (index_char cs) k _ Hf).
    2:{ cbn. rewrite index_char_ascii by (auto; lia). reflexivity. }
    destruct k as [|c k]; [congruence|]. cbn [txt app]. unfold int_str. destruct (Z.ltb_spec n 0); [lia|].
    change (Z.of_N (Ascii.N_of_ascii "_"%char)) with 95. cbv iota.
    rewrite (span_app is_digit _ _ (nat_str_digits n ltac:(lia)) Hr).
    destruct (nat_str_cons n ltac:(lia)) as (d & t & Ed & _).
    assert (V : value_of (nat_str n) = n) by (apply nat_str_value; lia). rewrite Ed in *. rewrite V.
    destruct (Z.leb_spec n 4294967295); [reflexivity|lia].
  Qed.
  Notation proto_ok := (proto_ok cs known min_tmp).
  Notation index_ok := (index_ok cs known distinct psort min_tmp).
  Definition iast_of (i : index) : iast :=
    match i with Ix k o ps => mki (k, ord_of o) (map (fun p => match p with Ix k' o' _ => (k', ord_of o') end) ps) end.
  Definition istop (s : str) : Prop := exists c t, s = c :: t /\ In c [44; 59; 125].
  Lemma istop_facts s : istop s -> fails is_digit s /\ lit cs 60 s = Fail.
  Proof.
    intros (c & t & -> & Hc). cbn in Hc. split.
    - cbn. destruct (is_digit c) eqn:E; [|reflexivity]. apply is_digit_iff in E. lia.
    - apply lit_fail. rewrite skip_solid by (auto; lia). unfold fails. lia.
  Qed.
  Lemma p_index_here i rest : index_ok i -> istop rest -> p_index cs (index_str i ++ rest) = Ok (iast_of i) rest.
  Proof.
    intros (k & o & ps & -> & Hl & Hp & _) Hs. apply istop_facts in Hs. destruct Hs as [Hd H60]. unfold p_index. destruct ps as [|q ps].
    - cbn [index_str]. rewrite p_ilabel_here by assumption. cbn [bind]. rewrite H60. reflexivity.
    - unfold index_str. rewrite <- !app_assoc. rewrite p_ilabel_here; [|exact Hl|reflexivity]. cbn [bind].
      change (txt "<" ++ ?x) with (60 :: x). rewrite lit_here by (auto; lia). cbn [bind].
      change (txt ">" ++ rest) with (62 :: rest).
      rewrite (commalist_commas (p_ilabel cs) _ (fun p => match p with Ix k' o' _ => (k', ord_of o') end) (fails is_digit)).
      + cbn [bind]. rewrite lit_here by (auto; lia). reflexivity.
      + intros x t Hx Ht. rewrite Forall_forall in Hp. destruct (Hp x Hx) as (k' & o' & -> & Hl'). now apply p_ilabel_here.
      + intros t. reflexivity.
      + reflexivity.
      + apply lit_fail. rewrite skip_solid by (auto; lia). reflexivity.
      + discriminate.
  Qed.
  Lemma p_indices_here l rest : Forall index_ok l -> (exists c t, rest = c :: t /\ In c [59; 125]) ->
    p_indices cs (indices_str l ++ rest) = Ok (map iast_of l) rest.
  Proof.
    intros Hl (c & t & -> & Hc). unfold p_indices, indices_str. cbn in Hc. destruct l as [|i l].
    - cbn [map commas app]. unfold commalist. cbn [p_list]. unfold p_index, p_ilabel. rewrite skip_solid by (auto; lia).
      rewrite span_none; [reflexivity|]. unfold fails. rewrite index_char_ascii by (auto; lia). lia.
    - rewrite (commalist_commas (p_index cs) index_str iast_of istop).
      + reflexivity.
      + intros x u Hx Hu. apply p_index_here; [|exact Hu]. rewrite Forall_forall in Hl. now apply Hl.
      + intros u. exists 44, u. cbn. tauto.
      + exists c, t. split; [reflexivity|]. cbn. tauto.
      + apply lit_fail. rewrite skip_solid by (auto; lia). unfold fails. lia.
      + discriminate.
  Qed.

  (** Slots. *)
  Definition slots_str (b k a : list index) : str :=
    txt "{" ++ indices_str b ++ (match k with [] => [] | k => txt ";" ++ indices_str k end) ++
    (match a with [] => [] | a => (match k with [] => txt ";" | _ => [] end) ++ txt ";" ++ indices_str a end) ++ txt "}".
  Lemma p_semi_none rest : (exists t, rest = 125 :: t) -> p_semi cs rest = Ok [] rest.
  Proof.
    intros (t & ->). unfold p_semi. rewrite lit_fail; [reflexivity|]. rewrite skip_solid by (auto; lia). reflexivity.
  Qed.
  Lemma p_semi_some l rest : Forall index_ok l -> (exists c t, rest = c :: t /\ In c [59; 125]) ->
    p_semi cs (txt ";" ++ indices_str l ++ rest) = Ok (map iast_of l) rest.
  Proof.
    intros Hl Hr. unfold p_semi. change (txt ";" ++ ?x) with (59 :: x). rewrite lit_here by (auto; lia). cbn [bind].
    rewrite p_indices_here by assumption. reflexivity.
  Qed.
  Lemma p_groups_here b k a rest : Forall index_ok b -> Forall index_ok k -> Forall index_ok a ->
    p_groups cs (slots_str b k a ++ rest) = Ok (map iast_of b, map iast_of k, map iast_of a) rest.
  Proof.
    intros Hb Hk Ha. unfold p_groups, slots_str. rewrite <- !app_assoc. change (txt "{" ++ ?x) with (123 :: x).
    match goal with |- context [123 :: ?x] => set (s := x) end.
    assert (F : forall c, c <> 123 -> lit cs c (123 :: s) = Fail).
    { intros c Hc. apply lit_fail. rewrite skip_solid by (auto; lia). unfold fails. lia. }
    unfold p_two. rewrite !F by lia. cbn [bind either]. rewrite lit_here by (auto; lia). cbn [bind]. subst s.
    change (txt "}" ++ rest) with (125 :: rest).
    assert (E125 : forall t, exists c u, 125 :: t = c :: u /\ In c [59; 125]) by (intros t; exists 125, t; cbn; tauto).
    assert (E59 : forall t, exists c u, txt ";" ++ t = c :: u /\ In c [59; 125]) by (intros t; exists 59, t; cbn; tauto).
    destruct k as [|k0 k], a as [|a0 a]; cbn [app]; rewrite <- ?app_assoc; rewrite (p_indices_here b) by auto; cbn [bind must].
    - rewrite !p_semi_none by eauto. cbn [bind must]. rewrite !p_semi_none by eauto. cbn [bind must]. rewrite lit_here by (auto; lia). reflexivity.
    - change (txt ";" ++ txt ";" ++ ?x) with (txt ";" ++ indices_str [] ++ txt ";" ++ x).
      rewrite p_semi_some by auto. cbn [bind must]. rewrite p_semi_some by auto. cbn [bind must]. rewrite lit_here by (auto; lia). reflexivity.
    - rewrite p_semi_some by auto. cbn [bind must]. rewrite p_semi_none by eauto. cbn [bind must]. rewrite lit_here by (auto; lia). reflexivity.
    - rewrite p_semi_some by auto. cbn [bind must]. rewrite p_semi_some by auto. cbn [bind must]. rewrite lit_here by (auto; lia). reflexivity.
  Qed.

  (** What may follow a factor. *)
  Definition follows (s : str) : Prop :=
    s = [] \/ (exists t, s = 41 :: t) \/ exists c t, s = 32 :: c :: 32 :: t /\ In c [43; 45; 42].
  Lemma follows_head s : follows s -> s = [] \/ exists c t, s = c :: t /\ (c = 41 \/ c = 32).
  Proof. intros [->|[[t ->]|(c & t & -> & _)]]; eauto 8. Qed.
  Lemma follows_skip s : follows s -> skip cs s = [] \/ exists c t, skip cs s = c :: t /\ In c [41; 43; 45; 42].
  Proof.
    intros [->|[[t ->]|(c & t & -> & Hc)]]; [now left|right..].
    - rewrite skip_solid by (auto; lia). exists 41, t. cbn. tauto.
    - rewrite skip_space by auto. cbn in Hc. rewrite skip_solid by (auto; lia). exists c, (32 :: t). cbn. tauto.
  Qed.
  Lemma follows_fails p s : follows s -> p 41 = false -> p 32 = false -> fails p s.
  Proof. intros H H1 H2. destruct (follows_head s H) as [->|(c & t & -> & [->| ->])]; cbn; auto. Qed.
  Lemma follows_fails_skip p s : follows s -> p 41 = false -> p 43 = false -> p 45 = false -> p 42 = false -> fails p (skip cs s).
  Proof.
    intros H ? ? ? ?. destruct (follows_skip s H) as [->|(c & t & -> & Hc)]; cbn; [exact Logic.I|].
    cbn in Hc. destruct Hc as [<-|[<-|[<-|[<-|[]]]]]; assumption.
  Qed.
  Lemma follows_word s : follows s -> fails (word cs) s.
  Proof. intros H. apply follows_fails; [exact H|rewrite word_ascii by (auto; lia); reflexivity..]. Qed.
  Lemma follows_num s : follows s -> num_stop cs s.
  Proof. intros H. split; [now apply follows_fails|now apply follows_fails_skip]. Qed.
  Lemma follows_lit c s : follows s -> ~ In c [41; 43; 45; 42] -> lit cs c s = Fail.
  Proof. intros H Hc. cbn in Hc. apply lit_fail. apply follows_fails_skip; [exact H|lia..]. Qed.

  (** Tensors and operators. *)
  Lemma slots_word b k a rest : fails (word cs) (slots_str b k a ++ rest).
  Proof. cbn. rewrite word_ascii by (auto; lia). reflexivity. Qed.
  Lemma p_symm_none rest : follows rest -> p_symm cs rest = Fail.
  Proof.
    intros H. unfold p_symm, lit0. destruct (follows_head rest H) as [->|(c & t & -> & [->| ->])]; reflexivity.
  Qed.
  Definition one (s : str) : Z := match s with c :: _ => c | [] => 0 end.
  Definition tast_of (annot : bool) (t : tensor) : tast :=
    mkta (t_label t) (map iast_of (t_bra t)) (map iast_of (t_ket t)) (map iast_of (t_aux t))
         (if annot then Some (one (symm_str (t_symm t)), Some (one (bks_str (t_bks t))), Some (one (cs_str (t_cs t)))) else None).
  Lemma tensor_str_slots annot t : tensor_str annot t = t_label t ++ slots_str (t_bra t) (t_ket t) (t_aux t) ++
    (if annot then txt ":" ++ symm_str (t_symm t) ++ txt "-" ++ bks_str (t_bks t) ++ txt "-" ++ cs_str (t_cs t) else []).
  Proof. unfold tensor_str, slots_str. rewrite <- !app_assoc. destruct (t_ket t), (t_aux t); reflexivity. Qed.
  Lemma p_tensor_here annot t rest : name_ok cs (t_label t) -> Forall index_ok (t_bra t) -> Forall index_ok (t_ket t) -> Forall index_ok (t_aux t) ->
    follows rest -> p_tensor cs torn (tensor_str annot t ++ rest) = Ok (tast_of annot t) rest.
  Proof.
    intros Hn Hb Hk Ha Hr. unfold p_tensor. rewrite tensor_str_slots, <- !app_assoc.
    rewrite skip_name by auto. rewrite name_here by (auto; apply slots_word). cbn [bind]. rewrite p_groups_here by assumption. cbn [bind].
    destruct annot.
    - destruct (t_symm t) eqn:E1, (t_bks t) eqn:E2, (t_cs t) eqn:E3; unfold tast_of; rewrite E1, E2, E3; cbn [symm_str bks_str cs_str txt app one];
        unfold p_symm, p_upper, lit0; cbn; rewrite !(u_upper _ U) by lia; cbn; rewrite ?(u_upper _ U) by lia; cbn; rewrite ?(u_upper _ U) by lia; reflexivity.
    - cbn [app]. rewrite p_symm_none by exact Hr. reflexivity.
  Qed.
  Lemma op_name b v : name_ok cs (op_label b v).
  Proof.
    assert (A : forall c, 0 <= c < 128 -> ((65 <=? c) && (c <=? 90) || (97 <=? c) && (c <=? 122))%bool = true -> alpha cs c = true).
    { intros c Hc H. now rewrite (u_alpha _ U). }
    destruct b, v; unfold op_label.
    - exists 98, [771]. repeat split; [apply A; [lia|reflexivity]| |right; discriminate|].
      + constructor; [|constructor]. unfold word. rewrite !orb_true_iff. left. left. left. left. left. left. now right.
      + intros [H|H]; discriminate H.
    - exists 98, []. repeat split; [apply A; [lia|reflexivity]|constructor|now left|]. intros [H|H]; discriminate H.
    - exists 227, []. repeat split; [apply (u_fermi _ U)|constructor|now left|]. intros [H|H]; discriminate H.
    - exists 97, []. repeat split; [apply A; [lia|reflexivity]|constructor|now left|]. intros [H|H]; discriminate H.
  Qed.
  Lemma p_tensor_op b v cre ann rest : Forall index_ok cre -> Forall index_ok ann -> follows rest ->
    p_tensor cs torn (op_str b v cre ann ++ rest) = Ok (mkta (op_label b v) (map iast_of ann) (map iast_of cre) [] None) rest.
  Proof.
    intros Hc Ha Hr. unfold p_tensor.
    assert (E : op_str b v cre ann = op_label b v ++ slots_str ann cre []) by (destruct cre; reflexivity).
    rewrite E, <- !app_assoc. rewrite skip_name by (auto; apply op_name). rewrite name_here by (auto using op_name; apply slots_word). cbn [bind].
    rewrite p_groups_here by auto. cbn [bind]. rewrite p_symm_none by exact Hr. reflexivity.
  Qed.

  (** Variables. *)
  Definition no_star (s : str) : Prop := match s with c :: d :: _ => c = 94 -> d <> 42 | _ => True end.
  Lemma p_variable_here v rest : name_ok cs (fst v) -> fails (word cs) rest -> no_star rest ->
    p_variable cs torn (var_str v ++ rest) = Ok v rest.
  Proof.
    destruct v as [n k]. cbn [fst]. intros Hn Hw Hs. unfold p_variable, var_str. cbn [fst snd]. rewrite <- app_assoc. rewrite skip_name by auto.
    destruct k.
    - rewrite name_here by (auto; cbn; rewrite word_ascii by (auto; lia); reflexivity). reflexivity.
    - cbn [app]. rewrite name_here by auto. cbn [bind]. destruct rest as [|c [|d t]]; cbn.
      + reflexivity.
      + destruct (Z.eqb_spec c 94); reflexivity.
      + destruct (Z.eqb_spec c 94); cbn; [|reflexivity]. destruct (Z.eqb_spec d 42); [|reflexivity]. exfalso. now apply Hs.
  Qed.
  Lemma var_str_name v rest : name_ok cs (fst v) -> fails (word cs) rest -> exists t, var_str v ++ rest = fst v ++ t /\ fails (word cs) t.
  Proof.
    intros Hn Hw. unfold var_str. rewrite <- app_assoc. eexists. split; [reflexivity|]. destruct (snd v); [|exact Hw].
    cbn. rewrite word_ascii by (auto; lia). reflexivity.
  Qed.
  Lemma follows_no_star s : follows s -> no_star s.
  Proof. intros H. destruct (follows_head s H) as [->|(c & [|d t] & -> & [->| ->])]; cbn; try exact Logic.I; discriminate. Qed.

  (** Real scalars. *)
  Lemma scalar_frac c : real_number c -> scalar_str c = frac_str (numer (fst c)) (denom (fst c)).
  Proof.
    destruct c as [re im]. intros [_ H]. cbn [snd] in H. subst im. unfold scalar_str. cbn [fst]. change (numer 0%Qc) with 0. rewrite andb_true_r.
    destruct (Z.eqb_spec (numer re) 0) as [E|E]; cbn; [|reflexivity].
    unfold frac_str. rewrite E. assert (D : denom re = 1); [|now rewrite D].
    unfold numer, denom in *. destruct re as [[n d] C]. cbn in *. subst n. unfold Qred in C. cbn in C. now injection C as <-.
  Qed.
  Definition num_of (q : Qc) : num * num := (Fin (Qmake (numer q) 1), Fin (Qmake (denom q) 1)).
  Lemma p_number_scalar q rest : moderate q -> num_stop cs rest -> p_number cs real (scalar_str (q, 0%Qc) ++ rest) = Ok (num_of q) rest.
  Proof.
    intros [H1 H2] Hr. rewrite scalar_frac by (split; [split; assumption|reflexivity]). apply p_number_frac; auto. split; [|exact H2]. unfold denom. lia.
  Qed.
  Lemma stop_41 t : num_stop cs (41 :: t).
  Proof. split; [reflexivity|]. rewrite skip_solid by (auto; lia). reflexivity. Qed.
  Lemma word_41 t : fails (word cs) (41 :: t).
  Proof. cbn. rewrite word_ascii by (auto; lia). reflexivity. Qed.

  (** Powers. *)
  Definition base_ast (b : cplx + variable) : num * num + variable := match b with inl c => inl (num_of (fst c)) | inr v => inr v end.
  Definition base_ok (b : cplx + variable) : Prop := match b with inl c => real_number c | inr v => name_ok cs (fst v) end.
  Definition core_str (b : cplx + variable) (e : Qc) : str :=
    (match b with inl c => txt "(" ++ scalar_str c ++ txt ")" | inr v => if snd v then txt "(" ++ var_str v ++ txt ")" else var_str v end)
    ++ txt "^(" ++ scalar_str (e, 0%Qc) ++ txt ")".
  Lemma numvar_var v rest : name_ok cs (fst v) -> fails (word cs) rest -> no_star rest -> numvar cs real torn (var_str v ++ rest) = Ok (inr v) rest.
  Proof.
    intros Hn Hw Hs. unfold numvar. destruct (var_str_name v rest Hn Hw) as (t & E & Ht).
    assert (P : p_number cs real (var_str v ++ rest) = Fail) by (rewrite E; now apply p_number_name).
    rewrite P. cbn [bind either]. now rewrite p_variable_here.
  Qed.
  Lemma numvar_num q rest : moderate q -> num_stop cs rest -> numvar cs real torn (scalar_str (q, 0%Qc) ++ rest) = Ok (inl (num_of q)) rest.
  Proof. intros Hq Hr. unfold numvar. now rewrite p_number_scalar. Qed.
  Lemma numvar_40 s : numvar cs real torn (40 :: s) = Fail.
  Proof.
    unfold numvar, p_number, p_real, p_variable, name. rewrite skip_solid by (auto; lia). cbn [p_sign].
    change (40 ==? 45) with false. change (40 ==? 43) with false. cbv iota.
    rewrite span_none by reflexivity. destruct s as [|a [|b s]]; cbn; rewrite (u_alpha _ U) by lia; reflexivity.
  Qed.
  Lemma p_core_here b e rest : base_ok b -> moderate e -> p_core cs real torn (core_str b e ++ rest) = Ok (base_ast b, num_of e) rest.
  Proof.
    intros Hb He. unfold p_core, core_str. rewrite <- !app_assoc.
    assert (Tail : forall x, bind (lit cs 94 (txt "^(" ++ scalar_str (e, 0%Qc) ++ txt ")" ++ rest)) (fun _ s2 =>
       bind (lit cs 40 s2) (fun _ s3 => bind (p_number cs real s3) (fun e s4 => bind (lit cs 41 s4) (fun _ s5 => Ok (x, e) s5)))) = Ok (x : num * num + variable, num_of e) rest).
    { intros x. change (txt "^(" ++ ?y) with (94 :: 40 :: y). rewrite lit_here by (auto; lia). cbn [bind]. rewrite lit_here by (auto; lia). cbn [bind].
      change (txt ")" ++ rest) with (41 :: rest). rewrite p_number_scalar by (auto using stop_41). cbn [bind]. rewrite lit_here by (auto; lia). reflexivity. }
    assert (Par : forall s x, numvar cs real torn (s ++ txt ")" ++ txt "^(" ++ scalar_str (e, 0%Qc) ++ txt ")" ++ rest) = Ok x (txt ")" ++ txt "^(" ++ scalar_str (e, 0%Qc) ++ txt ")" ++ rest) ->
       bind (either (bind (lit cs 40 (txt "(" ++ s ++ txt ")" ++ txt "^(" ++ scalar_str (e, 0%Qc) ++ txt ")" ++ rest))
              (fun _ s1 => bind (numvar cs real torn s1) (fun b s2 => bind (lit cs 41 s2) (fun _ s3 => Ok b s3)))) 
              (numvar cs real torn (txt "(" ++ s ++ txt ")" ++ txt "^(" ++ scalar_str (e, 0%Qc) ++ txt ")" ++ rest)))
       (fun b s1 => bind (lit cs 94 s1) (fun _ s2 => bind (lit cs 40 s2) (fun _ s3 => bind (p_number cs real s3) (fun e s4 => bind (lit cs 41 s4) (fun _ s5 => Ok (b, e) s5)))))
       = Ok (x, num_of e) rest).
    { intros s x Hx. change (txt "(" ++ ?y) with (40 :: y). rewrite lit_here by (auto; lia). cbn [bind]. rewrite Hx. cbn [bind].
      change (txt ")" ++ txt "^(" ++ ?y) with (41 :: txt "^(" ++ y). rewrite lit_here by (auto; lia). cbn [bind either]. apply Tail. }
    destruct b as [c|v]; cbn [base_ast base_ok] in *.
    - rewrite <- !app_assoc. apply Par. destruct c as [re im], Hb as [Hm Hi]. cbn in Hi. subst im. apply numvar_num; [exact Hm|apply stop_41].
    - destruct (snd v) eqn:K.
      + rewrite <- !app_assoc. apply Par. apply numvar_var; [exact Hb|apply word_41|]. cbn. discriminate.
      + rewrite numvar_var; [|exact Hb|cbn; rewrite word_ascii by (auto; lia); reflexivity|cbn; discriminate].
        assert (F40 : lit cs 40 (var_str v ++ txt "^(" ++ scalar_str (e, 0%Qc) ++ txt ")" ++ rest) = Fail).
        { apply lit_fail. destruct v as [n k]. cbn in K. subst k. unfold var_str. cbn [fst snd]. rewrite app_nil_r.
          cbn [fst] in Hb. rewrite skip_name by auto. destruct Hb as (c & w & -> & Hc & _). cbn [app fails].
          destruct (Z.eqb_spec 40 c) as [<-|]; [|reflexivity].
          rewrite (u_alpha _ U) in Hc by lia. discriminate. }
        rewrite F40. cbn [bind either]. apply Tail.
  Qed.
  Lemma pow_str_core b e k : pow_str b e k = if k then txt "(" ++ core_str b e ++ txt ")^*" else core_str b e.
  Proof. unfold pow_str, core_str. destruct b as [c|[n [|]]]; reflexivity. Qed.
  (** A power of a power is not read as a base. *)
  Lemma core_str_head b e rest : base_ok b -> numvar cs real torn (core_str b e ++ rest) = Fail \/
    exists x t, numvar cs real torn (core_str b e ++ rest) = Ok x (94 :: t).
  Proof.
    intros Hb. unfold core_str. destruct b as [c|v].
    - left. apply numvar_40.
    - destruct (snd v) eqn:K; [left; apply numvar_40|]. right. rewrite <- !app_assoc. eexists _, _. apply numvar_var; [exact Hb| |].
      + cbn. rewrite word_ascii by (auto; lia). reflexivity.
      + cbn. discriminate.
  Qed.
  Lemma p_power_here b e k rest : base_ok b -> moderate e -> p_power cs real torn (pow_str b e k ++ rest) = Ok (APow (base_ast b) (num_of e) k) rest.
  Proof.
    intros Hb He. unfold p_power. rewrite pow_str_core. destruct k.
    - rewrite <- !app_assoc. change (txt "(" ++ ?y) with (40 :: y).
      assert (F : p_core cs real torn (40 :: core_str b e ++ txt ")^*" ++ rest) = Fail).
      { unfold p_core. rewrite lit_here by (auto; lia). cbn [bind]. rewrite numvar_40.
        destruct (core_str_head b e (txt ")^*" ++ rest) Hb) as [->|(x & t & ->)]; [reflexivity|]. cbn [bind].
        rewrite lit_fail; [reflexivity|]. rewrite skip_solid by (auto; lia). reflexivity. }
      rewrite F. cbn [bind either]. rewrite lit_here by (auto; lia). cbn [bind]. rewrite p_core_here by assumption. cbn [bind].
      change (txt ")^*" ++ rest) with (41 :: 94 :: 42 :: rest). rewrite lit_here by (auto; lia). cbn [bind]. unfold lit2. rewrite lit_here by (auto; lia). reflexivity.
    - rewrite p_core_here by assumption. reflexivity.
  Qed.
End P2.
