(** From the syntax tree back to the expression. *)
From Coq Require Import ZArith List Bool QArith Qcanon String Ascii Lia.
From Verif Require Import Tsr_Model Ser_Model Ser_Spec Ser_Proofs1 Ser_Proofs2.
Import ListNotations.
Close Scope Q_scope.
Open Scope Z_scope.
Open Scope list_scope.

Lemma same_true a b : same a b = true <-> a = b.
Proof.
  revert b. induction a as [|x a IH]; intros [|y b]; cbn; try (split; congruence).
  rewrite andb_true_iff, IH, Z.eqb_eq. split; [intros [-> ->]; reflexivity|]. intros [= -> ->]. tauto.
Qed.
Lemma all_some_map {A B} (f : B -> option A) (g : B -> A) l : (forall x, In x l -> f x = Some (g x)) -> all_some (map f l) = Some (map g l).
Proof.
  induction l as [|x l IH]; intros H; [reflexivity|]. change (all_some (map f (x :: l))) with
    (match f x, all_some (map f l) with Some a, Some l' => Some (a :: l') | _, _ => None end).
  rewrite H, IH; [reflexivity| |now left]. intros y Hy. apply H. now right.
Qed.

(** Rational numbers. *)
Lemma q_eta (q : Qc) : Q2Qc (Qmake (numer q) (Qden (this q))) = q.
Proof. apply Qc_is_canon. unfold numer. cbn. destruct q as [[n d] C]. cbn in *. now rewrite C. Qed.
Lemma to_int_int z : Z.abs z <= 9007199254740992 -> to_int (Fin (Qmake z 1)) = Some (Some z).
Proof.
  intros H. unfold to_int. cbn [Qnum Qden]. rewrite Z.quot_1_r. destruct (Z.leb_spec (-9223372036854775808) z); [|lia].
  destruct (Z.ltb_spec z 9223372036854775808); [|lia]. cbn [andb]. now rewrite Z.mul_1_r, Z.eqb_refl.
Qed.
Lemma to_constant_frac fdiv n d : Z.abs n <= 9007199254740992 -> Zpos d <= 9007199254740992 ->
  to_constant fdiv (Fin (Qmake n 1)) (Fin (Qmake (Zpos d) 1)) = Some (Q2Qc (Qmake n d)).
Proof. intros Hn Hd. unfold to_constant. rewrite !to_int_int by lia. reflexivity. Qed.
Lemma to_constant_num fdiv q : moderate q -> to_constant fdiv (fst (num_of q)) (snd (num_of q)) = Some q.
Proof.
  intros [H1 H2]. unfold num_of. cbn [fst snd]. unfold denom in *. rewrite to_constant_frac by assumption. now rewrite q_eta.
Qed.
Lemma numer_zero q : numer q = 0 -> q = 0%Qc.
Proof.
  intros H. apply Qc_is_canon. unfold numer in H. destruct (this q) as [n d]. cbn in H. subst n. reflexivity.
Qed.
Lemma is_one_iff c : is_one c = true <-> c = (1, 0)%Qc.
Proof.
  destruct c as [re im]. unfold is_one. cbn [fst snd]. rewrite !andb_true_iff, !Z.eqb_eq. split.
  - intros [[H1 H2] H3]. f_equal; [|now apply numer_zero]. apply Qc_is_canon. unfold numer, denom in *. destruct (this re) as [n d]. cbn in *.
    injection H2 as ->. subst n. reflexivity.
  - intros [= -> ->]. repeat split.
Qed.
Lemma is_zero_c_iff c : is_zero_c c = true <-> c = (0, 0)%Qc.
Proof.
  destruct c as [re im]. unfold is_zero_c. cbn [fst snd]. rewrite !andb_true_iff, !Z.eqb_eq. split.
  - intros [H1 H2]. f_equal; now apply numer_zero.
  - intros [= -> ->]. repeat split.
Qed.
Lemma cmul_c1_l c : cmul c1 c = c.
Proof. destruct c as [a b]. unfold cmul, c1. cbn [fst snd]. f_equal; ring. Qed.

Section P3.
  Variable cs : charset.
  Hypothesis U : usual cs.
  Variables (known : str -> bool) (distinct : list index -> bool) (psort : list index -> list index) (min_tmp : Z).
  Variable fdiv : Q -> Q -> Q.
  Variable annot : bool.
  Variable defaults : symmetry * bksymmetry * colsymmetry.
  Notation label_ok := (label_ok cs known min_tmp).
  Notation index_ok := (index_ok cs known distinct psort min_tmp).

  Lemma key_plain k : Forall (fun c => index_char cs c = true) k ->
    Forall (fun c => negb (c ==? 95) = true) k /\ Forall (fun c => negb (is_digit c) = true) k.
  Proof.
    intros H. split; (eapply Forall_impl; [|exact H]); intros c Hc; apply (index_char_not cs U) in Hc; destruct Hc as (Hd & H95 & _).
    - apply negb_true_iff. now apply Z.eqb_neq.
    - now rewrite Hd.
  Qed.
  Lemma retrieve_key k : k <> [] -> Forall (fun c => index_char cs c = true) k -> known k = true -> retrieve known k = Some k.
  Proof.
    intros Hne Hk Hkn. destruct (key_plain k Hk) as [H1 H2]. unfold retrieve, reduce_key.
    rewrite (span_all _ k H1), (span_all _ k H2). destruct k; [congruence|]. now rewrite Hkn.
  Qed.
  Lemma to_proto_here k n : label_ok k (Some n) -> to_proto known min_tmp (k, n) = Some (Ix k (Some n) []).
  Proof.
    intros (Hne & Hk & Hkn & m & [= <-] & Hn & _). unfold to_proto. cbn [fst snd]. destruct (key_plain k Hk) as [H1 H2].
    assert (S : span (fun c => negb (c ==? 95)) (k ++ txt "_" ++ int_str n) = (k, txt "_" ++ int_str n)) by (apply span_app; [exact H1|reflexivity]).
    unfold retrieve, reduce_key, to_ordinal. rewrite S. cbn [txt app]. rewrite Hkn.
    unfold int_str. destruct (Z.ltb_spec n 0); [lia|].
    assert (F : forallb is_digit (nat_str n) = true). { apply forallb_forall. pose proof (nat_str_digits n ltac:(lia)) as D. now rewrite Forall_forall in D. }
    rewrite F. destruct (nat_str_cons n ltac:(lia)) as (d & t & E & _). pose proof (nat_str_value n ltac:(lia)) as V. rewrite E in *. rewrite V.
    destruct (Z.ltb_spec n min_tmp); [reflexivity|lia].
  Qed.
  Lemma to_index_here i : index_ok i -> to_index distinct known psort min_tmp (iast_of i) = Some i.
  Proof.
    intros (k & o & ps & -> & Hl & Hp & Hs & Hd). unfold to_index.
    assert (M : all_some (map (to_proto known min_tmp) (i_protos (iast_of (Ix k o ps)))) = Some (map (fun x => x) ps)).
    { cbn [iast_of i_protos]. rewrite map_map. apply all_some_map. intros x Hx. rewrite Forall_forall in Hp. destruct (Hp x Hx) as (k' & o' & -> & Hl').
      assert (exists n, o' = Some n) as [n ->]. { destruct Hl' as (_ & _ & _ & n & -> & _). eauto. }
      now apply to_proto_here. }
    rewrite M, map_id. cbn [iast_of i_label fst snd]. destruct Hl as (Hne & Hk & Hkn & n & -> & Hn & _). rewrite retrieve_key by assumption. rewrite Hs, Hd.
    cbn [ord_of]. destruct (Z.ltb_spec n min_tmp); [reflexivity|lia].
  Qed.
  Lemma to_indices_here l : Forall index_ok l -> to_indices distinct known psort min_tmp (map iast_of l) = Some l.
  Proof.
    intros H. unfold to_indices. rewrite map_map. rewrite (all_some_map _ (fun x => x)); [now rewrite map_id|].
    intros x Hx. apply to_index_here. rewrite Forall_forall in H. now apply H.
  Qed.

  Notation to_tensor := (to_tensor distinct known psort min_tmp defaults).
  Lemma to_symmetries_here t : (annot = true \/ defaults = (t_symm t, t_bks t, t_cs t)) ->
    to_symmetries defaults (a_symm (tast_of annot t)) = Some (t_symm t, t_bks t, t_cs t).
  Proof.
    intros H. unfold tast_of. cbn [a_symm]. unfold to_symmetries. destruct annot.
    - destruct defaults as [[d1 d2] d3]. destruct (t_symm t), (t_bks t), (t_cs t); reflexivity.
    - destruct H as [H| ->]; [discriminate|reflexivity].
  Qed.
  Lemma to_tensor_here t : tensor_ok cs known distinct psort min_tmp annot defaults t -> to_tensor (tast_of annot t) = Some (ETen t).
  Proof.
    intros (_ & Hop & Hb & Hk & Ha & D1 & D2 & D3 & Hs & Hbk & Hann). unfold Ser_Model.to_tensor.
    rewrite to_symmetries_here by exact Hann. unfold tast_of. cbn [a_bra a_ket a_aux a_name]. rewrite !to_indices_here by assumption.
    assert (N : forall b v, same (t_label t) (op_label b v) = false).
    { intros b v. destruct (same (t_label t) (op_label b v)) eqn:E; [|reflexivity]. apply same_true in E. now apply Hop in E. }
    rewrite !N. unfold make_tensor. rewrite D1, D2, D3. cbn [andb].
    assert (C : match t_symm t, t_cs t with Nonsymm, _ => true | _, ColSymm => true | _, ColNonsymm => false end = true).
    { destruct Hs as [-> | ->]; [reflexivity|]. now destruct (t_symm t). }
    rewrite C. cbn [option_map]. f_equal. f_equal. destruct t as [n b k a s bk c]. cbn in *. f_equal.
    destruct bk; [|destruct (same n [194] || same n [348]); reflexivity..].
    destruct (Hbk eq_refl) as [X1 X2]. destruct (same n [194] || same n [348]) eqn:E; [|reflexivity].
    apply orb_true_iff in E. rewrite !same_true in E. tauto.
  Qed.
  Lemma to_tensor_op b v cre ann : Forall index_ok cre -> Forall index_ok ann ->
    to_tensor (mkta (op_label b v) (map iast_of ann) (map iast_of cre) [] None) = Some (EOp b v cre ann).
  Proof.
    intros Hc Ha. unfold Ser_Model.to_tensor. cbn [a_bra a_ket a_aux a_name a_symm]. rewrite !to_indices_here by auto. cbn [to_indices map all_some fold_right].
    unfold to_symmetries. destruct defaults as [[d1 d2] d3]. destruct b, v; reflexivity.
  Qed.
  Lemma to_power_here b e k : base_ok cs b -> moderate e -> (forall c, b = inl c -> c = (0, 0)%Qc -> 0 <= numer e) ->
    to_power fdiv (base_ast b) (num_of e) k = Some (EPow b e k).
  Proof.
    intros Hb He Hz. unfold to_power.
    assert (B : (match base_ast b with inl n => option_map (fun q => inl (q, 0%Qc)) (to_constant fdiv (fst n) (snd n)) | inr v => Some (inr v) end) = Some b).
    { destruct b as [c|v]; cbn [base_ast base_ok] in *; [|reflexivity]. destruct c as [re im], Hb as [Hm Hi]. cbn [fst snd] in *. subst im.
      now rewrite to_constant_num. }
    rewrite B. destruct He as [H1 H2]. unfold num_of. cbn [fst snd]. unfold denom in H2. rewrite to_int_int by exact H1.
    unfold denom. rewrite to_int_int by lia. cbn [ratio]. rewrite q_eta.
    destruct b as [c|v]; cbn [andb]; [|reflexivity]. destruct (is_zero_c c) eqn:E; cbn [andb]; [|reflexivity].
    apply is_zero_c_iff in E. pose proof (Hz c eq_refl E). destruct (Z.ltb_spec (numer e) 0); [lia|reflexivity].
  Qed.

  (** Products. *)
  Definition not_num (a : ast) : bool := match a with ANum _ _ => false | _ => true end.
  Notation conv := (conv distinct known psort min_tmp fdiv defaults).
  Notation conv_product := (conv_product distinct known psort min_tmp fdiv defaults).
  Definition reads (a : ast) (e : expr) : Prop := conv a = Some e /\ not_num a = true.
  Definition step (r : option (Qc * list expr)) (f : ast * option expr) : option (Qc * list expr) :=
    match r, f with
    | Some (k, gs), (ANum n d, _) => option_map (fun q => ((k * q)%Qc, gs)) (to_constant fdiv n d)
    | Some (k, gs), (_, Some e) => Some (k, gs ++ [e])
    | _, _ => None
    end.
  Lemma steps_reads l es : Forall2 reads l es -> forall k gs, fold_left step (map (fun x => (x, conv x)) l) (Some (k, gs)) = Some (k, gs ++ es).
  Proof.
    induction 1 as [|a e l es [Ha Hn] Hl IH]; intros k gs; cbn [map fold_left]; [now rewrite app_nil_r|].
    assert (S : step (Some (k, gs)) (a, conv a) = Some (k, gs ++ [e])). { rewrite Ha. destruct a; [discriminate|reflexivity..]. }
    rewrite S, IH, <- app_assoc. reflexivity.
  Qed.
  Definition finish (r : option (Qc * list expr)) : option expr :=
    match r with
    | None => None
    | Some (k, []) => Some (ECon (k, 0%Qc))
    | Some (k, gs) => match gs with
                      | [g] => if is_one (k, 0%Qc) then Some g else Some (make_product (k, 0%Qc) gs)
                      | _ => Some (make_product (k, 0%Qc) gs)
                      end
    end.
  Lemma conv_product_two x y l : conv_product (x :: y :: l) = finish (fold_left step (map (fun x => (x, conv x)) (x :: y :: l)) (Some (1%Qc, []))).
  Proof. reflexivity. Qed.
  Lemma make_product_here c fs : (forall f, In f fs -> is_constant f = false) -> make_product c fs = EProd c fs.
  Proof.
    intros H. unfold make_product.
    assert (G : forall k gs, (forall f, In f fs -> is_constant f = false) ->
       fold_left (fun r f => match f with ECon d => (cmul (fst r) d, snd r) | _ => (fst r, snd r ++ [f]) end) fs (k, gs) = (k, gs ++ fs)).
    { clear H. induction fs as [|f fs IH]; intros k gs H; cbn [fold_left]; [now rewrite app_nil_r|].
      pose proof (H f (or_introl eq_refl)) as Hf. 
      destruct f; [discriminate|..]; cbn [fst snd]; rewrite IH by (intros; apply H; now right); now rewrite <- app_assoc. }
    rewrite G by exact H. cbn [app]. now rewrite cmul_c1_l.
  Qed.
  Lemma finish_product k gs : gs <> [] -> ((k, 0)%Qc = (1, 0)%Qc -> (2 <= List.length gs)%nat) -> (forall f, In f gs -> is_constant f = false) ->
    finish (Some (k, gs)) = Some (EProd (k, 0)%Qc gs).
  Proof.
    intros Hne H2 Hc. unfold finish. rewrite make_product_here by exact Hc. destruct gs as [|g [|h gs]]; [congruence| |reflexivity].
    destruct (is_one (k, 0%Qc)) eqn:E; [|reflexivity]. apply is_one_iff in E. apply H2 in E. cbn in E. lia.
  Qed.
  Definition minus_one : ast := ANum (Fin (-1)) (Fin 1).
  Lemma step_const k gs n d o : Z.abs n <= 9007199254740992 -> Zpos d <= 9007199254740992 ->
    step (Some (k, gs)) (ANum (Fin (Qmake n 1)) (Fin (Qmake (Zpos d) 1)), o) = Some ((k * Q2Qc (Qmake n d))%Qc, gs).
  Proof. intros Hn Hd. cbn [step]. now rewrite to_constant_frac. Qed.
  Lemma q_neg n d : (1 * Q2Qc (-1) * Q2Qc (Qmake (- n) d))%Qc = Q2Qc (Qmake n d).
  Proof.
    apply Qc_is_canon. unfold Qcmult, Q2Qc. cbn [this]. rewrite !Qred_correct. unfold Qeq, Qmult. cbn [Qnum Qden]. lia.
  Qed.

  (** A product with a scalar. *)
  Lemma conv_scaled q l fs : moderate q -> fs <> [] -> ((q, 0)%Qc = (1, 0)%Qc -> (2 <= List.length fs)%nat) -> (forall f, In f fs -> is_constant f = false) ->
    Forall2 reads l fs -> conv_product (ANum (fst (num_of q)) (snd (num_of q)) :: l) = Some (EProd (q, 0)%Qc fs).
  Proof.
    intros [Hq1 Hq2] Hne H2 Hc Hl. destruct l as [|a l]; [inversion Hl; congruence|]. rewrite conv_product_two. cbn [map fold_left].
    unfold num_of, denom in *. cbn [fst snd]. rewrite step_const by assumption. rewrite q_eta.
    change (fold_left step (map (fun x => (x, conv x)) l) (step ?r (a, conv a))) with (fold_left step (map (fun x => (x, conv x)) (a :: l)) r).
    rewrite (steps_reads _ _ Hl). cbn [app]. replace (1 * q)%Qc with q by ring. now apply finish_product.
  Qed.
  Lemma conv_minus_scaled q l fs : moderate q -> fs <> [] -> ((q, 0)%Qc = (1, 0)%Qc -> (2 <= List.length fs)%nat) -> (forall f, In f fs -> is_constant f = false) ->
    Forall2 reads l fs -> conv_product (minus_one :: ANum (Fin (Qmake (- numer q) 1)) (Fin (Qmake (denom q) 1)) :: l) = Some (EProd (q, 0)%Qc fs).
  Proof.
    intros [Hq1 Hq2] Hne H2 Hc Hl. rewrite conv_product_two. cbn [map fold_left]. unfold minus_one, denom in *.
    change (Fin (-1)) with (Fin (Qmake (-1) 1)). change (Fin 1) with (Fin (Qmake 1 1)).
    rewrite (step_const _ _ (-1) 1) by lia. rewrite step_const by lia. change (Q2Qc (-1 # 1)) with (Q2Qc (-1)). rewrite q_neg, q_eta.
    rewrite (steps_reads _ _ Hl). cbn [app]. now apply finish_product.
  Qed.
  Lemma conv_unscaled l fs : (2 <= List.length fs)%nat -> (forall f, In f fs -> is_constant f = false) -> Forall2 reads l fs ->
    conv_product l = Some (EProd (1, 0)%Qc fs).
  Proof.
    intros H2 Hc Hl. pose proof Hl as Hl'. destruct Hl' as [|a e l es Ha Hl']; [cbn in H2; lia|].
    destruct Hl' as [|b e' l es Hb Hl']; [cbn in H2; lia|].
    rewrite conv_product_two, (steps_reads _ _ Hl). cbn [app]. apply finish_product; [discriminate|auto|exact Hc].
  Qed.
  Lemma conv_minus_constant q : moderate q -> conv_product [minus_one; ANum (Fin (Qmake (- numer q) 1)) (Fin (Qmake (denom q) 1))] = Some (ECon (q, 0)%Qc).
  Proof.
    intros [Hq1 Hq2]. rewrite conv_product_two. cbn [map fold_left]. unfold minus_one, denom in *.
    change (Fin (-1)) with (Fin (Qmake (-1) 1)). change (Fin 1) with (Fin (Qmake 1 1)).
    rewrite (step_const _ _ (-1) 1) by lia. rewrite step_const by lia. change (Q2Qc (-1 # 1)) with (Q2Qc (-1)). rewrite q_neg, q_eta. reflexivity.
  Qed.

  (** Sums. *)
  Lemma add_constant_none c l : filter is_constant l = [] -> add_constant c l = None.
  Proof.
    induction l as [|e l IH]; cbn; [reflexivity|]. destruct (is_constant e) eqn:E; [discriminate|]. intros H. destruct e; [discriminate|..]; now rewrite IH.
  Qed.
  Lemma append_here l e : is_sum e = false -> is_zero e = false -> (List.length (filter is_constant (l ++ [e])) <= 1)%nat -> append l e = l ++ [e].
  Proof.
    intros Hs Hz Hc. assert (A : append l e = append_plain l e) by (destruct e; [reflexivity..|discriminate]).
    rewrite A. unfold append_plain. rewrite Hz. destruct e; try reflexivity. rewrite add_constant_none; [reflexivity|].
    rewrite filter_app, app_length in Hc. cbn in Hc. destruct (filter is_constant l); [reflexivity|cbn in Hc; lia].
  Qed.
  Lemma append_all l : forall acc, (forall f, In f l -> is_sum f = false /\ is_zero f = false) -> (List.length (filter is_constant (acc ++ l)) <= 1)%nat ->
    fold_left append l acc = acc ++ l.
  Proof.
    induction l as [|e l IH]; intros acc H Hc; cbn [fold_left]; [now rewrite app_nil_r|].
    destruct (H e (or_introl eq_refl)) as [Hs Hz].
    assert (Hc' : (List.length (filter is_constant ((acc ++ [e]) ++ l)) <= 1)%nat) by (rewrite <- app_assoc; exact Hc).
    rewrite append_here; [|exact Hs|exact Hz|].
    - rewrite IH; [now rewrite <- app_assoc|intros; apply H; now right|exact Hc'].
    - rewrite filter_app, app_length in Hc'. lia.
  Qed.
  Lemma to_sum_here l ps : (2 <= List.length l)%nat -> (forall f, In f l -> is_sum f = false /\ is_zero f = false) ->
    (List.length (filter is_constant l) <= 1)%nat -> Forall2 (fun p e => conv_product p = Some e) ps l -> to_sum (map conv_product ps) = Some (ESum l).
  Proof.
    intros H2 H Hc Hp.
    assert (E : map conv_product ps = map Some l). { clear - Hp. induction Hp as [|p e ps l H _ IH]; cbn; [reflexivity|]. now rewrite H, IH. }
    rewrite E. assert (A : all_some (map Some l) = Some l). { rewrite (all_some_map Some (fun x => x)); [now rewrite map_id|reflexivity]. }
    assert (M : make_sum l = ESum l). { unfold make_sum. now rewrite append_all. }
    unfold to_sum. rewrite A. cbn [option_map]. rewrite M. destruct l as [|x [|y l]]; cbn in H2; [lia..|reflexivity].
  Qed.
End P3.
