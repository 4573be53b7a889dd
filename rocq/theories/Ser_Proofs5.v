(** Sums, and the induction over expressions. *)
From Coq Require Import ZArith List Bool QArith Qcanon String Ascii Lia.
From Verif Require Import Tsr_Model Ser_Model Ser_Spec Ser_Proofs1 Ser_Proofs2 Ser_Proofs3 Ser_Proofs4.
Import ListNotations.
Close Scope Q_scope.
Open Scope Z_scope.
Open Scope list_scope.

Section P5.
  Variable cs : charset.
  Hypothesis U : usual cs.
  Variable real : bool -> str -> str -> option Z -> Q.
  Hypothesis X : exact real.
  Variable torn : str -> str.
  Variables (known : str -> bool) (distinct : list index -> bool) (psort : list index -> list index) (min_tmp : Z).
  Variable fdiv : Q -> Q -> Q.
  Variable annot : bool.
  Variable defaults : symmetry * bksymmetry * colsymmetry.
  Notation skip := (skip cs).
  Notation lit := (lit cs).
  Notation grouped := (grouped cs real torn).
  Notation good := (good cs known distinct psort min_tmp annot defaults).
  Notation conv := (conv distinct known psort min_tmp fdiv defaults).
  Notation conv_product := (conv_product distinct known psort min_tmp fdiv defaults).
  Notation reads := (reads known distinct psort min_tmp fdiv defaults).
  Notation to_string := (to_string annot).
  Notation fstr := (fstr annot).
  Notation closed := (closed cs real torn).
  Notation factor_here := (factor_here cs real torn known distinct psort min_tmp fdiv annot defaults).

  Definition begins (c : Z) : Prop := is_digit c = true \/ alpha cs c = true \/ c = 40.
  Lemma begins_lit c d s : begins c -> d = 43 \/ d = 45 \/ d = 42 \/ d = 41 -> lit d (c :: s) = Fail.
  Proof.
    intros [H|[H|H]] Hd.
    - apply lit_fail. rewrite skip_digit by auto. apply is_digit_iff in H. unfold fails. lia.
    - apply lit_alpha; auto; lia.
    - subst c. apply lit_fail. rewrite skip_solid by (auto; lia). unfold fails. lia.
  Qed.
  Lemma begins_not c : begins c -> c <> 45.
  Proof.
    intros [H|[H|H]]; [apply is_digit_iff in H; lia| |lia]. intros ->. rewrite (u_alpha _ U) in H by lia. discriminate.
  Qed.
  Definition summand_here (e : expr) : Prop := exists (neg : bool) c t, to_string e = (if neg then [45] else []) ++ c :: t /\ begins c /\
    forall f n rest, ends rest -> (List.length (c :: t ++ rest) < f)%nat -> (List.length (c :: t ++ rest) < n)%nat ->
    exists p, p_product cs (grouped f) n (c :: t ++ rest) = Ok p rest /\ conv_product (signed_product neg p) = Some e.
  Definition closing (s : str) : Prop := s = [] \/ exists t, s = 41 :: t.
  Definition sum_here (e : expr) : Prop := forall f rest, closing rest -> (List.length (to_string e ++ rest) < f)%nat ->
    exists l, p_sum cs (grouped f) (to_string e ++ rest) = Ok l rest /\ l <> [] /\ to_sum (map conv_product l) = Some e.
  Definition closed_here (e : expr) : Prop := forall rest, follows rest -> lit 41 rest = Fail \/ (atom e = false /\ is_constant e = false) -> closed (to_string e ++ rest).

  Lemma closing_ends s : closing s -> ends s.
  Proof. intros [->|[t ->]]; [now left|right; left; eauto]. Qed.
  Lemma closing_lit c s : closing s -> c = 43 \/ c = 45 -> lit c s = Fail.
  Proof. intros [->|[t ->]] H; [reflexivity|]. apply lit_fail. rewrite skip_solid by (auto; lia). unfold fails. lia. Qed.
  Lemma product_one f n s a rest : grouped f s = Ok a rest -> ends rest -> (1 <= f)%nat -> (2 <= n)%nat -> p_product cs (grouped f) n s = Ok [a] rest.
  Proof.
    intros H He Hf Hn. destruct n as [|[|n]]; [lia..|]. cbn [p_product]. rewrite H. cbn [bind]. rewrite ends_star by auto.
    now rewrite grouped_ends by (auto; lia).
  Qed.

  (** Constants. *)
  Lemma frac_neg n d : n < 0 -> frac_str n d = 45 :: frac_str (- n) d.
  Proof.
    intros H. unfold frac_str, int_str. destruct (Z.ltb_spec n 0); [|lia]. destruct (Z.ltb_spec (- n) 0); [lia|]. reflexivity.
  Qed.
  Lemma digits_length n d rest : 0 <= n -> (1 <= List.length (frac_str n d ++ rest))%nat.
  Proof. intros H. destruct (frac_head n d rest H) as (c & t & -> & _). cbn. lia. Qed.
  Lemma constant_summand c : real_number c -> summand_here (ECon c).
  Proof.
    destruct c as [q im]. intros Hc. unfold summand_here. cbn [Ser_Model.to_string]. rewrite scalar_frac by exact Hc. destruct Hc as [Hm Hi]. cbn in Hi. subst im.
    cbn [fst]. pose proof Hm as [H1 H2]. cbn [fst] in *. assert (D : 0 < denom q) by (unfold denom; lia).
    destruct (Z.ltb_spec (numer q) 0).
    - exists true. rewrite frac_neg by assumption. destruct (frac_head (- numer q) (denom q) [] ltac:(lia)) as (d & t & E & Hd). rewrite app_nil_r in E. rewrite E.
      exists d, t. split; [reflexivity|]. split; [now left|]. intros f n rest He Hf Hn. cbn [List.length] in *. eexists. split.
      + apply product_one; [|exact He|lia|lia]. change (d :: t ++ rest) with ((d :: t) ++ rest). rewrite <- E.
        apply grouped_frac; auto; try lia. apply follows_num; auto. now apply ends_follows.
      + now apply conv_minus_constant.
    - exists false. destruct (frac_head (numer q) (denom q) [] ltac:(lia)) as (d & t & E & Hd). rewrite app_nil_r in E. rewrite E.
      exists d, t. split; [reflexivity|]. split; [now left|]. intros f n rest He Hf Hn. cbn [List.length] in *. eexists. split.
      + apply product_one; [|exact He|lia|lia]. change (d :: t ++ rest) with ((d :: t) ++ rest). rewrite <- E.
        apply grouped_frac; auto; try lia. apply follows_num; auto. now apply ends_follows.
      + unfold Ser_Model.conv_product, signed_product. cbn [map to_product Ser_Model.conv]. unfold denom in *. rewrite to_constant_frac by assumption. cbn [option_map]. now rewrite q_eta.
  Qed.
  Lemma constant_closed c : real_number c -> closed_here (ECon c).
  Proof.
    intros Hc rest Hr [H|[_ H]]; [|discriminate]. cbn [Ser_Model.to_string]. rewrite scalar_frac by exact Hc. destruct Hc as [[H1 H2] _].
    apply closed_frac; auto; [unfold denom in *; lia|]. now apply follows_num.
  Qed.

  (** Atoms. *)
  Lemma atom_head e : good e -> atom e = true -> exists c t, to_string e = c :: t /\ begins c.
  Proof.
    intros He Ha. destruct (fstr_head cs U known distinct psort min_tmp annot defaults e He) as (c & t & E & Hc); [now destruct e|].
    exists c, t. split; [|unfold begins; tauto]. destruct e; try discriminate Ha; exact E.
  Qed.
  Lemma atom_summand e : good e -> atom e = true -> summand_here e.
  Proof.
    intros He Ha. exists false. destruct (atom_head e He Ha) as (c & t & E & Hc). exists c, t. split; [exact E|]. split; [exact Hc|].
    intros f n rest Hr Hf Hn. cbn [List.length] in *.
    destruct (atom_here cs U real X torn known distinct psort min_tmp fdiv annot defaults f e rest) as (a & Ga & Ra & _); auto.
    { eapply atom_good; eauto. } { now apply ends_follows. } { lia. }
    exists [a]. split; [|exact Ra]. rewrite E in Ga. apply product_one; auto; lia.
  Qed.

  (** Products. *)
  Lemma prod_str c fs : to_string (EProd c fs) = (if is_one c then [] else scalar_str c ++ txt " ") ++ stars (map fstr fs).
  Proof. reflexivity. Qed.
  Lemma stars_head fs rest : fs <> [] -> (forall f, In f fs -> good f) -> (forall f, In f fs -> is_constant f = false) ->
    exists c t, stars (map fstr fs) ++ rest = c :: t /\ (alpha cs c = true \/ c = 40).
  Proof.
    intros Hne Hg Hc. destruct fs as [|x fs]; [congruence|].
    destruct (fstr_head cs U known distinct psort min_tmp annot defaults x (Hg x (or_introl eq_refl)) (Hc x (or_introl eq_refl))) as (c & t & E & H).
    destruct fs as [|y fs]; cbn [map stars]; rewrite E; cbn; eauto.
  Qed.
  Lemma stop_space c t : alpha cs c = true \/ c = 40 -> num_stop cs (32 :: c :: t).
  Proof.
    intros Hc. split; [reflexivity|]. rewrite skip_space by auto. destruct Hc as [H| ->].
    - rewrite skip_alpha by auto. cbn. assert (N : 0 <= c < 128 -> 65 <= c <= 90 \/ 97 <= c <= 122).
      { intros Hc. rewrite (u_alpha _ U) in H by exact Hc. lia. }
      destruct (Z.eqb_spec c 47); [lia|]. destruct (Z.eqb_spec c 94); [lia|]. reflexivity.
    - rewrite skip_solid by (auto; lia). reflexivity.
  Qed.
  Lemma number_then f n m d s : Z.abs m <= 9007199254740992 -> 0 < d <= 9007199254740992 -> (exists c t, s = c :: t /\ (alpha cs c = true \/ c = 40)) ->
    (1 <= f)%nat -> forall l rest, p_product cs (grouped f) n s = Ok l rest ->
    p_product cs (grouped f) (S n) (frac_str m d ++ 32 :: s) = Ok (ANum (Fin (Qmake m 1)) (Fin (Qmake d 1)) :: l) rest.
  Proof.
    intros Hm Hd (c & t & -> & Hc) Hf l rest H. cbn [p_product]. rewrite grouped_frac by (auto using stop_space). cbn [bind].
    assert (L : lit 42 (32 :: c :: t) = Fail). { rewrite lit_space by auto. apply begins_lit; [unfold begins; tauto|lia]. }
    rewrite L, p_product_space by auto. now rewrite H.
  Qed.
  Lemma product_summand c fs : real_number c -> fs <> [] -> (c = (1, 0)%Qc -> (2 <= List.length fs)%nat) ->
    (forall f, In f fs -> good f) -> (forall f, In f fs -> is_constant f = false) -> (forall f, In f fs -> factor_here f) -> summand_here (EProd c fs).
  Proof.
    intros Hc Hne H2 Hg Hk HF. unfold summand_here. rewrite prod_str. destruct (is_one c) eqn:E1.
    - apply is_one_iff in E1. subst c. exists false. cbn [app].
      destruct (stars_head fs [] Hne Hg Hk) as (d & t & Ed & Hd). rewrite app_nil_r in Ed. rewrite Ed.
      exists d, t. split; [reflexivity|]. split; [unfold begins; tauto|]. intros f n rest He Hf Hn.
      change (d :: t ++ rest) with ((d :: t) ++ rest) in *. rewrite <- Ed in *.
      destruct (product_here cs U real torn known distinct psort min_tmp fdiv annot defaults f fs rest Hne HF He n Hf Hn) as (l & Hl & R).
      exists l. split; [exact Hl|]. cbn [signed_product]. apply conv_unscaled; auto.
    - rewrite scalar_frac by exact Hc. destruct c as [q im], Hc as [Hm Hi]. cbn in Hi. subst im. cbn [fst] in *. pose proof Hm as [B1 B2]. cbn [fst] in *.
      assert (D : 0 < denom q) by (unfold denom; lia). rewrite <- !app_assoc.
      change (txt " " ++ ?x) with (32 :: x).
      assert (Go : forall (m : Z) (f n : nat) (rest : str), Z.abs m <= 9007199254740992 -> 0 <= m -> ends rest -> (@List.length Z ((frac_str m (denom q) ++ 32%Z :: stars (map fstr fs)) ++ rest) < f)%nat ->
         (@List.length Z ((frac_str m (denom q) ++ 32%Z :: stars (map fstr fs)) ++ rest) < n)%nat ->
         exists l, p_product cs (grouped f) n ((frac_str m (denom q) ++ 32 :: stars (map fstr fs)) ++ rest) = Ok (ANum (Fin (Qmake m 1)) (Fin (Qmake (denom q) 1)) :: l) rest /\ Forall2 reads l fs).
      { intros m f n rest Hm' Hm0 He Hf Hn. rewrite <- !app_assoc in *. cbn [app] in *. pose proof (digits_length m (denom q) (32 :: stars (map fstr fs) ++ rest) Hm0) as L1.
        rewrite app_length in Hf, Hn. cbn [List.length] in Hf, Hn. destruct n as [|n]; [lia|].
        assert (L2 : (1 <= List.length (frac_str m (denom q)))%nat). { pose proof (digits_length m (denom q) [] Hm0) as L2. now rewrite app_nil_r in L2. }
        destruct (product_here cs U real torn known distinct psort min_tmp fdiv annot defaults f fs rest Hne HF He n) as (l & Hl & R); [lia..|].
        exists l. split; [|exact R]. apply number_then; auto; try lia. now apply stars_head. }
      destruct (Z.ltb_spec (numer q) 0).
      + exists true. rewrite frac_neg by assumption. destruct (frac_head (- numer q) (denom q) (32 :: stars (map fstr fs)) ltac:(lia)) as (d & t & Ed & Hd).
        exists d, t. split; [cbn [app]; now rewrite Ed|]. split; [now left|]. intros f n rest He Hf Hn. change (d :: t ++ rest) with ((d :: t) ++ rest) in *. rewrite <- Ed in *.
        destruct (Go (- numer q) f n rest) as (l & -> & R); auto; try lia. eexists. split; [reflexivity|]. now apply conv_minus_scaled.
      + exists false. destruct (frac_head (numer q) (denom q) (32 :: stars (map fstr fs)) ltac:(lia)) as (d & t & Ed & Hd).
        exists d, t. split; [cbn [app]; now rewrite Ed|]. split; [now left|]. intros f n rest He Hf Hn. change (d :: t ++ rest) with ((d :: t) ++ rest) in *. rewrite <- Ed in *.
        destruct (Go (numer q) f n rest) as (l & -> & R); auto; try lia. eexists. split; [reflexivity|].
        apply (conv_scaled known distinct psort min_tmp fdiv defaults q l fs); auto.
  Qed.
  Lemma product_closed c fs : real_number c -> fs <> [] -> (c = (1, 0)%Qc -> (2 <= List.length fs)%nat) ->
    (forall f, In f fs -> good f) -> (forall f, In f fs -> is_constant f = false) -> (forall f, In f fs -> closed_here f) -> closed_here (EProd c fs).
  Proof.
    intros Hc Hne H2 Hg Hk HC rest Hr _. rewrite prod_str. destruct (is_one c) eqn:E1.
    - apply is_one_iff in E1. apply H2 in E1. destruct fs as [|x [|y fs]]; cbn in E1; try lia. cbn [app].
      change (map fstr (x :: y :: fs)) with (fstr x :: fstr y :: map fstr fs). rewrite stars_cons, <- !app_assoc.
      change (txt " * " ++ ?s) with (32 :: 42 :: 32 :: s). set (s := stars (fstr y :: map fstr fs) ++ rest).
      assert (Fs : follows (32 :: 42 :: 32 :: s)). { right. right. exists 42, s. split; [reflexivity|]. cbn. tauto. }
      assert (F41 : lit 41 (32 :: 42 :: 32 :: s) = Fail). { rewrite lit_space by auto. apply lit_fail. rewrite skip_solid by (auto; lia). reflexivity. }
      pose proof (HC x (or_introl eq_refl)) as Cx. destruct (atom x) eqn:Ax.
      + assert (Fx : fstr x = to_string x) by (destruct x; try discriminate Ax; reflexivity). rewrite Fx. apply Cx; auto.
      + pose proof (Hk x (or_introl eq_refl)) as Kx.
        assert (Fx : fstr x = txt "(" ++ to_string x ++ txt ")") by (destruct x; try discriminate Ax; try discriminate Kx; reflexivity).
        rewrite Fx, <- !app_assoc. change (txt "(" ++ ?z) with (40 :: z). change (txt ")" ++ ?z) with (41 :: z).
        destruct (Cx (41 :: 32 :: 42 :: 32 :: s)) as [C1 _]; [right; left; eauto|right; auto|].
        split; [left; now apply numvar_40|left; now apply closed_core].
    - rewrite scalar_frac by exact Hc. destruct Hc as [[B1 B2] _]. rewrite <- !app_assoc. change (txt " " ++ ?x) with (32 :: x).
      destruct (stars_head fs rest Hne Hg Hk) as (d & t & -> & Hd).
      apply closed_frac; auto; [unfold denom in *; lia|now apply stop_space|]. rewrite lit_space by auto. apply begins_lit; [unfold begins; tauto|lia].
  Qed.

  (** Sums. *)
  Definition addends (l : list expr) : str := flat_map (fun x => addend_str (snd x) (is_sum (fst x))) (map (fun f => (f, to_string f)) l).
  Lemma addend_plus c t : c <> 45 -> addend_str (c :: t) false = txt " + " ++ c :: t.
  Proof.
    intros H. unfold addend_str. destruct c as [|c|c]; try reflexivity. do 6 (destruct c as [c|c|]; try reflexivity). congruence.
  Qed.
  Lemma addend_minus t : addend_str (45 :: t) false = txt " - " ++ t.
  Proof. reflexivity. Qed.
  Lemma addends_ends l rest : (forall e, In e l -> is_sum e = false /\ to_string e <> []) -> closing rest -> ends (addends l ++ rest) /\ (l <> [] -> lit 41 (addends l ++ rest) = Fail).
  Proof.
    intros Hl Hr. destruct l as [|e l]; [split; [now apply closing_ends|congruence]|]. unfold addends. cbn [map flat_map fst snd].
    destruct (Hl e (or_introl eq_refl)) as [Hs He]. rewrite Hs. destruct (to_string e) as [|c t]; [congruence|].
    assert (E : exists d u, addend_str (c :: t) false = 32 :: d :: 32 :: u /\ (d = 43 \/ d = 45)).
    { destruct (Z.eq_dec c 45) as [->|Hc]; [rewrite addend_minus|rewrite addend_plus by exact Hc]; cbn; eauto 6. }
    destruct E as (d & u & -> & Hd). cbn [app]. split.
    - right. right. eexists d, _. split; [reflexivity|]. cbn. lia.
    - intros _. rewrite lit_space by auto. apply lit_fail. rewrite skip_solid by (auto; lia). unfold fails. lia.
  Qed.
  Lemma summand_nonempty e : summand_here e -> to_string e <> [].
  Proof. intros (neg & c & t & E & _). rewrite E. now destruct neg. Qed.
  Lemma addend_here e (neg : bool) c t : to_string e = (if neg then [45] else []) ++ c :: t -> begins c ->
    addend_str (to_string e) false = 32 :: (if neg then 45 else 43) :: 32 :: c :: t.
  Proof.
    intros E Hc. rewrite E. destruct neg; cbn [app]; [reflexivity|]. rewrite addend_plus by now apply begins_not. reflexivity.
  Qed.
  Lemma addends_here f rest l : (forall e, In e l -> summand_here e) -> (forall e, In e l -> is_sum e = false) -> closing rest -> forall n,
    (List.length (addends l ++ rest) < f)%nat -> (List.length (addends l ++ rest) < n)%nat ->
    exists ps, p_addends cs (grouped f) n (addends l ++ rest) = Ok ps rest /\ Forall2 (fun p e => conv_product p = Some e) ps l.
  Proof.
    intros HS Hs Hr. induction l as [|e l IH]; intros n Hf Hn.
    - destruct n as [|n]; [lia|]. exists []. split; [|constructor]. cbn [addends map flat_map app p_addends]. now rewrite !closing_lit by auto.
    - destruct n as [|n]; [lia|].
      assert (Ends : ends (addends l ++ rest)). { apply addends_ends; [|exact Hr]. intros x Hx. split; [apply Hs; now right|apply summand_nonempty, HS; now right]. }
      change (addends (e :: l)) with (addend_str (to_string e) (is_sum e) ++ addends l) in *. rewrite (Hs e (or_introl eq_refl)) in *. rewrite <- app_assoc in *.
      destruct (HS e (or_introl eq_refl)) as (neg & c & t & E & Hc & HP). rewrite (addend_here e neg c t E Hc) in *. cbn [app List.length] in *. cbn [p_addends].
      assert (Sg : either (bind (lit 43 (32 :: (if neg then 45 else 43) :: 32 :: c :: t ++ addends l ++ rest)) (fun _ s1 => Ok false s1))
                          (bind (lit 45 (32 :: (if neg then 45 else 43) :: 32 :: c :: t ++ addends l ++ rest)) (fun _ s1 => Ok true s1)) = Ok neg (32 :: c :: t ++ addends l ++ rest)).
      { rewrite !lit_space by auto. destruct neg.
        - rewrite lit_fail; [|rewrite skip_solid by (auto; lia); reflexivity]. rewrite lit_here by (auto; lia). reflexivity.
        - rewrite lit_here by (auto; lia). reflexivity. }
      rewrite Sg. unfold product. rewrite p_product_space by auto.
      destruct (HP f (S (List.length (32 :: c :: t ++ addends l ++ rest))) (addends l ++ rest) Ends) as (p & -> & Q); [cbn [List.length]; lia..|].
      cbn [bind must].
      destruct (IH (fun x Hx => HS x (or_intror Hx)) (fun x Hx => Hs x (or_intror Hx)) n) as (ps & -> & HF); [rewrite ?app_length in *; lia..|].
      exists (signed_product neg p :: ps). split; [reflexivity|]. now constructor.
  Qed.
  Lemma first_here f s e : summand_here e -> ends s -> (List.length (to_string e ++ s) < f)%nat ->
    exists p, (match lit 45 (to_string e ++ s) with
               | Ok _ s1 => bind (product cs (grouped f) s1) (fun p s2 => Ok (signed_product true p) s2)
               | _ => product cs (grouped f) (match lit 43 (to_string e ++ s) with Ok _ t => t | _ => to_string e ++ s end)
               end) = Ok p s /\ conv_product p = Some e.
  Proof.
    intros (neg & c & t & E & Hc & HP) Hs Hf. rewrite E in *. destruct neg; cbn [app List.length] in *.
    - rewrite lit_here by (auto; lia). unfold product.
      destruct (HP f (S (List.length (c :: t ++ s))) s Hs) as (p & -> & Q); [cbn [List.length]; lia..|]. cbn [bind]. eauto.
    - rewrite !begins_lit by auto. unfold product.
      destruct (HP f (S (List.length (c :: t ++ s))) s Hs) as (p & -> & Q); [cbn [List.length]; lia..|]. eauto.
  Qed.
  Lemma p_sum_here f e l rest : (forall x, In x (e :: l) -> summand_here x) -> (forall x, In x (e :: l) -> is_sum x = false) -> closing rest ->
    (List.length (to_string e ++ addends l ++ rest) < f)%nat ->
    exists ps, p_sum cs (grouped f) (to_string e ++ addends l ++ rest) = Ok ps rest /\ Forall2 (fun p x => conv_product p = Some x) ps (e :: l).
  Proof.
    intros HS Hs Hr Hf.
    assert (Ends : ends (addends l ++ rest)). { apply addends_ends; [|exact Hr]. intros x Hx. split; [apply Hs; now right|apply summand_nonempty, HS; now right]. }
    destruct (first_here f (addends l ++ rest) e (HS e (or_introl eq_refl)) Ends Hf) as (p & P & Q).
    destruct (addends_here f rest l (fun x Hx => HS x (or_intror Hx)) (fun x Hx => Hs x (or_intror Hx)) Hr (S (List.length (addends l ++ rest)))) as (ps & Ps & HF);
      [rewrite app_length in Hf; lia|lia|].
    exists (p :: ps). split; [|now constructor]. unfold p_sum. rewrite P. cbn [bind]. rewrite Ps. reflexivity.
  Qed.
  Lemma summand_sum e : is_sum e = false -> summand_here e -> sum_here e.
  Proof.
    intros Hs He f rest Hr Hf. destruct (p_sum_here f e [] rest) as (ps & P & HF); auto.
    { intros x [<-|[]]. exact He. } { intros x [<-|[]]. exact Hs. }
    exists ps. split; [exact P|]. inversion HF as [|p x ps' l' Hp Hl]; subst. inversion Hl; subst. split; [discriminate|]. cbn. exact Hp.
  Qed.
  Lemma sum_sum l : (2 <= List.length l)%nat -> (forall x, In x l -> is_sum x = false /\ is_zero x = false) -> (List.length (filter is_constant l) <= 1)%nat ->
    (forall x, In x l -> summand_here x) -> sum_here (ESum l).
  Proof.
    intros H2 Hz Hc HS f rest Hr Hf. destruct l as [|e l]; [cbn in H2; lia|].
    assert (Es : to_string (ESum (e :: l)) = to_string e ++ addends l). { cbn [Ser_Model.to_string map sum_str]. rewrite (proj1 (Hz e (or_introl eq_refl))). reflexivity. }
    rewrite Es, <- app_assoc in *. destruct (p_sum_here f e l rest) as (ps & P & HF); auto.
    { intros x Hx. now apply Hz. }
    exists ps. split; [exact P|]. split; [intros ->; inversion HF|]. now apply to_sum_here.
  Qed.
  Lemma sum_closed l : (2 <= List.length l)%nat -> (forall x, In x l -> is_sum x = false) ->
    (forall x, In x l -> summand_here x) -> (forall x, In x l -> closed_here x) -> (forall x, In x l -> good x) -> closed_here (ESum l).
  Proof.
    intros H2 Hs HS HC Hg rest Hr _. destruct l as [|e [|y l]]; cbn in H2; try lia.
    assert (Es : to_string (ESum (e :: y :: l)) = to_string e ++ addends (y :: l)). { cbn [Ser_Model.to_string map sum_str]. rewrite (Hs e (or_introl eq_refl)). reflexivity. }
    rewrite Es, <- app_assoc.
    change (addends (y :: l)) with (addend_str (to_string y) (is_sum y) ++ addends l). rewrite (Hs y (or_intror (or_introl eq_refl))).
    destruct (HS y (or_intror (or_introl eq_refl))) as (neg & c & t & E & Hc & _). rewrite (addend_here y neg c t E Hc). cbn [app].
    apply (HC e (or_introl eq_refl)).
    - right. right. eexists (if neg then 45 else 43), _. split; [reflexivity|]. destruct neg; cbn; tauto.
    - left. rewrite lit_space by auto. apply lit_fail. destruct neg; rewrite skip_solid by (auto; lia); reflexivity.
  Qed.

  (** A product or a sum in parentheses. *)
  Lemma group_here e : atom e = false -> is_constant e = false -> sum_here e -> closed_here e -> factor_here e.
  Proof.
    intros Ha Hk HS HC f rest Hr Hf. destruct f as [|f]; [lia|].
    assert (Fx : fstr e = txt "(" ++ to_string e ++ txt ")") by (destruct e; try discriminate Ha; try discriminate Hk; reflexivity).
    rewrite Fx, <- !app_assoc in *. change (txt "(" ++ ?z) with (40 :: z) in *. change (txt ")" ++ ?z) with (41 :: z) in *.
    cbn [Ser_Model.grouped]. rewrite closed_power; auto.
    2:{ apply HC; [right; left; eauto|right; auto]. }
    cbn [either]. rewrite lit_here by (auto; lia). cbn [bind].
    destruct (HS f (41 :: rest)) as (l & -> & Hl & Q); [right; eauto|cbn [List.length] in Hf; lia|]. cbn [bind must]. rewrite lit_here by (auto; lia). cbn [bind must either].
    eexists. split; [reflexivity|]. split; [exact Q|reflexivity].
  Qed.

  Definition all_here (e : expr) : Prop := (is_constant e = false -> factor_here e) /\ (is_sum e = false -> summand_here e) /\ sum_here e /\ closed_here e.
  Lemma good_here e : good e -> all_here e.
  Proof.
    induction 1 as [e He|c fs Hc Hne H2 Hg IH Hk|l H2 Hg IH Hz Hk].
    - destruct (is_constant e) eqn:K.
      + destruct e; try discriminate K. pose proof (constant_summand c He) as S. split; [discriminate|]. split; [auto|]. split; [now apply summand_sum|now apply constant_closed].
      + destruct (atom e) eqn:A; [|destruct e; try discriminate A; try discriminate K; destruct He].
        assert (G : good e) by now apply good_atom. pose proof (atom_summand e G A) as S.
        assert (is_sum e = false) by (destruct e; try reflexivity; discriminate A).
        split; [|split; [auto|split; [now apply summand_sum|]]].
        * intros _ f rest Hr Hf. assert (Fx : fstr e = to_string e) by (destruct e; try discriminate A; reflexivity). rewrite Fx in *.
          apply atom_here; auto. lia.
        * intros rest Hr [H41|[A' _]]; [|congruence]. apply (atom_closed cs U real X torn known distinct psort min_tmp annot defaults); auto.
    - assert (S : summand_here (EProd c fs)). { apply product_summand; auto. intros f Hf. now apply (proj1 (IH f Hf)), Hk. }
      assert (C : closed_here (EProd c fs)). { apply product_closed; auto. intros f Hf. apply (IH f Hf). }
      assert (T : sum_here (EProd c fs)) by now apply summand_sum.
      split; [|split; [auto|split; auto]]. intros _. now apply group_here.
    - assert (HS : forall x, In x l -> summand_here x). { intros x Hx. apply (IH x Hx). now apply Hz. }
      assert (C : closed_here (ESum l)). { apply sum_closed; auto. { intros x Hx. now apply Hz. } intros x Hx. apply (IH x Hx). }
      assert (T : sum_here (ESum l)) by now apply sum_sum.
      split; [|split; [discriminate|split; auto]]. intros _. now apply group_here.
  Qed.
  Theorem round_trip e : good e -> from_string cs real torn distinct known psort min_tmp fdiv defaults (to_string e) = Expression e.
  Proof.
    intros He. destruct (good_here e He) as (_ & _ & HS & _).
    destruct (HS (S (List.length (to_string e))) []) as (l & P & Hl & Q); [now left|rewrite app_nil_r; lia|]. rewrite app_nil_r in P.
    unfold from_string, parse. rewrite P. cbn [optional bind]. change (skip []) with (@nil Z). cbv iota.
    destruct l as [|p l]; [congruence|]. now rewrite Q.
  Qed.
End P5.
