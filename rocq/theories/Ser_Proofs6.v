(** Reading ends for every text: the fuel does not run out. *)
From Coq Require Import ZArith List Bool QArith Qcanon String Ascii Lia Arith.
From Verif Require Import Tsr_Model Ser_Model Ser_Spec Ser_Proofs1.
Import ListNotations.
Close Scope Q_scope.
Open Scope nat_scope.
Open Scope list_scope.

Definition under {A} (n : nat) (r : res A) : Prop := match r with Ok _ t => List.length t < n | Fuel => False | _ => True end.
Lemma under_bind {A B} m n (r : res A) (k : A -> str -> res B) : under m r -> (forall a t, List.length t < m -> under n (k a t)) -> under n (bind r k).
Proof. destruct r; cbn; auto. Qed.
Lemma under_must {A} n (r : res A) : under n r -> under n (must r).
Proof. now destruct r. Qed.
Lemma under_either {A} n (r r' : res A) : under n r -> under n r' -> under n (either r r').
Proof. now destruct r. Qed.
Lemma under_optional {A} n (r : res A) s : under n r -> List.length s < n -> under n (optional r s).
Proof. now destruct r. Qed.
Lemma under_le {A} m n (r : res A) : under m r -> m <= n -> under n r.
Proof. destruct r; cbn; auto. lia. Qed.
Lemma under_ok {A} n (a : A) t : List.length t < n -> under n (Ok a t).
Proof. auto. Qed.

Section Total.
  Variable cs : charset.
  Variable real : bool -> str -> str -> option Z -> Q.
  Variable torn : str -> str.

  Lemma span_snd p s : List.length (snd (span p s)) <= List.length s.
  Proof. pose proof (span_length p s). lia. Qed.
  Lemma span_pair p s a b : span p s = (a, b) -> List.length a + List.length b = List.length s.
  Proof. intros E. pose proof (span_length p s) as H. rewrite E in H. exact H. Qed.
  Lemma under_lit0 c s : under (List.length s) (lit0 c s).
  Proof. unfold lit0. destruct s as [|x s]; cbn; [trivial|]. destruct (x ==? c); cbn; auto. Qed.
  Lemma under_lit c s : under (List.length s) (lit cs c s).
  Proof. unfold lit. eapply under_le; [apply under_lit0|]. apply span_snd. Qed.
  Lemma under_name s : under (List.length s) (name cs torn s).
  Proof.
    destruct s as [|c s]; cbn; [trivial|]. destruct (alpha cs c); cbn; [|trivial]. destruct (span (word cs) s) as [w t] eqn:E. apply span_pair in E.
    destruct w as [|x [|y w]]; [cbn; lia|..]; (destruct (_ ==? 95); cbn in *; lia).
  Qed.
  Lemma p_sign_le s : List.length (snd (p_sign s)) <= List.length s.
  Proof. destruct s as [|c s]; cbn; [lia|]. destruct (c ==? 45); cbn; [lia|]. destruct (c ==? 43); cbn; lia. Qed.
  Lemma p_nan_lt s t : p_nan s = Some t -> List.length t < List.length s.
  Proof.
    destruct s as [|a [|b [|c s]]]; try discriminate. unfold p_nan. destruct (_ && _ && _); [|discriminate].
    assert (D : forall u, Some s = Some u -> List.length u < List.length (a :: b :: c :: s)) by (intros u [= <-]; cbn; lia).
    destruct s as [|z s]; [apply D|]. 
    assert (P : forall u, (match span (fun x => negb (x ==? 41)) s with (_, _ :: t') => Some t' | _ => None end) = Some u -> List.length u < List.length (a :: b :: c :: z :: s)).
    { intros u. destruct (span (fun x => negb (x ==? 41)) s) as [x [|y r]] eqn:E; [discriminate|]. intros [= <-]. apply span_pair in E. cbn in *. lia. }
    destruct z as [|z|z]; try apply D. do 6 (destruct z as [z|z|]; try apply D). apply P.
  Qed.
  Lemma p_inf_lt s t : p_inf s = Some t -> List.length t < List.length s.
  Proof.
    destruct s as [|a [|b [|c s]]]; try discriminate. unfold p_inf. destruct (letter 105 73 a && letter 110 78 b && letter 102 70 c)%bool; [|discriminate].
    destruct s as [|d [|e [|f [|g [|h s]]]]]; try (intros [= <-]; cbn; lia). destruct (_ && _)%bool; intros [= <-]; cbn; lia.
  Qed.
  Lemma p_exp_le s : List.length (snd (p_exp s)) <= List.length s.
  Proof.
    destruct s as [|c s]; cbn; [lia|]. destruct (letter 101 69 c); [|cbn; lia]. pose proof (p_sign_le s) as H. destruct (p_sign s) as [neg t]. cbn in H.
    destruct (span is_digit t) as [ds u] eqn:E. apply span_pair in E. destruct ds as [|d ds]; cbn in *; lia.
  Qed.
  Lemma under_real s : under (List.length s) (p_real cs real s).
  Proof.
    unfold p_real. pose proof (p_sign_le (skip cs s)) as H1. pose proof (span_snd (blank cs) s) as H0. fold (skip cs s) in H0.
    destruct (p_sign (skip cs s)) as [neg s1]. cbn [snd] in H1. destruct (span is_digit s1) as [ds s2] eqn:E. apply span_pair in E.
    destruct ds as [|d ds].
    - destruct (p_nan s1) as [t|] eqn:N; [apply p_nan_lt in N; cbn; lia|]. destruct (p_inf s1) as [t|] eqn:I; [apply p_inf_lt in I; cbn; lia|].
      destruct s2 as [|z s3]; [exact Logic.I|].
      assert (P : under (List.length s) (match span is_digit s3 with ([], _) => Fail | (fs, s4) => let (e, s5) := p_exp s4 in Ok (Fin (real neg [] fs e)) s5 end)).
      { destruct (span is_digit s3) as [fs s4] eqn:F. apply span_pair in F. destruct fs as [|f fs]; [exact Logic.I|]. pose proof (p_exp_le s4) as H2. destruct (p_exp s4) as [e s5].
        cbn in *. lia. }
      destruct z as [|z|z]; try exact Logic.I. do 6 (destruct z as [z|z|]; try exact Logic.I). exact P.
    - assert (D : under (List.length s) (let (e, s5) := p_exp s2 in Ok (Fin (real neg (d :: ds) [] e)) s5)).
      { pose proof (p_exp_le s2) as H2. destruct (p_exp s2) as [e s5]. cbn in *. lia. }
      destruct s2 as [|z s3]; [exact D|].
      assert (P : under (List.length s) (let (fs, s4) := span is_digit s3 in let (e, s5) := p_exp s4 in Ok (Fin (real neg (d :: ds) fs e)) s5)).
      { destruct (span is_digit s3) as [fs s4] eqn:F. apply span_pair in F. pose proof (p_exp_le s4) as H2. destruct (p_exp s4) as [e s5]. cbn in *. lia. }
      destruct z as [|z|z]; try exact D. do 6 (destruct z as [z|z|]; try exact D). exact P.
  Qed.
  Lemma under_number s : under (List.length s) (p_number cs real s).
  Proof.
    unfold p_number. eapply under_bind; [apply under_real|]. intros n t Ht. eapply (under_bind (List.length s)).
    - apply under_optional; [|exact Ht]. eapply under_bind; [apply under_lit|]. intros _ u Hu. eapply under_le; [apply under_real|]. lia.
    - intros o u Hu. exact Hu.
  Qed.
  Lemma under_variable s : under (List.length s) (p_variable cs torn s).
  Proof.
    pose proof (span_snd (blank cs) s) as H0. fold (skip cs s) in H0. unfold p_variable. eapply under_bind; [apply under_name|]. intros n t Ht. eapply (under_bind (List.length s)).
    - apply under_optional; [|lia]. eapply under_bind; [apply under_lit0|]. intros _ u Hu. eapply under_le; [apply under_lit0|]. lia.
    - intros o u Hu. exact Hu.
  Qed.
  Lemma under_ilabel s : under (List.length s) (p_ilabel cs s).
  Proof.
    pose proof (span_snd (blank cs) s) as H0. fold (skip cs s) in H0. unfold p_ilabel. destruct (span (index_char cs) (skip cs s)) as [n s1] eqn:E. apply span_pair in E.
    destruct n as [|c n]; [exact Logic.I|].
    set (s2 := match s1 with 95%Z :: t => t | _ => s1 end).
    assert (H2 : List.length s2 <= List.length s1). { subst s2. destruct s1 as [|z s1]; [cbn; lia|]. destruct z as [|z|z]; try reflexivity. do 7 (destruct z as [z|z|]; try reflexivity). cbn. lia. }
    destruct (span is_digit s2) as [ds s3] eqn:F. apply span_pair in F. destruct ds as [|d ds]; [exact Logic.I|]. destruct (_ <=? _)%Z; cbn in *; [lia|trivial].
  Qed.
  Lemma under_list {A} (p : str -> res A) : (forall s, under (List.length s) (p s)) -> forall n s, List.length s < n -> under (List.length s) (p_list cs p n s).
  Proof.
    intros Hp. induction n as [|n IH]; intros s Hs; [lia|]. cbn [p_list]. eapply under_bind; [apply Hp|]. intros a t Ht.
    assert (R : under (List.length t) (bind (lit cs 44 t) (fun _ => p_list cs p n))).
    { eapply under_bind; [apply under_lit|]. intros _ u Hu. eapply under_le; [apply IH; lia|lia]. }
    destruct (bind (lit cs 44 t) (fun _ => p_list cs p n)); cbn in *; auto; lia.
  Qed.
  Lemma under_commalist {A} (p : str -> res A) s : (forall s, under (List.length s) (p s)) -> under (List.length s) (commalist cs p s).
  Proof. intros Hp. apply under_list; auto. Qed.
  Lemma under_index s : under (List.length s) (p_index cs s).
  Proof.
    unfold p_index. eapply under_bind; [apply under_ilabel|]. intros l t Ht. eapply (under_bind (List.length s)).
    - apply under_optional; [|exact Ht]. eapply under_bind; [apply under_lit|]. intros _ u Hu. eapply under_bind; [apply under_commalist, under_ilabel|]. intros ps v Hv.
      eapply under_bind; [apply under_lit|]. intros _ w Hw. cbn. lia.
    - intros o u Hu. exact Hu.
  Qed.
  Lemma under_indices s : under (S (List.length s)) (p_indices cs s).
  Proof.
    unfold p_indices. eapply (under_bind (S (List.length s))).
    - apply under_optional; [|lia]. eapply under_le; [apply under_commalist, under_index|lia].
    - intros o u Hu. exact Hu.
  Qed.
  Lemma under_semi s : under (S (List.length s)) (p_semi cs s).
  Proof.
    unfold p_semi. eapply (under_bind (S (List.length s))).
    - apply under_optional; [|lia]. eapply under_bind; [apply under_lit|]. intros _ t Ht. apply under_must. eapply under_le; [apply under_indices|lia].
    - intros o u Hu. exact Hu.
  Qed.
  Lemma under_two a b c d s : under (List.length s) (p_two cs a b c d s).
  Proof.
    unfold p_two. eapply (under_bind (List.length s)).
    { eapply under_bind; [apply under_lit|]. intros _ t Ht. eapply under_le; [apply under_lit0|lia]. }
    intros _ t Ht. eapply under_bind; [apply under_must, under_indices|]. intros x u Hu.
    eapply (under_bind (List.length u)).
    { apply under_must. eapply (under_bind (List.length u)).
      - eapply under_bind; [apply under_lit|]. intros _ v Hv. eapply under_le; [apply under_lit0|lia].
      - intros _ v Hv. eapply under_le; [apply under_lit0|lia]. }
    intros _ v Hv. eapply under_bind; [apply under_must, under_indices|]. intros y w Hw.
    eapply under_bind; [apply under_must, under_lit|]. intros _ z Hz. cbn. lia.
  Qed.
  Lemma under_groups s : under (List.length s) (p_groups cs s).
  Proof.
    unfold p_groups. apply under_either; [eapply under_bind; [apply under_two|]; intros x t Ht; exact Ht|].
    apply under_either; [eapply under_bind; [apply under_two|]; intros x t Ht; exact Ht|].
    eapply under_bind; [apply under_lit|]. intros _ t Ht. eapply under_bind; [apply under_must, under_indices|]. intros x u Hu.
    eapply under_bind; [apply under_must, under_semi|]. intros y v Hv. eapply under_bind; [apply under_must, under_semi|]. intros z w Hw.
    eapply under_bind; [apply under_must, under_lit|]. intros _ r Hr. cbn. lia.
  Qed.
  Lemma under_upper s : under (List.length s) (p_upper cs s).
  Proof. destruct s as [|c s]; cbn; [trivial|]. destruct (upper cs c); cbn; auto. Qed.
  Lemma under_symm s : under (List.length s) (p_symm cs s).
  Proof.
    unfold p_symm. eapply under_bind; [apply under_lit0|]. intros _ t Ht. eapply under_bind; [apply under_upper|]. intros a u Hu.
    assert (O : forall v, under (S (List.length v)) (optional (bind (lit0 45 v) (fun _ => p_upper cs)) v)).
    { intros v. apply under_optional; [|lia]. eapply under_bind; [apply under_lit0|]. intros _ w Hw. eapply under_le; [apply under_upper|lia]. }
    eapply under_bind; [apply O|]. intros b v Hv. eapply under_bind; [apply O|]. intros c w Hw. cbn. lia.
  Qed.
  Lemma under_tensor s : under (List.length s) (p_tensor cs torn s).
  Proof.
    pose proof (span_snd (blank cs) s) as H0. fold (skip cs s) in H0. unfold p_tensor. eapply under_bind; [apply under_name|]. intros n t Ht.
    eapply under_bind; [apply under_groups|]. intros g u Hu. eapply (under_bind (S (List.length u))).
    - apply under_optional; [|lia]. eapply under_le; [apply under_symm|lia].
    - intros y v Hv. destruct g as [[b k] a]. cbn. lia.
  Qed.
  Lemma under_numvar s : under (List.length s) (numvar cs real torn s).
  Proof.
    unfold numvar. apply under_either; [eapply under_bind; [apply under_number|]|eapply under_bind; [apply under_variable|]]; intros x t Ht; exact Ht.
  Qed.
  Lemma under_core s : under (List.length s) (p_core cs real torn s).
  Proof.
    unfold p_core. eapply (under_bind (List.length s)).
    - apply under_either; [|apply under_numvar]. eapply under_bind; [apply under_lit|]. intros _ t Ht. eapply under_bind; [apply under_numvar|]. intros b u Hu.
      eapply under_bind; [apply under_lit|]. intros _ v Hv. cbn. lia.
    - intros b t Ht. eapply under_bind; [apply under_lit|]. intros _ u Hu. eapply under_bind; [apply under_lit|]. intros _ v Hv. eapply under_bind; [apply under_number|].
      intros e w Hw. eapply under_bind; [apply under_lit|]. intros _ z Hz. cbn. lia.
  Qed.
  Lemma under_power s : under (List.length s) (p_power cs real torn s).
  Proof.
    unfold p_power. apply under_either; [eapply under_bind; [apply under_core|]; intros x t Ht; exact Ht|].
    eapply under_bind; [apply under_lit|]. intros _ t Ht. eapply under_bind; [apply under_core|]. intros x u Hu. eapply under_bind; [apply under_lit|]. intros _ v Hv.
    eapply (under_bind (List.length v)).
    - unfold lit2. eapply under_bind; [apply under_lit|]. intros _ w Hw. eapply under_le; [apply under_lit0|lia].
    - intros _ w Hw. cbn. lia.
  Qed.
  Lemma under_nullary s : under (List.length s) (p_nullary cs real torn s).
  Proof.
    unfold p_nullary. apply under_either; [eapply under_bind; [apply under_number|]; intros x t Ht; exact Ht|].
    apply under_either; [eapply under_bind; [apply under_tensor|]|eapply under_bind; [apply under_variable|]]; intros x t Ht; exact Ht.
  Qed.

  Section Grouped.
    Variable g : str -> res ast.
    Variable f : nat.
    Hypothesis Hg : forall s, List.length s < f -> under (List.length s) (g s).
    Lemma lit_rest c s : List.length (match lit cs c s with Ok _ t => t | _ => s end) <= List.length s.
    Proof. pose proof (under_lit c s) as H. destruct (lit cs c s); cbn in H; lia. Qed.
    Lemma under_product n : forall s, List.length s < n -> List.length s < f -> under (List.length s) (p_product cs g n s).
    Proof.
      induction n as [|n IH]; intros s Hn Hf; [lia|]. cbn [p_product]. eapply under_bind; [now apply Hg|]. intros a t Ht.
      pose proof (lit_rest 42 t) as L. set (u := match lit cs 42 t with Ok _ t0 => t0 | _ => t end) in *. change (List.length u <= List.length t) in L.
      pose proof (IH u ltac:(lia) ltac:(lia)) as R. destruct (p_product cs g n u); cbn in *; auto; lia.
    Qed.
    Lemma under_addends n : forall s, List.length s < n -> List.length s < f -> under (S (List.length s)) (p_addends cs g n s).
    Proof.
      induction n as [|n IH]; intros s Hn Hf; [lia|]. cbn [p_addends].
      assert (E : under (List.length s) (either (bind (lit cs 43 s) (fun _ s1 => Ok false s1)) (bind (lit cs 45 s) (fun _ s1 => Ok true s1)))).
      { apply under_either; (eapply under_bind; [apply under_lit|]); intros _ t Ht; exact Ht. }
      destruct (either _ _) as [neg t| | |]; cbn in E; [|cbn; lia..|contradiction].
      eapply under_bind; [apply under_must; unfold product; apply under_product; lia|]. intros p u Hu. eapply under_bind; [apply IH; lia|]. intros l v Hv. cbn. lia.
    Qed.
    Lemma under_sum s : List.length s < f -> under (List.length s) (p_sum cs g s).
    Proof.
      intros Hf. unfold p_sum. eapply (under_bind (List.length s)).
      - pose proof (under_lit 45 s) as H. pose proof (lit_rest 43 s) as L.
        assert (P : under (List.length s) (product cs g (match lit cs 43 s with Ok _ t => t | _ => s end))).
        { unfold product. set (u := match lit cs 43 s with Ok _ t => t | _ => s end) in *. change (List.length u <= List.length s) in L. eapply under_le; [apply under_product; lia|lia]. }
        destruct (lit cs 45 s) as [a t| | |]; cbn in H; try exact P. eapply under_bind; [unfold product; apply under_product; lia|]. intros p u Hu. cbn. lia.
      - intros p t Ht. eapply under_bind; [apply under_addends; lia|]. intros l u Hu. cbn. lia.
    Qed.
  End Grouped.
  Lemma under_grouped f : forall s, List.length s < f -> under (List.length s) (grouped cs real torn f s).
  Proof.
    induction f as [|f IH]; intros s Hs; [lia|]. cbn [grouped]. apply under_either; [apply under_power|]. apply under_either; [|apply under_nullary].
    eapply under_bind; [apply under_lit|]. intros _ t Ht. eapply under_bind; [apply under_must, (under_sum _ f); [exact IH|lia]|]. intros l u Hu.
    eapply under_bind; [apply under_must, under_lit|]. intros _ v Hv. cbn. lia.
  Qed.
  Lemma parse_total s : parse cs real torn s <> Fuel.
  Proof.
    unfold parse. pose proof (under_sum (grouped cs real torn (S (List.length s))) (S (List.length s)) (under_grouped _) s ltac:(lia)) as H.
    destruct (p_sum cs (grouped cs real torn (S (List.length s))) s) as [l t| | |]; cbn in H |- *; try discriminate; [|destruct (skip cs s); discriminate|contradiction].
    destruct (skip cs t); discriminate.
  Qed.
End Total.
