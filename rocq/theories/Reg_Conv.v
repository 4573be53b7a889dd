(** Model of the ready-made registries (SeQuant/domain/mbpt/convention.cpp) and their properties. *)
From Coq Require Import List NArith Bool Arith Lia.
From Verif Require Import Reg_Model Reg_Spec Reg_Proofs Reg_Contract.
Import ListNotations.
Open Scope N_scope.

(** Spin (SeQuant/domain/mbpt/space_qns.hpp:32-47) *)
Definition alpha : N := 1.
Definition beta : N := 2.
Definition spin_any : N := 3.

(** index_space_registry.hpp:333-397 with the tags is_vacuum_occupied and is_complete
    (process_attribute_tags, 1490-1513). The setters look for a registered space of that type
    (throw_if_missing, 1413-1422), which the new space is. *)
Inductive tag := TVac | TComplete.
Definition set_tag (r : reg) (g : tag) (t : N) : reg :=
  match g with TVac => mkr (spaces r) (mask r) t (complete r) | TComplete => mkr (spaces r) (mask r) (vacocc r) t end.
Definition add_tagged (r : reg) (k : key) (t q : N) (g : list tag) : res reg :=
  do r' <- add r (mks k t q 10); Ret (fold_left (fun r g => set_tag r g t) g r').

(** add_union with labels as components (409-457); every label must be known *)
Fixpoint lookup_all (r : reg) (ks : list key) : res (list space) :=
  match ks with
  | [] => Ret []
  | k :: ks' =>
      match retrieve_label r k with
      | Some s => do l <- lookup_all r ks'; Ret (s :: l)
      | None => Threw
      end
  end.
Definition add_union_tagged (r : reg) (k : key) (ks : list key) (g : list tag) : res reg :=
  do c <- lookup_all r ks;
  do r' <- add_unIon r k c;
  match find_key r' k with
  | Some s => Ret (fold_left (fun r g => set_tag r g (sty s)) g r')
  | None => Threw
  end.

(** add_fermi_spin (convention.cpp:51-72): an up and a down copy of every labelled space *)
Definition up : N := 8593.
Definition down : N := 8595.
Definition add_fermi_spin (r : reg) : res reg :=
  fold_left (fun m s =>
    match skey s with
    | [] => m
    | _ => do r1 <- m;
           do r2 <- add r1 (mks (skey s ++ [up]) (sty s) alpha (ssize s));
           add r2 (mks (skey s ++ [down]) (sty s) beta (ssize s))
    end) (spaces r) (Ret r).

(** The registries are described by what is added to them. *)
Inductive item := Base (k : key) (t : N) (g : list tag) | Union (k : key) (ks : list key) (g : list tag).

Definition add_item (q : N) (m : res reg) (i : item) : res reg :=
  do r <- m;
  match i with
  | Base k t g => add_tagged r k t q g
  | Union k ks g => add_union_tagged r k ks g
  end.

(** [spin]: SpinConvention::Default; otherwise Legacy, without quantum numbers. *)
Definition make (items : list item) (spin : bool) : res reg :=
  let q := if spin then spin_any else 0 in
  do r <- fold_left (add_item q) items (Ret empty_reg);
  do r1 <- (if spin then add_fermi_spin r else Ret r);
  Ret (mkr (spaces r1) q (vacocc r1) (complete r1)).

Definition k1 (c : N) : key := [c].
Notation "'#' c" := (k1 c) (at level 9, c at level 0).
Definition K_o := k1 111. Definition K_i := k1 105. Definition K_u := k1 117. Definition K_a := k1 97.
Definition K_g := k1 103. Definition K_O := k1 79. Definition K_M := k1 77. Definition K_I := k1 73.
Definition K_E := k1 69. Definition K_A := k1 65. Definition K_p := k1 112. Definition K_m := k1 109.
Definition K_e := k1 101. Definition K_x := k1 120. Definition K_h := k1 104. Definition K_c := k1 99.
Definition K_H := k1 72. Definition K_n := k1 110. Definition K_al := k1 945. Definition K_ka := k1 954.
Definition K_al' : key := [945; 39].

(** convention.cpp:114-127 *)
Definition min_sr_items : list item :=
  [Base K_i 1 [TVac]; Base K_a 2 []; Union K_p [K_i; K_a] [TComplete]].
(** convention.cpp:133-155 *)
Definition mr_items : list item :=
  [Base K_o 1 []; Base K_i 2 []; Base K_u 4 []; Base K_a 8 []; Base K_g 16 [];
   Union K_O [K_o; K_i] [TVac]; Union K_M [K_o; K_i; K_u] []; Union K_I [K_i; K_u] [];
   Union K_E [K_u; K_a; K_g] []; Union K_A [K_u; K_a] []; Union K_p [K_M; K_E] [TComplete]].
(** convention.cpp:157-173 *)
Definition min_mr_items : list item :=
  [Base K_i 1 [TVac]; Base K_u 2 []; Base K_a 4 []; Union K_I [K_i; K_u] []; Union K_A [K_u; K_a] [];
   Union K_p [K_I; K_a] [TComplete]].
(** convention.cpp:175-192 *)
Definition sr_items : list item :=
  [Base K_o 1 []; Base K_i 2 []; Base K_a 4 []; Base K_g 8 []; Union K_m [K_o; K_i] [TVac];
   Union K_e [K_a; K_g] []; Union K_x [K_i; K_a] []; Union K_p [K_m; K_e] [TComplete]].
(** convention.cpp:194-217 *)
Definition f12_items : list item :=
  [Base K_o 1 []; Base K_i 2 []; Base K_a 4 []; Base K_g 8 []; Base K_al' 16 [];
   Union K_m [K_o; K_i] [TVac]; Union K_e [K_a; K_g] []; Union K_x [K_i; K_a] []; Union K_p [K_m; K_e] [];
   Union K_h [K_x; K_g] []; Union K_c [K_g; K_al'] []; Union K_al [K_e; K_al'] []; Union K_H [K_i; K_al] [];
   Union K_ka [K_p; K_al'] [TComplete]].
(** convention.cpp:219-245, Convention::QCiFS *)
Definition legacy_items : list item :=
  [Base K_o 1 []; Base K_n 2 []; Base K_i 4 []; Base K_u 8 []; Base K_a 16 []; Base K_g 32 []; Base K_al' 64 [];
   Union K_m [K_o; K_n; K_i] [TVac]; Union K_M [K_m; K_u] []; Union K_e [K_a; K_g] []; Union K_E [K_u; K_e] [];
   Union K_x [K_i; K_u; K_a] []; Union K_p [K_m; K_x; K_e] []; Union K_ka [K_p; K_al'] [TComplete]].

(** ** Decision procedures for the hypotheses of the theorems *)

Definition unambiguousb (r : reg) : bool :=
  forallb (fun a => forallb (fun b =>
    (negb (key_eqb (skey a) (skey b)) && negb (attr_eqb a (sty b) (sqn b))) ||
    (key_eqb (skey a) (skey b) && attr_eqb a (sty b) (sqn b) && (ssize a =? ssize b))) (spaces r)) (spaces r).

Lemma unambiguousb_ok r : unambiguousb r = true -> unambiguous r.
Proof.
  intros H a b Ha Hb. unfold unambiguousb in H. rewrite forallb_forall in H. specialize (H a Ha).
  rewrite forallb_forall in H. specialize (H b Hb). apply orb_prop in H as [H|H].
  - apply andb_prop in H as [H1 H2]. apply negb_true_iff in H1. apply negb_true_iff in H2. split.
    + intros E. apply key_eqb_eq in E. congruence.
    + intros E1 E2. assert (attr_eqb a (sty b) (sqn b) = true) by (apply attr_eqb_iff; auto). congruence.
  - apply andb_prop in H as [H H3]. apply andb_prop in H as [H1 H2].
    apply key_eqb_eq in H1. apply attr_eqb_iff in H2 as [H2 H4]. apply N.eqb_eq in H3.
    assert (a = b) by (destruct a, b; cbn in *; congruence). auto.
Qed.

Definition properb (r : reg) : bool := forallb (fun s => negb (sty s =? 0) || is_null s) (spaces r).

Lemma properb_ok r : properb r = true -> proper r.
Proof.
  intros H s Hs E. unfold properb in H. rewrite forallb_forall in H. specialize (H s Hs). rewrite E in H. exact H.
Qed.

Definition withinb (r : reg) : bool := forallb (fun s => N.land (sty s) (complete r) =? sty s) (spaces r).

Lemma withinb_ok r s : withinb r = true -> registered r s -> within r s.
Proof. intros H Hs. unfold withinb in H. rewrite forallb_forall in H. apply N.eqb_eq, (H s Hs). Qed.

Definition occupied_firstb (r : reg) : bool := vacocc r =? N.ones (N.size (vacocc r)).

Lemma occupied_firstb_ok r : occupied_firstb r = true -> occupied_first r.
Proof. intros H. exists (N.size (vacocc r)). apply N.eqb_eq. exact H. Qed.

(** every pair of operators over non-null spaces can be treated *)
Definition defined {X} (m : res X) : bool := match m with Ret _ => true | _ => false end.
Definition treats (r : reg) (a b : sop) : bool :=
  match can_contract r a b with
  | Ret true => defined (contract r a b)
  | Ret false => true
  | _ => false
  end.
Definition treats_allb (r : reg) : bool :=
  let l := filter (fun s => negb (sty s =? 0)) (spaces r) in
  let o := flat_map (fun s => [mko s true; mko s false]) l in
  forallb (fun a => forallb (treats r a) o) o.

Lemma treats_allb_ok r a b :
  treats_allb r = true -> registered r (osp a) -> registered r (osp b) -> sty (osp a) <> 0 -> sty (osp b) <> 0 ->
  treats r a b = true.
Proof.
  intros H Ha Hb Na Nb. unfold treats_allb in H.
  assert (HH : forall o, registered r (osp o) -> sty (osp o) <> 0 ->
    In o (flat_map (fun s => [mko s true; mko s false]) (filter (fun s => negb (sty s =? 0)) (spaces r)))).
  { intros o Ho No. apply in_flat_map. exists (osp o). split.
    - apply filter_In. split; auto. apply negb_true_iff, N.eqb_neq. exact No.
    - destruct o as [s []]; cbn; auto. }
  cbn zeta in H. rewrite forallb_forall in H. specialize (H a (HH a Ha Na)). rewrite forallb_forall in H.
  apply (H b (HH b Hb Nb)).
Qed.

Definition good (m : res reg) : bool :=
  match m with
  | Ret r => unambiguousb r && properb r && withinb r && occupied_firstb r && treats_allb r
  | _ => false
  end.

Lemma good_min_sr : forall spin, good (make min_sr_items spin) = true.
Proof. intros []; vm_compute; reflexivity. Qed.
Lemma good_mr : forall spin, good (make mr_items spin) = true.
Proof. intros []; vm_compute; reflexivity. Qed.
Lemma good_min_mr : forall spin, good (make min_mr_items spin) = true.
Proof. intros []; vm_compute; reflexivity. Qed.
Lemma good_sr : forall spin, good (make sr_items spin) = true.
Proof. intros []; vm_compute; reflexivity. Qed.
Lemma good_f12 : forall spin, good (make f12_items spin) = true.
Proof. intros []; vm_compute; reflexivity. Qed.

(** In a good registry every contraction is decided and formed correctly. *)
Lemma good_contractions m a b :
  good m = true ->
  exists r, m = Ret r /\
    (registered r (osp a) -> registered r (osp b) -> sty (osp a) <> 0 -> sty (osp b) <> 0 ->
     exists v, can_contract r a b = Ret v /\
       (v = true <-> exists x, in_space x (osp a) /\ in_space x (osp b) /\ vev (vacocc r) (ocr a) (ocr b) x x = 1%nat) /\
       (v = true -> exists fs, contract r a b = Ret fs /\
          forall x y, in_space x (osp a) -> in_space y (osp b) -> value fs x y = vev (vacocc r) (ocr a) (ocr b) x y)).
Proof.
  destruct m as [r| |]; cbn [good]; intros H; try discriminate. exists r. split; [reflexivity|].
  apply andb_prop in H as [H T]. apply andb_prop in H as [H O]. apply andb_prop in H as [H C]. apply andb_prop in H as [W P].
  apply unambiguousb_ok in W. apply properb_ok in P. apply occupied_firstb_ok in O.
  intros Ha Hb Na Nb. assert (TT := treats_allb_ok r a b T Ha Hb Na Nb). unfold treats in TT.
  destruct (can_contract r a b) as [v| |] eqn:E; try discriminate. exists v. split; [reflexivity|].
  assert (Ca := withinb_ok r _ C Ha). assert (Cb := withinb_ok r _ C Hb). split.
  - apply (can_contract_ret r a b v); auto.
  - intros ->. destruct (contract r a b) as [fs| |] eqn:E2; try discriminate. exists fs. split; [reflexivity|].
    intros x y Hx Hy. eapply contract_value; eauto.
Qed.
