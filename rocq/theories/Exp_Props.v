(** The programs generated for expression trees (C66). *)
From Coq Require Import List Arith Bool Lia.
From Verif Require Import Gen_Model Gen_Spec Exp_Model Exp_Spec Exp_Proofs1 Exp_Proofs2.
Import ListNotations.

Section Export.
Context {V W : Type}.
Variables (rd : nat -> V -> W) (wr : nat -> W -> V).
Variable cst : nat -> W.
Variable con : nat -> W -> W -> W.
Variables (plus sc : W -> W -> W).
Variable given : obj -> V.
Variable zero : V.
Variable add : V -> V -> V.
Variable garbage : obj -> V.
Variable name : obj -> nat -> obj.

Lemma named_all : forall t0 t, (forall a, In a (leaves t) -> In a (leaves t0)) ->
  (forall o, In o (results t) -> In o (results t0)) -> names_apart name t0 ->
  named (scalar_leaf t0) name (fun o => In o (inputs t0)) t.
Proof.
  intros t0. induction t as [a|k sel fs x l IHl r IHr]; intros Ha Ho Hn; cbn [named].
  - split.
    + intros Hs. split; [apply Ha; cbn; auto|]. destruct a; [exact Logic.I|exact Hs].
    + destruct a as [c|s x]; [exact Logic.I|]. unfold inputs. apply in_concat. exists [ob x].
      split; [|cbn; auto]. apply in_map_iff. exists (Ref s x). split; [reflexivity|]. apply Ha. cbn. auto.
  - split; [|split; [apply IHl|apply IHr]; auto; intros; try apply Ha; try apply Ho; cbn; rewrite in_app_iff; auto].
    assert (Hx : In (ob x) (results t0)) by (apply Ho; cbn; auto).
    split; [intros Hi; apply (proj1 (Hn _ _ Hi Hx)); reflexivity|].
    intros j Hi. apply (proj2 (Hn _ _ Hi Hx) j). reflexivity.
Qed.

(** For every tree whose sums of anything but leaves are at the top, and for every set of arrays and
    operations with the usual laws, the export succeeds. The generated program can be executed from a
    store that has the inputs. At the end memory is empty, the store has the value of the tree as the
    value of the root's tensor, and everything else in the store is as before. *)
Theorem C66_export_partial : forall pc pv k sel fs x l r s,
  let t := Node k sel fs x l r in
  arithmetic rd wr cst con plus sc given zero add (scalar_leaf t) ->
  (forall o i j, name o i = name o j -> i = j) -> names_apart name t ->
  plain t -> fitting rd wr cst con plus sc given t -> simple t = true ->
  (forall o, In o (inputs t) -> s o = Some (given o)) ->
  exists calls m tr, export name pc pv t = Some calls /\
    run zero add (evaluate rd wr cst con sc) garbage calls (start s) = Some (m, tr) /\
    stack m = [] /\ (forall o, memory m o = None) /\
    store m (ob x) = Some (wr (ix x) (value rd cst con plus sc given t)) /\
    (forall o, o <> ob x -> store m o = s o).
Proof.
  intros pc pv k sel fs x l r s t A Hinj Hnames Hp Hfit Hs Hin.
  assert (HR : ~ In (ob x) (inputs t)).
  { intros Hi. apply (proj1 (Hnames (ob x) (ob x) Hi (or_introl eq_refl))). reflexivity. }
  assert (HS : SI (fun o => In o (inputs t)) x init) by (constructor; cbn; auto).
  destruct (top_ok rd wr cst con plus sc given (plus_comm _ _ _ _ _ _ _ _ _ _ A) (con_comm _ _ _ _ _ _ _ _ _ _ A) (scalar_leaf t)
    (con_scalar _ _ _ _ _ _ _ _ _ _ A) (con_sc _ _ _ _ _ _ _ _ _ _ A) name Hinj pc pv (fun o => In o (inputs t)) x HR (S (size t)) t None init)
    as (t' & st' & E & Hv & Hl & HS' & _ & _ & _ & Hw); auto.
  { reflexivity. } { apply named_all; auto. } { discriminate. }
  assert (Hfin : final (fun o => In o (inputs t)) (zs st') (ls st')).
  { intros o Ho. destruct (si_inner _ _ _ HS' o Ho) as [H1 [H2|H2]]; rewrite H2; auto. }
  specialize (Hw (zs st') (ls st') Hfin (le_refl _ _)).
  destruct (generate_all_ok rd wr cst con plus sc given zero add garbage (add_zero _ _ _ _ _ _ _ _ _ _ A) (add_assoc _ _ _ _ _ _ _ _ _ _ A)
    (wr_plus _ _ _ _ _ _ _ _ _ _ A) (scalar_leaf t) (sc_plus _ _ _ _ _ _ _ _ _ _ A) (fun o => In o (inputs t)) x (zs st') (ls st') HR
    (si_R _ _ _ HS') (proj1 (si_inner _ _ _ HS' _ HR)) t' (look init) (look st') s Hl Hw)
    as (p & m & G & (tr & Rn) & St & Me & Sx & So); auto.
  exists p, m, tr. unfold export. rewrite E. rewrite <- Hv in Sx. auto 10.
Qed.
End Export.

Module ExpExample.
(** arrays that hold one number *)
Definition given (o : obj) : nat := S o.
Definition nm (o k : nat) := match k with 0 => o mod 100 | S k' => o mod 100 + 100 * (k' + 2) end.
Definition tensor o := Leaf (Ref false (mkOcc o 0)).
Definition variable o := Leaf (Ref true (mkOcc o 0)).
Definition A := tensor 1.  Definition B := tensor 2.  Definition C := tensor 3.
Definition D := tensor 4.  Definition E := tensor 5.  Definition F := tensor 6.
Definition z := variable 7.
Definition two := Leaf (Const 2).
Definition P o l r := Node (KProduct 0) (true, true) [] (mkOcc o 0) l r.
Definition Sm o l r := Node KSum (true, true) [] (mkOcc o 0) l r.
Definition R := 10.  Definition I := 20.  Definition J := 21.

Definition val := value (V := nat) (W := nat) (fun _ v => v) (fun c => c) (fun _ => Nat.mul) Nat.add Nat.mul given.
Definition ev := evaluate (V := nat) (W := nat) (fun _ v => v) (fun _ w => w) (fun c => c) (fun _ => Nat.mul) Nat.mul.
(** the stack at the end and the value of R; None: the program cannot be executed *)
Definition go (t : tree) : option (list obj * option nat) :=
  match export nm true true t with
  | None => None
  | Some p =>
      match run 0 Nat.add ev (fun _ => 77) p (start (fun o => Some (given o))) with
      | None => None
      | Some (m, _) => Some (stack m, store m R)
      end
  end.
Definition arith := arithmetic (V := nat) (W := nat) (fun _ v => v) (fun _ w => w) (fun c => c) (fun _ => Nat.mul) Nat.add Nat.mul given 0 Nat.add.
Lemma numbers : forall p, arith p.
Proof. intros p. constructor; intros; lia. Qed.
Lemma nm_inj : forall o i j, nm o i = nm o j -> i = j.
Proof. intros o i j. unfold nm. destruct i, j; lia. Qed.

(** R = 2 (A + C) + (A B) ((z (2 C)) D): nested products use one name for several intermediates *)
Definition big := Sm R (P J two (Sm J A C)) (P I (P I A B) (P I (P I z (P I two C)) D)).
Example big_ok : exists calls m tr, export nm true true big = Some calls /\
    run 0 Nat.add ev (fun _ => 77) calls (start (fun o => Some (given o))) = Some (m, tr) /\
    stack m = [] /\ (forall o, memory m o = None) /\ store m R = Some 1932 /\
    (forall o, o <> R -> store m o = Some (given o)).
Proof.
  change (Some 1932) with (Some (val big)). 
  apply (C66_export_partial (V := nat) (W := nat) (fun _ v => v) (fun _ w => w) (fun c => c) (fun _ => Nat.mul) Nat.add Nat.mul
    given 0 Nat.add (fun _ => 77) nm true true KSum (true, true) [] (mkOcc R 0) (P J two (Sm J A C))
    (P I (P I A B) (P I (P I z (P I two C)) D)) (fun o => Some (given o))); auto.
  - apply numbers.
  - apply nm_inj.
  - intros i o Hi Ho. cbn in Hi, Ho. unfold R, I, J in Ho. split; [lia|]. intros [|k]; unfold nm.
    + assert (o = 10 \/ o = 20 \/ o = 21) as [->|[->| ->]] by lia; cbn; lia.
    + lia.
  - cbn. tauto.
  - cbn. tauto.
Qed.
Example big_value : go big = Some ([], Some 1932).
Proof. vm_compute. reflexivity. Qed.

(** The full statement, without [simple], is false.

    A scalar that multiplies a sum of anything but leaves is lost: it is attached to a node that makes
    no computation of its own. R = 2 (A B + C D) gives A B + C D. When one of the terms is a leaf only
    this one is multiplied. *)
Definition scaled := P R two (Sm J (P I A B) (P I C D)).
Definition scaled' := P R two (Sm J (P I A B) C).
Theorem C66_scalar_lost_refuted :
  val scaled = 52 /\ go scaled = Some ([], Some 26) /\ val scaled' = 20 /\ go scaled' = Some ([], Some 14).
Proof. repeat split; vm_compute; reflexivity. Qed.
(** A sum with terms that are not leaves, below a product: nothing releases the intermediate J of the
    sum. It is still on the stack when the result is stored. *)
Definition about (o : obj) (c : op) : bool :=
  match c with
  | Create o' _ | Load o' | LoadAndZero o' | Zero o' | Unload o' | Destroy o' | Persist o' => Nat.eqb o o'
  | Compute o' _ _ => Nat.eqb o o'
  end.
Definition calls_about (o : obj) (t : tree) : option (list op) := option_map (filter (about o)) (export nm true true t).
Definition kept := P R (Sm J (P I A B) (P I C D)) E.
Theorem C66_not_released_refuted : go kept = None /\
  calls_about J kept = Some [Create J true; Compute J [0; 1; 0; 1; 0; 1; 0] [1; 2]; Compute J [0; 1; 0; 1; 0; 1; 0] [3; 4]].
Proof. split; vm_compute; reflexivity. Qed.
(** An intermediate that is used a second time is set to zero when a term is added to it. With two terms
    that are not leaves the second term replaces the first one: (A B + C D) E + (A B + C D) F is
    computed as C D E + C D F. *)
Definition twice := Sm R kept (P R (Sm J (P I A B) (P I C D)) F).
Theorem C66_zeroed_refuted :
  calls_about J twice = Some
    (let one := [Zero J; Compute J [0; 1; 0; 1; 0; 1; 0] [1; 2]; Zero J; Compute J [0; 1; 0; 1; 0; 1; 0] [3; 4]] in
     [Create J true] ++ one ++ [Zero J] ++ one).
Proof. vm_compute. reflexivity. Qed.
(** a leaf at the root: the tensor is loaded and nothing else happens *)
Theorem C66_leaf_refuted : export nm true true A = Some [Load 1] /\
  exists m tr, run 0 Nat.add ev (fun _ => 77) [Load 1] (start (fun o => Some (given o))) = Some (m, tr) /\ stack m = [1].
Proof. split; [vm_compute; reflexivity|]. eexists. eexists. split; reflexivity. Qed.
(** a result that is also an input: R = A + (R + B) is not computed from the value that R has in the store *)
Definition again := Sm R A (Sm R (tensor R) B).
Theorem C66_result_as_input_refuted : simple again = true /\ val again = 16 /\ go again = Some ([], Some 27).
Proof. repeat split; vm_compute; reflexivity. Qed.
End ExpExample.

Print Assumptions C66_export_partial.
Print Assumptions ExpExample.big_ok.
