(** Equivalent networks have isomorphic graphs. *)
From Coq Require Import ZArith List Arith Bool Permutation Lia FinFun.
From Verif Require Import Alg_Spec Alg_Proofs1 Alg_Proofs2 Tsr_Model Tsr_Spec Tsr_Proofs2 Net_Model Net_Spec Net_Proofs3.
Import ListNotations.
Open Scope nat_scope.

Definition ten (N : list tensor) (n : nat) : tensor := nth n N no_tensor.

(** The graph of a network, as relations. *)
Definition vertex (N : list tensor) (v : vtx) : Prop :=
  match v with
  | VCore n | VBraKet n | VBundle n _ => n < length N
  | VColumn n k => n < length N /\ t_symm (ten N n) = Nonsymm /\ k < num_cols (ten N n)
  | VSlot n o k => n < length N /\ k < length (bundle_of (ten N n) o)
  | VIndex i => In i (indices N)
  | VProto _ => False
  end.
Definition arrow (N : list tensor) (u v : vtx) : Prop :=
  match u, v with
  | VCore n, VBraKet m => n = m
  | VCore n, VColumn m _ => n = m
  | VCore n, VSlot m OAux _ => n = m
  | VBraKet n, VBundle m _ => n = m
  | VBundle n true, VSlot m OBra _ => n = m
  | VBundle n false, VSlot m OKet _ => n = m
  | VColumn n k, VSlot m OBra j => n = m /\ k = j
  | VColumn n k, VSlot m OKet j => n = m /\ k = j
  | VIndex i, VSlot m o k => nth_error (bundle_of (ten N m) o) k = Some i
  | _, _ => False
  end.
Definition tcol (N : list tensor) (v : vtx) : color :=
  match v with
  | VCore n | VBraKet n | VColumn n _ | VBundle n _ | VSlot n _ _ => tensor_color (ten N n) v
  | _ => CProto []
  end.

Section Iso.
  Variable named : list index.
  Definition same (N M : list tensor) (v w : vtx) : Prop :=
    match v, w with
    | VIndex i, VIndex j => ix_space j = ix_space i /\ (In i named -> j = i) /\ (~ In i named -> ~ In j named)
    | VIndex _, _ | _, VIndex _ => False
    | _, _ => tcol M w = tcol N v
    end.
  Definition iso_by (f g : vtx -> vtx) (N M : list tensor) : Prop :=
    (forall v, vertex N v -> vertex M (f v) /\ g (f v) = v /\ same N M v (f v)) /\
    (forall w, vertex M w -> vertex N (g w) /\ f (g w) = w) /\
    (forall u v, vertex N u -> vertex N v -> (arrow N u v <-> arrow M (f u) (f v))).
  Definition iso (N M : list tensor) : Prop := exists f g, iso_by f g N M.

  Lemma same_refl N v : same N N v v.
  Proof. destruct v; cbn; auto. Qed.
  Lemma same_trans N M P u v w : same N M u v -> same M P v w -> same N P u w.
  Proof.
    destruct u, v, w; cbn; try tauto; try congruence. intros (A & B & C) (A' & B' & C'). split; [congruence|]. split; [|tauto].
    intros I. pose proof (B I). subst. auto.
  Qed.
  Lemma same_sym N M u v : same N M u v -> same M N v u.
  Proof.
    destruct u, v; cbn; try tauto; try congruence. intros (A & B & C). split; [congruence|]. split.
    - intros I. destruct (in_dec index_eq_dec i named) as [J|J]; [symmetry; auto|destruct (C J I)].
    - intros I J. apply I. rewrite (B J). auto.
  Qed.
  Lemma iso_refl N : iso N N.
  Proof.
    exists (fun v => v), (fun v => v). split; [|split].
    - intros v V. split; auto. split; auto. apply same_refl.
    - auto.
    - tauto.
  Qed.
  Lemma iso_sym N M : iso N M -> iso M N.
  Proof.
    intros (f & g & A & B & C). exists g, f. split; [|split].
    - intros w W. destruct (B w W) as (V & E). split; auto. split; auto. apply same_sym. destruct (A (g w) V) as (_ & _ & X). rewrite E in X. auto.
    - intros v V. destruct (A v V) as (W & E & _). auto.
    - intros u v U V. destruct (B u U) as (U' & E1), (B v V) as (V' & E2). rewrite (C (g u) (g v) U' V'), E1, E2. tauto.
  Qed.
  Lemma iso_trans N M P : iso N M -> iso M P -> iso N P.
  Proof.
    intros (f & g & A & B & C) (f' & g' & A' & B' & C'). exists (fun v => f' (f v)), (fun w => g (g' w)). split; [|split].
    - intros v V. destruct (A v V) as (W & E & X). destruct (A' _ W) as (W' & E' & X'). split; auto. split; [congruence|]. eapply same_trans; eauto.
    - intros w W. destruct (B' w W) as (V & E). destruct (B _ V) as (V' & E'). split; auto. congruence.
    - intros u v U V. destruct (A u U) as (U' & _), (A v V) as (V' & _). rewrite (C u v U V). apply C'; auto.
  Qed.

  (** Positions. *)
  Lemma perm_pos {A} (l m : list A) : Permutation l m -> exists f g,
    (forall k, k < length l -> f k < length m /\ g (f k) = k /\ nth_error m (f k) = nth_error l k) /\
    (forall k, k < length m -> g k < length l /\ f (g k) = k).
  Proof.
    intros P. pose proof (Permutation_length P) as L. apply Permutation_nth_error in P. destruct P as (_ & g & Inj & E).
    assert (B : bFun (length l) g).
    { intros k K. apply nth_error_Some. rewrite <- E. apply nth_error_Some. lia. }
    destruct (bSurjective_bBijective (n := length l) (f := g) B) as (f & F & I).
    { apply bInjective_bSurjective; auto. intros x y _ _ H. auto. }
    exists f, g. split.
    - intros k K. specialize (F k K). destruct (I k K) as (I1 & I2). split; [lia|]. split; auto. rewrite E, I2. auto.
    - intros k K. rewrite <- L in K. destruct (I k K) as (I1 & I2). split; auto.
  Qed.

  (** The order of the tensors. *)
  Definition move (f : nat -> nat) (v : vtx) : vtx :=
    match v with
    | VCore n => VCore (f n) | VBraKet n => VBraKet (f n) | VColumn n k => VColumn (f n) k
    | VBundle n b => VBundle (f n) b | VSlot n o k => VSlot (f n) o k
    | VIndex i => VIndex i | VProto ps => VProto ps
    end.
  Lemma ten_nth N n : n < length N -> nth_error N n = Some (ten N n).
  Proof. intros L. unfold ten. apply nth_error_nth'. auto. Qed.
  Lemma iso_order N M : Permutation N M -> iso N M.
  Proof.
    intros P. destruct (perm_pos N M P) as (f & g & A & B).
    assert (T : forall n, n < length N -> ten M (f n) = ten N n).
    { intros n L. destruct (A n L) as (L' & _ & E). rewrite !ten_nth in E by auto. congruence. }
    assert (T' : forall n, n < length M -> ten N (g n) = ten M n).
    { intros n L. destruct (B n L) as (L' & E). rewrite <- T, E by auto. auto. }
    assert (I : forall i, In i (indices N) <-> In i (indices M)).
    { intros i. split; apply Permutation_in; [|symmetry]; apply Permutation_flat_map; auto. }
    exists (move f), (move g). split; [|split].
    - intros [n|n|n k|n b|n o k|i|ps]; cbn; try tauto.
      1,2,4: intros L; destruct (A n L) as (L' & E & _); rewrite T by auto; split; [auto|split; congruence].
      + intros (L & S & K). destruct (A n L) as (L' & E & _). rewrite T by auto. split; [auto|]. split; [congruence|auto].
      + intros (L & K). destruct (A n L) as (L' & E & _). rewrite T by auto. split; [auto|]. split; [congruence|auto].
      + intros J. split; [apply I; auto|]. auto.
    - intros [n|n|n k|n b|n o k|i|ps]; cbn; try tauto.
      1,2,4: intros L; destruct (B n L) as (L' & E); split; [auto|congruence].
      + intros (L & S & K). destruct (B n L) as (L' & E). rewrite T' by auto. split; [auto|]. congruence.
      + intros (L & K). destruct (B n L) as (L' & E). rewrite T' by auto. split; [auto|]. congruence.
      + intros J. split; auto. apply I; auto.
    - assert (F : forall n m, n < length N -> m < length N -> (n = m <-> f n = f m)).
      { intros n m L L'. split; [congruence|]. intros E. destruct (A n L) as (_ & <- & _), (A m L') as (_ & <- & _). congruence. }
      intros [n|n|n k|n b|n o k|i|ps] [m|m|m j|m b'|m o' j|i'|ps']; cbn; try tauto; intros U V;
        repeat match goal with
        | H : _ /\ _ |- _ => destruct H
        | |- context [match ?b with true => _ | false => _ end] => destruct b; try tauto
        | |- context [match ?o with OBra => _ | OKet => _ | OAux => _ end] => destruct o; try tauto
        end; rewrite <- ?F by auto; try tauto. rewrite T by auto. tauto.
  Qed.

  (** The names of the indices. *)
  Definition rename_v (f : index -> index) (v : vtx) : vtx := match v with VIndex i => VIndex (f i) | _ => v end.
  Lemma ten_renamed f N n : ten (map (renamed f) N) n = renamed f (ten N n).
  Proof. unfold ten. change no_tensor with (renamed f no_tensor) at 1. apply map_nth. Qed.
  Lemma bundle_renamed f t o : bundle_of (renamed f t) o = map f (bundle_of t o).
  Proof. destruct o; auto. Qed.
  Lemma cols_renamed f t : num_cols (renamed f t) = num_cols t.
  Proof. unfold num_cols. cbn. rewrite !map_length. auto. Qed.
  Lemma color_renamed f t v : tensor_color (renamed f t) v = tensor_color t v.
  Proof.
    unfold tensor_color, shade_of, slot_color_id, num_paired_cols. cbn. rewrite !map_length. auto.
  Qed.
  Lemma indices_renamed f N : indices (map (renamed f) N) = map f (indices N).
  Proof.
    unfold indices. induction N as [|t N IH]; cbn; auto. rewrite map_app, IH. f_equal. unfold slots. cbn. rewrite !map_app. auto.
  Qed.
  Lemma slot_index N n o k i : n < length N -> nth_error (bundle_of (ten N n) o) k = Some i -> In i (indices N).
  Proof.
    intros L E. apply in_flat_map. exists (ten N n). split; [apply nth_In; auto|]. apply nth_error_In in E. unfold slots.
    destruct o; cbn in E; rewrite !in_app_iff; auto.
  Qed.
  Lemma iso_names f N : (forall i j, In i (indices N) -> In j (indices N) -> f i = f j -> i = j) ->
    (forall i, In i (indices N) -> ix_space (f i) = ix_space i /\ (In i named -> f i = i) /\ (~ In i named -> ~ In (f i) named)) ->
    iso N (map (renamed f) N).
  Proof.
    intros Inj Ok. set (g := fun j => match find (fun i => if index_eq_dec (f i) j then true else false) (indices N) with Some i => i | None => j end).
    assert (G : forall i, In i (indices N) -> g (f i) = i).
    { intros i I. unfold g. destruct (find _ (indices N)) as [i'|] eqn:E.
      - apply find_some in E. destruct E as (I' & E). destruct (index_eq_dec (f i') (f i)); [auto|discriminate].
      - apply (find_none _ _ E) in I. destruct (index_eq_dec (f i) (f i)); [discriminate|congruence]. }
    exists (rename_v f), (rename_v g). split; [|split].
    - intros [n|n|n k|n b|n o k|i|ps]; cbn -[tensor_color]; rewrite ?map_length, ?ten_renamed, ?bundle_renamed, ?cols_renamed, ?color_renamed, ?indices_renamed, ?map_length; cbn -[tensor_color]; auto; try tauto.
      intros I. split; [apply in_map; auto|]. split; [rewrite G; auto|auto].
    - intros [n|n|n k|n b|n o k|i|ps]; cbn -[tensor_color]; rewrite ?map_length, ?ten_renamed, ?bundle_renamed, ?cols_renamed, ?indices_renamed, ?map_length; cbn -[tensor_color]; auto; try tauto.
      intros I. apply in_map_iff in I. destruct I as (j & <- & J). rewrite G by auto. auto.
    - intros [n|n|n k|n b|n o k|i|ps] [m|m|m j|m b'|m o' j|i'|ps']; cbn; try tauto. intros I (L & K).
      rewrite ten_renamed, bundle_renamed, nth_error_map. destruct (nth_error (bundle_of (ten N m) o') j) as [x|] eqn:E; cbn.
      + split; intros [= H]; [subst; auto|]. f_equal. apply Inj; auto. eapply slot_index; eauto.
      + split; discriminate.
  Qed.

  (** The slots of one tensor. *)
  Fixpoint cols (b k : list index) : list (option index * option index) :=
    match b, k with
    | x :: b', y :: k' => (Some x, Some y) :: cols b' k'
    | [], _ => map (fun y => (None, Some y)) k
    | _, [] => map (fun x => (Some x, None)) b
    end.
  Lemma cols_nil b : cols b [] = map (fun x => (Some x, None)) b.
  Proof. destruct b; auto. Qed.
  Lemma cols_length b : forall k, length (cols b k) = Nat.max (length b) (length k).
  Proof.
    induction b as [|x b IH]; intros [|y k]; cbn; auto; rewrite ?map_length; auto.
  Qed.
  Lemma cols_nth b : forall k n x y, nth_error (cols b k) n = Some (x, y) -> x = nth_error b n /\ y = nth_error k n.
  Proof.
    induction b as [|x b IH]; intros [|y k] [|n] x' y'; cbn; try discriminate.
    - intros [= <- <-]; auto.
    - rewrite nth_error_map. destruct (nth_error k n); cbn; [|discriminate]. intros [= <- <-]; auto.
    - intros [= <- <-]; auto.
    - rewrite nth_error_map. destruct (nth_error b n); cbn; [|discriminate]. intros [= <- <-]; auto.
    - intros [= <- <-]; auto.
    - apply IH.
  Qed.
  Lemma cols_app b : forall k r q, length b = length k -> r = [] \/ q = [] ->
    cols (b ++ r) (k ++ q) = map (fun p => (Some (fst p), Some (snd p))) (combine b k) ++ map (fun x => (Some x, None)) r ++ map (fun y => (None, Some y)) q.
  Proof.
    induction b as [|x b IH]; intros [|y k] r q L H; cbn in *; try discriminate.
    - destruct H as [->| ->]; [destruct q; auto|]. rewrite cols_nil. cbn. rewrite app_nil_r. auto.
    - rewrite IH; auto.
  Qed.

  Definition shuffle (fb fk fc : nat -> nat) (v : vtx) : vtx :=
    match v with
    | VSlot 0 OBra k => VSlot 0 OBra (fb k)
    | VSlot 0 OKet k => VSlot 0 OKet (fk k)
    | VColumn 0 k => VColumn 0 (fc k)
    | _ => v
    end.
  Definition inverse (f g : nat -> nat) (n : nat) : Prop :=
    (forall k, k < n -> f k < n /\ g (f k) = k) /\ (forall k, k < n -> g k < n /\ f (g k) = k).
  Lemma iso_shuffle fb gb fk gk fc gc t u N :
    t_label u = t_label t -> t_symm u = t_symm t -> t_bk u = t_bk t -> t_col u = t_col t -> t_aux u = t_aux t ->
    length (t_bra u) = length (t_bra t) -> length (t_ket u) = length (t_ket t) ->
    inverse fb gb (length (t_bra t)) -> inverse fk gk (length (t_ket t)) -> inverse fc gc (num_cols t) ->
    (forall k, k < length (t_bra t) -> nth_error (t_bra u) (fb k) = nth_error (t_bra t) k) ->
    (forall k, k < length (t_ket t) -> nth_error (t_ket u) (fk k) = nth_error (t_ket t) k) ->
    (t_symm t = Nonsymm -> (forall k, k < length (t_bra t) -> fb k = fc k) /\ (forall k, k < length (t_ket t) -> fk k = fc k)) ->
    (t_col t = ColNonsymm -> t_symm t = Nonsymm -> forall k, fb k = k /\ fk k = k /\ fc k = k) ->
    (forall i, In i (slots t) <-> In i (slots u)) ->
    iso (t :: N) (u :: N).
  Proof.
    intros E1 E2 E3 E4 E5 L1 L2 (B1 & B2) (K1 & K2) (C1 & C2) Nb Nk Col Non Sl.
    assert (NC : num_cols u = num_cols t) by (unfold num_cols; rewrite L1, L2; auto).
    assert (Sh : shade_of u = shade_of t) by (unfold shade_of; rewrite E1, E2, E3, E4, E5, L1, L2; auto).
    assert (Id : forall k, slot_color_id u k = slot_color_id t k).
    { intros k. unfold slot_color_id, num_paired_cols. rewrite E2, E4, L1, L2. auto. }
    assert (Idb : forall k, k < length (t_bra t) -> slot_color_id t (fb k) = slot_color_id t k).
    { intros k K. unfold slot_color_id. destruct (is_nonsymm (t_symm t)) eqn:Q; auto. cbn [negb].
      assert (Sy : t_symm t = Nonsymm) by (destruct (t_symm t); auto; discriminate).
      destruct (t_col t) eqn:Cl; cbn [is_colsymm].
      - unfold num_paired_cols. destruct (B1 k K) as (K' & _). rewrite !(proj2 (Nat.ltb_lt _ _)) by lia. auto.
      - apply Non; auto. }
    assert (Idk : forall k, k < length (t_ket t) -> slot_color_id t (fk k) = slot_color_id t k).
    { intros k K. unfold slot_color_id. destruct (is_nonsymm (t_symm t)) eqn:Q; auto. cbn [negb].
      assert (Sy : t_symm t = Nonsymm) by (destruct (t_symm t); auto; discriminate).
      destruct (t_col t) eqn:Cl; cbn [is_colsymm].
      - unfold num_paired_cols. destruct (K1 k K) as (K' & _). rewrite !(proj2 (Nat.ltb_lt _ _)) by lia. auto.
      - apply Non; auto. }
    assert (Ind : forall i, In i (indices (t :: N)) <-> In i (indices (u :: N))).
    { intros i. cbn. rewrite !in_app_iff, Sl. tauto. }
    exists (shuffle fb fk fc), (shuffle gb gk gc). split; [|split].
    - intros [n|n|n k|n b|n o k|i|ps]; try (cbn; tauto).
      + intros V. split; auto. split; auto. destruct n; cbn; auto. rewrite Sh. auto.
      + intros V. split; auto. split; auto. destruct n; cbn; auto. rewrite Sh. auto.
      + destruct n; cbn; auto. rewrite NC, Sh, E4. intros (V1 & V2 & V3). split; [rewrite E2; split; auto; split; auto; apply C1; auto|].
        split; [f_equal; apply C1; auto|]. destruct (t_col t) eqn:Q; cbn; auto. destruct (Non eq_refl V2 k) as (_ & _ & ->). auto.
      + intros V. split; auto. split; auto. destruct n; cbn; auto. rewrite Sh, L1, L2, E3. auto.
      + destruct n; [|cbn; auto]. destruct o; cbn; rewrite ?Sh, ?Id, ?L1, ?L2, ?E3, ?E5; intros (V1 & V2).
        * destruct (B1 k V2) as (X & Y). rewrite Idb, Y; auto.
        * destruct (K1 k V2) as (X & Y). rewrite Idk, Y; auto.
        * auto.
      + intros V. split; [apply Ind in V; exact V|]. cbn; auto.
    - intros [n|n|n k|n b|n o k|i|ps]; try (cbn; tauto); try (cbn; auto; fail).
      + destruct n; cbn; auto. rewrite NC, E2. intros (V1 & V2 & V3). destruct (C2 k V3) as (X & Y). rewrite Y. auto.
      + destruct n; [|cbn; auto]. destruct o; cbn; rewrite ?L1, ?L2, ?E5; intros (V1 & V2).
        * destruct (B2 k V2) as (X & Y). rewrite Y; auto.
        * destruct (K2 k V2) as (X & Y). rewrite Y; auto.
        * auto.
      + intros V. split; [apply Ind in V; exact V|auto].
    - assert (Inj : forall k j, k < num_cols t -> j < num_cols t -> (k = j <-> fc k = fc j)).
      { intros k j K J. split; [congruence|]. intros H. destruct (C1 k K) as (_ & <-), (C1 j J) as (_ & <-). congruence. }
      assert (Cb : forall k j, vertex (t :: N) (VColumn 0 k) -> vertex (t :: N) (VSlot 0 OBra j) -> (k = j <-> fc k = fb j)).
      { intros k j (_ & Sy & K) (_ & J). cbn in *. destruct (Col Sy) as (Cb & Ck). rewrite Cb by auto. apply Inj; auto. unfold num_cols. lia. }
      assert (Ck : forall k j, vertex (t :: N) (VColumn 0 k) -> vertex (t :: N) (VSlot 0 OKet j) -> (k = j <-> fc k = fk j)).
      { intros k j (_ & Sy & K) (_ & J). cbn in *. destruct (Col Sy) as (Cb' & Ck). rewrite Ck by auto. apply Inj; auto. unfold num_cols. lia. }
      clear Col Inj Non Idb Idk Id Ind C1 C2 K1 K2 B1 B2 NC Sh.
      intros u0 v0 U V. destruct u0 as [n|n|n k|n b|n o k|i|ps], v0 as [m|m|m j|m b'|m o' j|i'|ps'];
        try (cbn; tauto);
        try destruct n as [|n]; try destruct m as [|m]; try destruct o; try destruct o'; try (cbn; tauto); try (cbn; lia); cbn [shuffle].
      + cbn [arrow]. rewrite (Cb k j U V). tauto.
      + cbn [arrow]. rewrite (Ck k j U V). tauto.
      + destruct V as (_ & J). cbn in *. rewrite Nb by auto. tauto.
      + destruct V as (_ & J). cbn in *. rewrite Nk by auto. tauto.
      + cbn. rewrite E5. tauto.
  Qed.

  Lemma perm_inverse {A} (l m : list A) : Permutation l m -> exists f g, inverse f g (length l) /\
    forall k, k < length l -> nth_error m (f k) = nth_error l k.
  Proof.
    intros P. pose proof (Permutation_length P) as L. destruct (perm_pos l m P) as (f & g & A1 & B1). exists f, g. split; [split|].
    - intros k K. destruct (A1 k K) as (X & Y & _). rewrite L. auto.
    - intros k K. rewrite L in K. apply B1; auto.
    - intros k K. apply A1; auto.
  Qed.
  Lemma id_inverse n : inverse (fun k => k) (fun k => k) n.
  Proof. split; auto. Qed.
  Lemma perm_slots t u : Permutation (t_bra t) (t_bra u) -> Permutation (t_ket t) (t_ket u) -> t_aux t = t_aux u ->
    forall i, In i (slots t) <-> In i (slots u).
  Proof.
    intros P Q E i. unfold slots. rewrite E. split; apply Permutation_in; [|symmetry]; apply Permutation_app; auto; apply Permutation_app; auto.
  Qed.
  Lemma combine_fst' {A B} (l : list A) : forall m : list B, length l = length m -> map fst (combine l m) = l.
  Proof. induction l as [|x l IH]; intros [|y m] L; cbn in *; try discriminate; auto. rewrite IH; auto. Qed.
  Lemma combine_snd' {A B} (l : list A) : forall m : list B, length l = length m -> map snd (combine l m) = m.
  Proof. induction l as [|x l IH]; intros [|y m] L; cbn in *; try discriminate; auto. rewrite IH; auto. Qed.

  Lemma iso_slots t u s N : related t u s -> iso (t :: N) (u :: N).
  Proof.
    intros (E1 & E5 & E2 & E3 & E4 & _ & _ & H).
    assert (Sym : t_symm t <> Nonsymm -> t_col t = ColSymm -> Permutation (t_bra t) (t_bra u) -> Permutation (t_ket t) (t_ket u) -> iso (t :: N) (u :: N)).
    { intros Ns Cs Pb Pk. destruct (perm_inverse _ _ Pb) as (fb & gb & Ib & Nb), (perm_inverse _ _ Pk) as (fk & gk & Ik & Nk).
      apply (iso_shuffle fb gb fk gk (fun k => k) (fun k => k)); auto using id_inverse; try (intros; congruence);
        try (symmetry; apply Permutation_length; auto). apply perm_slots; auto. }
    destruct (t_col t) eqn:Cl.
    - destruct (t_symm t) eqn:Sy.
      + apply Sym; auto; try discriminate; apply H.
      + destruct H as (n & m & X & Y & _). apply exchanges_perm in X, Y. apply Sym; auto; discriminate.
      + destruct H as (b & b' & r & r' & k & k' & q & q' & B & K & B' & K' & L & L' & RQ & RQ' & P & Pr & Pq & _).
        assert (Pb : Permutation (t_bra t) (t_bra u)).
        { rewrite B, B'. apply Permutation_app; auto. apply (Permutation_map fst) in P. rewrite !combine_fst' in P by auto. auto. }
        assert (Pk : Permutation (t_ket t) (t_ket u)).
        { rewrite K, K'. apply Permutation_app; auto. apply (Permutation_map snd) in P. rewrite !combine_snd' in P by auto. auto. }
        assert (Pc : Permutation (cols (t_bra t) (t_ket t)) (cols (t_bra u) (t_ket u))).
        { rewrite B, B', K, K', !cols_app by auto. apply Permutation_app; [apply Permutation_map; auto|].
          apply Permutation_app; apply Permutation_map; auto. }
        pose proof (Permutation_length Pb) as Lb. pose proof (Permutation_length Pk) as Lk.
        destruct (perm_inverse _ _ Pc) as (f & g & (I1 & I2) & Nc). rewrite cols_length in *.
        assert (Nn : forall n, n < Nat.max (length (t_bra t)) (length (t_ket t)) ->
           nth_error (t_bra u) (f n) = nth_error (t_bra t) n /\ nth_error (t_ket u) (f n) = nth_error (t_ket t) n).
        { intros n Ln. pose proof (Nc n Ln) as X. assert (Y : n < length (cols (t_bra t) (t_ket t))) by (rewrite cols_length; auto).
          apply nth_error_Some in Y. destruct (nth_error (cols (t_bra t) (t_ket t)) n) as [(x, y)|] eqn:Z; [|congruence].
          apply cols_nth in X, Z. destruct X, Z. split; congruence. }
        assert (Ib : inverse f g (length (t_bra t))).
        { split; intros n Ln.
          - split; [|apply I1; lia]. rewrite Lb. apply nth_error_Some. rewrite (proj1 (Nn n ltac:(lia))). apply nth_error_Some. auto.
          - destruct (I2 n ltac:(lia)) as (X & Y). split; auto. apply nth_error_Some. rewrite <- (proj1 (Nn (g n) X)), Y. apply nth_error_Some. lia. }
        assert (Ik : inverse f g (length (t_ket t))).
        { split; intros n Ln.
          - split; [|apply I1; lia]. rewrite Lk. apply nth_error_Some. rewrite (proj2 (Nn n ltac:(lia))). apply nth_error_Some. auto.
          - destruct (I2 n ltac:(lia)) as (X & Y). split; auto. apply nth_error_Some. rewrite <- (proj2 (Nn (g n) X)), Y. apply nth_error_Some. lia. }
        apply (iso_shuffle f g f g f g); auto; try congruence.
        * split; auto.
        * intros n Ln. apply Nn. lia.
        * intros n Ln. apply Nn. lia.
        * apply perm_slots; auto.
    - destruct H as (Eb & Ek & _).
      apply (iso_shuffle (fun k => k) (fun k => k) (fun k => k) (fun k => k) (fun k => k) (fun k => k)); auto using id_inverse; try congruence.
      apply perm_slots; auto; rewrite ?Eb, ?Ek; auto.
  Qed.

  (** The orientation of one tensor. *)
  Definition flip (v : vtx) : vtx :=
    match v with
    | VSlot 0 OBra k => VSlot 0 OKet k
    | VSlot 0 OKet k => VSlot 0 OBra k
    | VBundle 0 b => VBundle 0 (negb b)
    | _ => v
    end.
  Lemma iso_turn t u N : t_bk t = BKSymm -> mirror t u -> iso (t :: N) (u :: N).
  Proof.
    intros B (E1 & E5 & E2 & E3 & E4 & Eb & Ek).
    assert (NC : num_cols u = num_cols t) by (unfold num_cols; rewrite Eb, Ek; lia).
    assert (Sh : shade_of u = shade_of t).
    { unfold shade_of. rewrite E1, E2, E3, E4, E5, Eb, Ek, B. cbn [is_bksymm andb].
      destruct (length (t_ket t) <? length (t_bra t)) eqn:X, (length (t_bra t) <? length (t_ket t)) eqn:Y; auto;
        rewrite ?Nat.ltb_lt, ?Nat.ltb_ge in *; try lia. replace (length (t_ket t)) with (length (t_bra t)) by lia. auto. }
    assert (Id : forall k, slot_color_id u k = slot_color_id t k).
    { intros k. unfold slot_color_id, num_paired_cols. rewrite E2, E4, Eb, Ek, Nat.max_comm. auto. }
    assert (Ind : forall i, In i (indices (t :: N)) <-> In i (indices (u :: N))).
    { intros i. cbn. unfold slots. rewrite Eb, Ek, E5, !in_app_iff. tauto. }
    exists flip, flip. split; [|split].
    - intros [n|n|n k|n b|n o k|i|ps]; try (cbn; tauto).
      + intros V. split; auto. split; auto. destruct n; cbn; auto. rewrite Sh. auto.
      + intros V. split; auto. split; auto. destruct n; cbn; auto. rewrite Sh. auto.
      + destruct n; cbn; auto. rewrite NC, Sh, E4, E2. auto.
      + destruct n; cbn; auto. rewrite Sh, Eb, Ek, E3, B. destruct b; cbn; auto.
      + destruct n; [|cbn; auto]. destruct o; cbn; rewrite ?Sh, ?Id, ?Eb, ?Ek, ?E3, ?E5, ?B; auto.
      + intros V. split; [apply Ind in V; exact V|]. cbn; auto.
    - intros [n|n|n k|n b|n o k|i|ps]; try (cbn; tauto); try (cbn; auto; fail).
      + destruct n; cbn; auto. rewrite NC, E2. auto.
      + destruct n; cbn; auto. rewrite negb_involutive. auto.
      + destruct n; [|cbn; auto]. destruct o; cbn; rewrite ?Eb, ?Ek, ?E5; auto.
      + intros V. split; [apply Ind in V; exact V|auto].
    - intros u0 v0 U V. destruct u0 as [n|n|n k|n b|n o k|i|ps], v0 as [m|m|m j|m b'|m o' j|i'|ps'];
        try (cbn; tauto);
        try destruct n as [|n]; try destruct m as [|m]; try destruct o; try destruct o'; try destruct b; try (cbn; tauto); try (cbn; lia);
        cbn; rewrite ?Eb, ?Ek, ?E5; tauto.
  Qed.

  Theorem equivalent_iso N M s : equivalent named N M s -> iso N M.
  Proof.
    induction 1 as [N|N M P s s' H1 IH1 H2 IH2|N M s H IH|N M H|t u s N H|t u N B H|f N H1 H2].
    - apply iso_refl.
    - eapply iso_trans; eauto.
    - apply iso_sym; auto.
    - apply iso_order; auto.
    - eapply iso_slots; eauto.
    - apply iso_turn; auto.
    - apply iso_names; auto.
  Qed.
End Iso.
