(** A canonical labelling exists: the ordering of the vertices with the smallest description. *)
From Coq Require Import ZArith List Arith Bool Permutation Lia.
From Verif Require Import Alg_Proofs2 Tsr_Model Tsr_Proofs1 Net_Model Net_Spec Net_Spec2.
Import ListNotations.
Open Scope nat_scope.

Lemma vtx_dec (u v : vtx) : {u = v} + {u <> v}.
Proof.
  destruct u, v; try (right; discriminate).
  - destruct (Nat.eq_dec t t0); [left|right]; congruence.
  - destruct (Nat.eq_dec t t0); [left|right]; congruence.
  - destruct (Nat.eq_dec t t0); [|right; congruence]. destruct (Nat.eq_dec k k0); [left|right]; congruence.
  - destruct (Nat.eq_dec t t0); [|right; congruence]. destruct (bool_dec bra bra0); [left|right]; congruence.
  - destruct (Nat.eq_dec t t0); [|right; congruence]. destruct (Nat.eq_dec k k0); [|right; congruence].
    destruct o, o0; try (right; discriminate); left; congruence.
  - destruct (index_eq_dec i i0); [left|right]; congruence.
  - destruct (list_eq_dec index_eq_dec ps ps0); [left|right]; congruence.
Defined.

(** Numbers for colours. *)
Definition enc_shade (s : shade) : list Z :=
  [Z.of_nat (sh_bra s); Z.of_nat (sh_ket s); Z.of_nat (sh_aux s);
   match sh_symm s with Symm => 0 | Antisymm => 1 | Nonsymm => 2 end;
   match sh_col s with ColSymm => 0 | ColNonsymm => 1 end;
   match sh_bk s with BKSymm => 0 | BKConjugate => 1 | BKNonsymm => 2 end]%Z ++ sh_label s.
Definition enc_pairs (l : list (Z * Z)) : list Z := flat_map (fun p => [fst p; snd p]) l.
Definition enc (c : color) : list Z :=
  match c with
  | CCore s => 0%Z :: enc_shade s
  | CColumn s n => 1%Z :: Z.of_nat n :: enc_shade s
  | CBra s n => 2%Z :: Z.of_nat n :: enc_shade s
  | CKet s n => 3%Z :: Z.of_nat n :: enc_shade s
  | CAux s n => 4%Z :: Z.of_nat n :: enc_shade s
  | CNamed n => [5%Z; Z.of_nat n]
  | CNamedKind t q l => 6%Z :: t :: q :: enc_pairs l
  | CAnon t q l => 7%Z :: t :: q :: enc_pairs l
  | CProto l => 8%Z :: enc_pairs l
  end.
Lemma enc_shade_inj s s' : enc_shade s = enc_shade s' -> s = s'.
Proof.
  destruct s as [l b k a y c x], s' as [l' b' k' a' y' c' x']. unfold enc_shade. cbn. intros [= B K A Y C X ->].
  apply Nat2Z.inj in B, K, A. subst. destruct y, y', c, c', x, x'; try discriminate; auto.
Qed.
Lemma enc_pairs_inj l : forall m, enc_pairs l = enc_pairs m -> l = m.
Proof. induction l as [|(a, b) l IH]; intros [|(a', b') m]; cbn; try discriminate; auto. intros [= -> -> E]. f_equal. auto. Qed.
Lemma enc_inj c c' : enc c = enc c' -> c = c'.
Proof.
  destruct c, c'; cbn [enc]; try discriminate.
  - intros H. assert (E : enc_shade s = enc_shade s0) by congruence. apply enc_shade_inj in E. congruence.
  - intros H. assert (A : Z.of_nat id = Z.of_nat id0 /\ enc_shade s = enc_shade s0) by (split; congruence). destruct A as (A & E). apply enc_shade_inj in E. apply Nat2Z.inj in A. congruence.
  - intros H. assert (A : Z.of_nat id = Z.of_nat id0 /\ enc_shade s = enc_shade s0) by (split; congruence). destruct A as (A & E). apply enc_shade_inj in E. apply Nat2Z.inj in A. congruence.
  - intros H. assert (A : Z.of_nat id = Z.of_nat id0 /\ enc_shade s = enc_shade s0) by (split; congruence). destruct A as (A & E). apply enc_shade_inj in E. apply Nat2Z.inj in A. congruence.
  - intros H. assert (A : Z.of_nat id = Z.of_nat id0 /\ enc_shade s = enc_shade s0) by (split; congruence). destruct A as (A & E). apply enc_shade_inj in E. apply Nat2Z.inj in A. congruence.
  - intros [= A]. apply Nat2Z.inj in A. congruence.
  - intros H. assert (A : type = type0 /\ qns = qns0 /\ enc_pairs protos = enc_pairs protos0) by (repeat split; congruence). destruct A as (-> & -> & A). apply enc_pairs_inj in A. congruence.
  - intros H. assert (A : type = type0 /\ qns = qns0 /\ enc_pairs protos = enc_pairs protos0) by (repeat split; congruence). destruct A as (-> & -> & A). apply enc_pairs_inj in A. congruence.
  - intros H. assert (A : enc_pairs protos = enc_pairs protos0) by congruence. apply enc_pairs_inj in A. congruence.
Qed.

(** The description of a graph for an order of its vertices. *)
Lemma edge_dec (e f : vtx * vtx) : {e = f} + {e <> f}.
Proof. decide equality; apply vtx_dec. Defined.
Definition adjb (g : graph) (u v : vtx) : bool :=
  if in_dec edge_dec (u, v) (g_edges g) then true else if in_dec edge_dec (v, u) (g_edges g) then true else false.
Lemma adjb_spec g u v : adjb g u v = true <-> adjacent g u v.
Proof. unfold adjb, adjacent. destruct (in_dec edge_dec (u, v) (g_edges g)); [tauto|]. destruct (in_dec edge_dec (v, u) (g_edges g)); [tauto|]. split; [discriminate|tauto]. Qed.
Definition code (g : graph) (l : list vtx) : list (list Z) :=
  map (fun v => enc (g_color g v)) l ++ map (fun u => map (fun v => if adjb g u v then 1%Z else 0%Z) l) l.
Definition ccmp : list (list Z) -> list (list Z) -> comparison := lcmp (lcmp Z.compare).
Lemma TO_code : TO ccmp.
Proof. apply TO_list, TO_list, TO_Z. Qed.

Fixpoint best (g : graph) (l : list vtx) (ls : list (list vtx)) : list vtx :=
  match ls with [] => l | m :: ls' => best g (match ccmp (code g m) (code g l) with Lt => m | _ => l end) ls' end.
Lemma best_in g ls : forall l, best g l ls = l \/ In (best g l ls) ls.
Proof.
  induction ls as [|m ls IH]; intros l; cbn; auto. destruct (ccmp _ _).
  - destruct (IH l) as [H|H]; auto.
  - destruct (IH m) as [H|H]; auto.
  - destruct (IH l) as [H|H]; auto.
Qed.
Lemma ccmp_trans x y z : ccmp x y <> Gt -> ccmp y z <> Gt -> ccmp x z <> Gt.
Proof.
  destruct TO_code as (E & S & T). intros A B. destruct (ccmp x y) eqn:X; try congruence.
  - apply E in X. subst. auto.
  - destruct (ccmp y z) eqn:Y; try congruence.
    + apply E in Y. subst. congruence.
    + rewrite (T _ _ _ X Y). discriminate.
Qed.
Lemma best_le g ls : forall l m, m = l \/ In m ls -> ccmp (code g (best g l ls)) (code g m) <> Gt.
Proof.
  destruct TO_code as (E & S & T). induction ls as [|x ls IH]; intros l m; cbn [best].
  - intros [->|[]]. rewrite (proj2 (E _ _) eq_refl). discriminate.
  - intros H. destruct (ccmp (code g x) (code g l)) eqn:C.
    + apply E in C. destruct H as [->|[->|H]]; auto. rewrite C. auto.
    + destruct H as [->|[->|H]]; auto. apply (ccmp_trans _ (code g x)); auto. rewrite C. discriminate.
    + destruct H as [->|[->|H]]; auto. apply (ccmp_trans _ (code g l)); auto. rewrite S, C. discriminate.
Qed.
Definition canonical_order (g : graph) : list vtx := best g (g_verts g) (all_perms (g_verts g)).
Lemma canonical_order_perm g : Permutation (g_verts g) (canonical_order g).
Proof. destruct (best_in g (all_perms (g_verts g)) (g_verts g)) as [H|H]; [unfold canonical_order; rewrite H; auto|]. apply all_perms_In in H. auto. Qed.
Lemma canonical_order_le g l : Permutation (g_verts g) l -> ccmp (code g (canonical_order g)) (code g l) <> Gt.
Proof. intros H. apply best_le. right. apply all_perms_In. auto. Qed.

Lemma code_same g h f l : incl l (g_verts g) -> (forall v, In v (g_verts g) -> g_color h (f v) = g_color g v) ->
  (forall u v, In u (g_verts g) -> In v (g_verts g) -> (adjacent g u v <-> adjacent h (f u) (f v))) -> code h (map f l) = code g l.
Proof.
  intros I C A. unfold code. rewrite !map_map. f_equal.
  - apply map_ext_in. intros v V. rewrite C; auto.
  - apply map_ext_in. intros u U. rewrite map_map. apply map_ext_in. intros v V.
    assert (E : adjb h (f u) (f v) = adjb g u v).
    { destruct (adjb g u v) eqn:X.
      - apply adjb_spec, A, adjb_spec; auto.
      - destruct (adjb h (f u) (f v)) eqn:Y; auto. apply adjb_spec, A, adjb_spec in Y; auto. congruence. }
    rewrite E. auto.
Qed.
Lemma code_isomorphic g h : isomorphic g h -> code g (canonical_order g) = code h (canonical_order h).
Proof.
  intros (f & P & C & A). destruct TO_code as (E & S & _).
  assert (X : ccmp (code h (canonical_order h)) (code g (canonical_order g)) <> Gt).
  { rewrite <- (code_same g h f); auto.
    - apply canonical_order_le. rewrite <- P. apply Permutation_map, canonical_order_perm.
    - intros v V. apply (Permutation_in _ (Permutation_sym (canonical_order_perm g))). auto. }
  assert (Y : ccmp (code g (canonical_order g)) (code h (canonical_order h)) <> Gt).
  { pose proof (canonical_order_perm h) as Q. rewrite <- P in Q. symmetry in Q. apply Permutation_map_inv in Q. destruct Q as (l & Q & L). rewrite Q.
    rewrite (code_same g h f); auto.
    - apply canonical_order_le. auto.
    - intros v V. apply (Permutation_in _ (Permutation_sym L)). auto. }
  apply E. destruct (ccmp (code g (canonical_order g)) (code h (canonical_order h))) eqn:Z; auto; try congruence. rewrite S, Z in X. cbn in X. congruence.
Qed.

Fixpoint place (l : list vtx) (v : vtx) : nat := match l with [] => 0 | w :: l' => if vtx_dec w v then 0 else S (place l' v) end.
Lemma place_nth l : forall v, In v l -> nth_error l (place l v) = Some v.
Proof. induction l as [|w l IH]; cbn; [tauto|]. intros v H. destruct (vtx_dec w v) as [->|N]; auto. apply IH. destruct H; auto. congruence. Qed.
Lemma place_seq l : NoDup l -> map (place l) l = seq 0 (length l).
Proof.
  induction 1 as [|v l V N IH]; cbn; auto. destruct (vtx_dec v v); [|congruence]. f_equal. rewrite <- seq_shift, <- IH, map_map. apply map_ext_in.
  intros w W. destruct (vtx_dec v w); auto. congruence.
Qed.
Definition smallest (g : graph) (v : vtx) : nat := place (canonical_order g) v.

Lemma app_inj_len {A} (a b c d : list A) : length a = length c -> a ++ b = c ++ d -> a = c /\ b = d.
Proof. revert c. induction a as [|x a IH]; intros [|y c]; cbn; try discriminate; auto. intros [= L] [= -> H]. destruct (IH c L H). split; congruence. Qed.

Lemma smallest_canonical : canonical_labelling smallest.
Proof.
  split.
  - intros g ND. unfold smallest. pose proof (canonical_order_perm g) as P. rewrite (Permutation_map _ P). rewrite place_seq; [|apply (Permutation_NoDup P); auto].
    rewrite (Permutation_length P). auto.
  - intros g h Ng Nh Is u u' v v' U V U' V' Eu Ev. apply code_isomorphic in Is as C.
    assert (L : length (canonical_order g) = length (canonical_order h)).
    { rewrite <- (Permutation_length (canonical_order_perm g)), <- (Permutation_length (canonical_order_perm h)). destruct Is as (f & P & _).
      apply Permutation_length in P. rewrite map_length in P. auto. }
    apply app_inj_len in C; [|rewrite !map_length; auto]. destruct C as (Cc & Ca).
    apply (Permutation_in _ (canonical_order_perm g)), place_nth in U, V. apply (Permutation_in _ (canonical_order_perm h)), place_nth in U', V'.
    fold (smallest g u) in U. fold (smallest g v) in V. fold (smallest h u') in U'. fold (smallest h v') in V'. rewrite <- Eu in U'. rewrite <- Ev in V'. split.
    + apply enc_inj. apply (f_equal (fun l => nth_error l (smallest g u))) in Cc. rewrite !nth_error_map, U, U' in Cc. cbn in Cc. congruence.
    + apply (f_equal (fun l => nth_error l (smallest g u))) in Ca. rewrite !nth_error_map, U, U' in Ca. cbn in Ca. injection Ca as Ca.
      apply (f_equal (fun l => nth_error l (smallest g v))) in Ca. rewrite !nth_error_map, V, V' in Ca. cbn in Ca.
      rewrite <- !adjb_spec. destruct (adjb g u v), (adjb h u' v'); try discriminate; tauto.
Qed.
