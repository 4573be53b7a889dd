(** Shared objects: what the value model of Expr_Model leaves out.

    Expressions are shared pointers, so the argument of an operation can be the object that is
    being changed. Two places where that matters are modelled here with an explicit store. *)
From Coq Require Import List Bool Arith ZArith Lia.
Import ListNotations.

(** ** A vector that grows while it is being read.

    Product::operator*= (product.hpp:365-372) calls append with a pointer to its argument, and
    append (lines 152-180) goes over the factors of the argument with a range-based loop and
    pushes each onto factors_; Sum::operator+= (sum.hpp:264-267) and Sum::append do the same with
    summands_. When the argument is the object itself, the loop reads the vector it pushes to.
    factors_ and summands_ are boost small_vector<ExprPtr, 2>: a push that finds the vector full
    moves the elements to a new buffer, and the iterators of the loop dangle. Simplification: the
    elements are neither constants nor nested, so each is pushed exactly once; comparing a dangling
    iterator with the end is not counted as undefined, only reading through it. *)
Section Vec.
  Context {X : Type}.
  (** contents, capacity, and how often the buffer has been replaced *)
  Record vec := mkvec { items : list X; cap : nat; moves : nat }.
  Variable grow : nat -> nat.
  Definition push_back (x : X) (v : vec) : vec :=
    if length (items v) <? cap v then mkvec (items v ++ [x]) (cap v) (moves v)
    else mkvec (items v ++ [x]) (grow (cap v)) (S (moves v)).
  (** the loop over the first [n] elements from position [j], with iterators into the buffer that
      was current after [m] moves; None is a read through a dangling iterator *)
  Fixpoint append_range (n j m : nat) (v : vec) : option vec :=
    match n with
    | 0 => Some v
    | S n' =>
        if Nat.eqb (moves v) m then
          match nth_error (items v) j with
          | Some x => append_range n' (S j) m (push_back x v)
          | None => None
          end
        else None
    end.
  (** [x *= x] on a product, [x += x] on a sum *)
  Definition append_self (v : vec) : option vec := append_range (length (items v)) 0 (moves v) v.

  Lemma append_range_ok l : forall n j v, items v = l ++ firstn j l -> n + j = length l -> (n = 0 \/ length l + (length l - 1) <= cap v) ->
    exists v', append_range n j (moves v) v = Some v' /\ items v' = l ++ l.
  Proof.
    induction n as [|n IH]; intros j v Hi Hn Hc; cbn [append_range].
    - exists v. split; auto. rewrite Hi. cbn in Hn. subst j. now rewrite firstn_all.
    - rewrite Nat.eqb_refl. destruct Hc as [Hc|Hc]; [lia|].
      assert (Hx : exists x, nth_error l j = Some x). { destruct (nth_error l j) eqn:H; eauto. apply nth_error_None in H. lia. }
      destruct Hx as (x & Hx). rewrite Hi, nth_error_app1 by lia. rewrite Hx.
      assert (Hf : firstn (S j) l = firstn j l ++ [x]).
      { clear -Hx. revert j Hx. induction l as [|y l IH]; intros [|j] Hx; try discriminate; cbn in *. - now inversion Hx. - f_equal. now apply IH. }
      destruct n as [|n].
      + cbn [append_range]. eexists. split; [reflexivity|]. assert (Hj : S j = length l) by lia.
        unfold push_back. destruct (_ <? _); cbn [items]; rewrite Hi, <- app_assoc, <- Hf, Hj, firstn_all; auto.
      + assert (Hlt : length (items v) < cap v). { rewrite Hi, app_length, firstn_length. lia. }
        apply Nat.ltb_lt in Hlt. unfold push_back. rewrite Hlt. apply (IH (S j) (mkvec (items v ++ [x]) (cap v) (moves v))); cbn [items cap]; try lia.
        rewrite Hi, Hf. now rewrite app_assoc.
  Qed.
  Lemma append_range_moved n j m v : moves v <> m -> append_range (S n) j m v = None.
  Proof. intros H. cbn [append_range]. now rewrite (proj2 (Nat.eqb_neq _ _) H). Qed.
  Lemma append_range_ub l : forall n j v, items v = l ++ firstn j l -> n + j = length l -> 0 < n ->
    length l + (length l - 1) > cap v -> length (items v) <= cap v -> append_range n j (moves v) v = None.
  Proof.
    induction n as [|n IH]; intros j v Hi Hn Hp Hc Hle; [lia|].
    assert (Hx : exists x, nth_error l j = Some x). { destruct (nth_error l j) eqn:H; eauto. apply nth_error_None in H. lia. }
    destruct Hx as (x & Hx). assert (Hlen : length (items v) = length l + j). { rewrite Hi, app_length, firstn_length. lia. }
    destruct n as [|n]. { lia. }
    assert (Hxv : nth_error (items v) j = Some x) by (rewrite Hi, nth_error_app1 by lia; exact Hx).
    assert (Hf : firstn (S j) l = firstn j l ++ [x]).
    { clear -Hx. revert j Hx. induction l as [|y l IH]; intros [|j] Hx; try discriminate; cbn in *. - now inversion Hx. - f_equal. now apply IH. }
    change (append_range (S (S n)) j (moves v) v) with
      (if Nat.eqb (moves v) (moves v) then match nth_error (items v) j with Some x => append_range (S n) (S j) (moves v) (push_back x v) | None => None end else None).
    rewrite Nat.eqb_refl, Hxv. destruct (length (items v) <? cap v) eqn:Hlt; unfold push_back; rewrite Hlt.
    - apply Nat.ltb_lt in Hlt. apply (IH (S j) (mkvec (items v ++ [x]) (cap v) (moves v))); cbn [items cap]; try lia.
      + rewrite Hi, Hf. now rewrite app_assoc. + rewrite app_length. cbn. lia.
    - apply (append_range_moved n (S j) (moves v)). cbn. lia.
  Qed.
  (** ** Multiplying a product by itself, or adding a sum to itself, in place is defined exactly
      when the spare capacity suffices, and then it doubles the elements. *)
  Theorem C52_append_self v : length (items v) <= cap v ->
    (exists v', append_self v = Some v' /\ items v' = items v ++ items v) <-> length (items v) + (length (items v) - 1) <= cap v.
  Proof.
    intros Hle. split.
    - intros (v' & H & _). destruct (le_gt_dec (length (items v) + (length (items v) - 1)) (cap v)) as [|Hgt]; auto.
      unfold append_self in H. rewrite (append_range_ub (items v)) in H; try discriminate; auto; try lia. now rewrite app_nil_r.
    - intros Hc. apply (append_range_ok (items v)); [cbn; now rewrite app_nil_r|lia|auto].
  Qed.
End Vec.
Arguments vec : clear implicits.

(** a product of three factors in a vector grown from the inline capacity of two to four *)
Definition three : vec nat := mkvec [1; 2; 3] 4 1.
Example three_self : append_self (fun c => 2 * c) three = None. Proof. reflexivity. Qed.
Example one_self : append_self (fun c => 2 * c) (mkvec [7] 2 0) = Some (mkvec [7; 7] 2 0). Proof. reflexivity. Qed.
(** multiplying by itself is not always defined: two factors in the inline buffer *)
Theorem C52_append_self_refuted : exists v : vec nat, length (items v) <= cap v /\ forall grow, append_self grow v = None.
Proof. exists (mkvec [1; 2] 2 0). split; [cbn; lia|]. reflexivity. Qed.

(** ** Terms that share an object.

    HashingAccumulator::append (expr.cpp:489-530) stores the pointer it is given, and merges a like
    product into the stored object with add_identical, in place. The store maps objects to their
    scalars; all are products of the same factors, so that all are like terms. *)
Open Scope Z_scope.
Definition store := nat -> Z.
Definition update (h : store) (p : nat) (z : Z) : store := fun q => if Nat.eqb q p then z else h q.
(** the accumulator: the pointer in the set, if any *)
Definition append_ptr (st : store * option nat) (p : nat) : store * option nat :=
  match snd st with
  | None => (fst st, Some p)
  | Some q => (update (fst st) q (fst st q + fst st p), Some q)
  end.
Definition append_ptrs (h : store) (ps : list nat) : store * option nat := fold_left append_ptr ps (h, None).
Definition result (st : store * option nat) : Z := match snd st with None => 0 | Some q => fst st q end.
Definition zsum (l : list Z) : Z := fold_right Z.add 0 l.

Lemma append_ptrs_from q ps : ~ In q ps -> forall h, let st := fold_left append_ptr ps (h, Some q) in snd st = Some q /\ fst st q = h q + zsum (map h ps) /\ forall p, p <> q -> fst st p = h p.
Proof.
  induction ps as [|p ps IH]; intros Hq h; cbn zeta.
  - cbn. split; auto. split; [lia|auto].
  - cbn [fold_left]. unfold append_ptr at 2 4 6. cbn [snd fst]. destruct (IH (fun H => Hq (or_intror H)) (update h q (h q + h p))) as (H1 & H2 & H3). cbn zeta in *.
    split; auto. split.
    + rewrite H2. unfold update at 1. rewrite Nat.eqb_refl. cbn [map zsum fold_right]. assert (Hm : map (update h q (h q + h p)) ps = map h ps).
      { apply map_ext_in. intros r Hr. unfold update. destruct (Nat.eqb_spec r q) as [->|]; auto. destruct Hq. now right. }
      rewrite Hm. unfold zsum. lia.
    + intros r Hr. rewrite H3 by auto. unfold update. now rewrite (proj2 (Nat.eqb_neq _ _) Hr).
Qed.
(** with different objects the result is the sum of their values, and only the first object is
    changed *)
Theorem C52_collect_objects h p ps : ~ In p ps -> let st := append_ptrs h (p :: ps) in
  result st = zsum (map h (p :: ps)) /\ (forall q, q <> p -> fst st q = h q) /\ fst st p = zsum (map h (p :: ps)).
Proof.
  intros Hp. cbn zeta. unfold append_ptrs. cbn [fold_left].
  change (append_ptr (h, None) p) with (h, Some p).
  destruct (append_ptrs_from p ps Hp h) as (H1 & H2 & H3). cbn zeta in *.
  unfold result. rewrite H1. cbn [map zsum fold_right]. unfold zsum in *. repeat split; auto; lia.
Qed.
(** the same object [n + 1] times gives 2^n times its value, not n + 1 times *)
Theorem C52_collect_same_object h p n : result (append_ptrs h (repeat p (S n))) = 2 ^ Z.of_nat n * h p.
Proof.
  unfold append_ptrs. cbn [repeat fold_left]. unfold append_ptr at 2. cbn [snd fst].
  revert h. induction n as [|n IH]; intros h.
  - cbn. now destruct (h p).
  - cbn [repeat fold_left]. unfold append_ptr at 2. cbn [snd fst]. rewrite IH. unfold update. rewrite Nat.eqb_refl.
    rewrite Nat2Z.inj_succ, Z.pow_succ_r by lia. ring.
Qed.
Theorem C52_collect_shared_refuted : exists h ps, result (append_ptrs h ps) <> zsum (map h ps).
Proof. exists (fun _ => 1), (repeat 0%nat 3). rewrite C52_collect_same_object. cbn. lia. Qed.
Print Assumptions C52_append_self.
Print Assumptions C52_collect_objects.
