(* What the biorthogonalization theorems talk about. *)
From Coq Require Import List Arith Bool PeanoNat Lia QArith Qcanon Permutation.
From Verif Require Import Bio_Model.
Import ListNotations.
Local Open Scope nat_scope.

(* p lists 0 .. n-1 in some order *)
Definition is_perm (n : nat) (p : perm) : Prop := Permutation p (seq 0 n).

(* L lists all permutations of n particles once *)
Definition all_perms (n : nat) (L : list perm) : Prop :=
  NoDup L /\ forall s, In s L <-> is_perm n s.

(* j is reached from i by applying p some number of times *)
Definition reaches (p : perm) (i j : nat) : Prop := exists k, iter_img p k i = j.

(* c is the number of disjoint cycles of p: there is a list of c elements such
   that every element lies on the cycle of exactly one of them *)
Definition cycle_number (n : nat) (p : perm) (c : nat) : Prop :=
  exists reps, NoDup reps /\ length reps = c /\ (forall i, In i reps -> i < n) /\
    forall i, i < n ->
      exists r, In r reps /\ reaches p r i /\
                forall r', In r' reps -> reaches p r' i -> r' = r.

Definition sumq (l : list Qc) : Qc := fold_right Qcplus 0%Qc l.

(* (-1)^n (-2)^c *)
Fixpoint qpow (x : Qc) (k : nat) : Qc :=
  match k with 0 => 1%Qc | S k' => (x * qpow x k')%Qc end.
Definition overlap_value (n c : nat) : Qc :=
  (qpow (Q2Qc (-1 # 1)) n * qpow (Q2Qc (-2 # 1)) c)%Qc.

(* matrices of size N as functions *)
Definition mprod (N : nat) (A B : nat -> nat -> Qc) (r c : nat) : Qc :=
  sumq (map (fun k => (A r k * B k c)%Qc) (seq 0 N)).
Definition meq (N : nat) (A B : nat -> nat -> Qc) : Prop :=
  forall r c, r < N -> c < N -> A r c = B r c.
Definition mtr (A : nat -> nat -> Qc) (r c : nat) : Qc := A c r.
Definition mscale (x : Qc) (A : nat -> nat -> Qc) (r c : nat) : Qc := (x * A r c)%Qc.

(* X is the Moore-Penrose pseudoinverse of A *)
Definition pseudoinverse (N : nat) (A X : nat -> nat -> Qc) : Prop :=
  meq N (mprod N (mprod N A X) A) A /\
  meq N (mprod N (mprod N X A) X) X /\
  meq N (mtr (mprod N A X)) (mprod N A X) /\
  meq N (mtr (mprod N X A)) (mprod N X A).

(* n! divided by the rank of the overlap matrix (1, 2, 5, 14, 42) *)
Definition norm_factor (n : nat) : Qc :=
  match n with
  | 3 => Q2Qc (6 # 5) | 4 => Q2Qc (24 # 14) | 5 => Q2Qc (120 # 42) | _ => 1%Qc
  end.

(* The coefficient the hard-coded row gives to the permutation s: the row
   belongs to the permutation of rank 0. *)
Definition row_coef (n : nat) (s : perm) : Qc :=
  match bio_row n with
  | Some row => nth (rank (comp (unrank 0 n) s) n) row 0%Qc
  | None => 0%Qc
  end.

(* the overlap of permutations that differ by s *)
Definition ovl_coef (n : nat) (s : perm) : Qc := overlap_value n (n_cycles s).

(* f summed over the permutations of its arguments with weights a *)
Definition perm_sum {V} (L : list perm) (a : perm -> Qc) (d : V)
    (f : list V -> Qc) (x : list V) : Qc :=
  sumq (map (fun s => (a s * f (map (fun i => nth i x d) s))%Qc) L).

(* ---- transform ---- *)

Definition lookup_ix (l : list (ix * ix)) (i : ix) : ix :=
  match find (fun e => ix_eqb (fst e) i) l with Some e => snd e | None => i end.

(* The value of a sum of terms, when the value of the k-th input expression
   under an assignment of values to indices is E k.  Replacing indices in an
   expression means evaluating it at the replaced indices (see transform_expr). *)
Definition terms_value {V} (E : nat -> (ix -> V) -> Qc) (ts : list bterm)
    (asg : ix -> V) : Qc :=
  sumq (map (fun t => (fst t * E (fst (snd t))
                         (fun i => asg (lookup_ix (snd (snd t)) i)))%Qc) ts).

(* The index i after the second indices of the pairs are permuted by s. *)
Definition permute_seconds (e : pairing) (s : perm) (i : ix) : ix :=
  let k := find_pos (fun x => ix_eqb (snd x) i) e in
  if k <? length e then psnd e (img s k) else i.

(* external pairs of a result: no index twice *)
Definition good_pairing (e : pairing) : Prop := NoDup (map fst e ++ map snd e).
Definition one_space (e : pairing) : Prop :=
  forall a b, In a e -> In b e -> isp (snd a) = isp (snd b).

(* ---- filter ---- *)

(* the products of a sum that belong to one group, in order *)
Definition group (h : nat) (ts : list fterm) : list (Qc * nat) :=
  flat_map (fun t => match t with
                     | FProd s h' id => if h' =? h then [(s, id)] else []
                     | FOther _ => []
                     end) ts.
Definition is_product (t : fterm) : Prop :=
  match t with FProd _ _ _ => True | FOther _ => False end.

(* those of a group than which no other has a larger coefficient *)
Definition qleb (a b : Qc) : bool := if Qclt_le_dec b a then false else true.
Definition largest (l : list (Qc * nat)) : list (Qc * nat) :=
  filter (fun t => forallb (fun u => qleb (qabs (fst u)) (qabs (fst t))) l) l.
