(* Model of SeQuant/domain/mbpt/biorthogonalization.{hpp,cpp}: the permutational
   overlap matrix, the hard-coded coefficient rows, the biorthogonal transform of
   a list of results, the projection on the non-null space and the Wang-Knizia
   filter.

   libperm is an external library.  What is used of it is written out below
   (permutation images, composition, inversion, Myrvold-Ruskey ranking, number
   of disjoint cycles).  Its composition order is not visible from /repo, so it
   is the parameter [conv] and every theorem is stated for both orders. *)
From Coq Require Import List Arith Bool PeanoNat Lia QArith Qcanon.
Import ListNotations.
Local Open Scope nat_scope.

(* ---- libperm ---- *)

(* A permutation is the list of its images (perm->image(i), perm[i]). *)
Definition perm := list nat.
Definition img (p : perm) (i : nat) : nat := nth i p 0.

(* std::swap of two positions of an image list. *)
Definition swapl (l : perm) (i j : nat) : perm :=
  map (fun k => nth (if k =? i then j else if k =? j then i else k) l 0)
      (seq 0 (length l)).

(* perm::unrank: the Myrvold-Ruskey unrank1 algorithm named at
   biorthogonalization.cpp:44 (swap position n-1 with r mod n, go on with n-1
   and r / n). *)
Fixpoint unrank1 (n r : nat) (p : perm) : perm :=
  match n with
  | 0 => p
  | S k => unrank1 k (r / S k) (swapl p k (r mod S k))
  end.
Definition unrank (r n : nat) : perm := unrank1 n r (seq 0 n).

Fixpoint list_eqb (a b : list nat) : bool :=
  match a, b with
  | [], [] => true
  | x :: a', y :: b' => (x =? y) && list_eqb a' b'
  | _, _ => false
  end.

(* Position of the first element satisfying [f] (the length when none does). *)
Fixpoint find_pos {A} (f : A -> bool) (l : list A) : nat :=
  match l with
  | [] => 0
  | x :: r => if f x then 0 else S (find_pos f r)
  end.

(* perm::rank, the inverse of perm::unrank (simplified: found by search). *)
Definition rank (p : perm) (n : nat) : nat :=
  find_pos (fun r => list_eqb (unrank r n) p) (seq 0 (fact n)).

(* perm->invert() *)
Definition invp (p : perm) : perm :=
  map (fun v => find_pos (fun x => x =? v) p) (seq 0 (length p)).

(* Composition: i |-> p (q i). *)
Definition comp (p q : perm) : perm := map (img p) q.

(* a->postMultiply(b) and b->preMultiply(a): the product a * b, in either
   reading order. *)
Definition mulp (conv : bool) (a b : perm) : perm :=
  if conv then comp a b else comp b a.

(* perm->toDisjointCycles(n), of which only the number is used
   (biorthogonalization.cpp:220-221): a cycle is counted at its smallest
   element; cycles of length one count. *)
Fixpoint iter_img (p : perm) (k i : nat) : nat :=
  match k with 0 => i | S k' => img p (iter_img p k' i) end.
Definition is_cycle_min (p : perm) (i : nat) : bool :=
  forallb (fun k => i <=? iter_img p k i) (seq 0 (length p)).
Definition n_cycles (p : perm) : nat :=
  length (filter (is_cycle_min p) (seq 0 (length p))).

(* ---- biorthogonalization.cpp ---- *)

(* std::pow(-2, k) *)
Fixpoint pow_m2 (k : nat) : Qc :=
  match k with 0 => 1%Qc | S k' => (Q2Qc (-2 # 1) * pow_m2 k')%Qc end.

(* permutational_overlap_matrix, biorthogonalization.cpp:195-238.  Eigen's
   doubles are replaced by exact rationals.  The loops write (row,row), then
   (row,col) and (col,row) for col > row; the sign is applied at the end. *)
Definition overlap_entry (conv : bool) (n row col : nat) : Qc :=
  if row =? col then pow_m2 n
  else
    let lo := Nat.min row col in
    let hi := Nat.max row col in
    pow_m2 (n_cycles (mulp conv (unrank hi n) (invp (unrank lo n)))).
Definition overlap_matrix (conv : bool) (n : nat) : list (list Qc) :=
  map (fun row =>
         map (fun col =>
                if Nat.even n then overlap_entry conv n row col
                else (Q2Qc (-1 # 1) * overlap_entry conv n row col)%Qc)
             (seq 0 (fact n)))
      (seq 0 (fact n)).

(* Eigen's M(row, col) *)
Definition ent (M : list (list Qc)) (row col : nat) : Qc :=
  nth col (nth row M []) 0%Qc.

(* hardcoded_biorthogonalizer_row, biorthogonalization.cpp:64-138; None is the
   exception. *)
Definition bio_row (n : nat) : option (list Qc) :=
  match n with
  | 1 => Some (map Q2Qc [
      (1 # 2) ]%Q)
  | 2 => Some (map Q2Qc [
      (1 # 3); (1 # 6) ]%Q)
  | 3 => Some (map Q2Qc [
      (17 # 120); (-7 # 120); (-1 # 120); (-1 # 120); (-1 # 120); (-7 # 120) ]%Q)
  | 4 => Some (map Q2Qc [
      (43 # 840); (-19 # 1680); (-19 # 1680); (-1 # 105); (-19 # 1680);
      (-19 # 1680); (13 # 840); (1 # 120); (-1 # 105); (1 # 120); (-1 # 105);
      (-19 # 1680); (-1 # 105); (1 # 120); (1 # 120); (13 # 840); (-1 # 105);
      (-1 # 105); (1 # 120); (-19 # 1680); (-19 # 1680); (13 # 840);
      (-19 # 1680); (1 # 120) ]%Q)
  | 5 => Some (map Q2Qc [
      (59 # 3780); (-5 # 3024); (-5 # 3024); (-5 # 3024); (-31 # 7560);
      (-5 # 3024); (-5 # 3024); (-23 # 30240); (19 # 7560); (37 # 15120);
      (-5 # 3024); (-23 # 30240); (-5 # 3024); (19 # 7560); (37 # 15120);
      (-31 # 7560); (37 # 15120); (37 # 15120); (-31 # 7560); (-5 # 3024);
      (-5 # 3024); (-23 # 30240); (-23 # 30240); (-23 # 30240); (-13 # 7560);
      (-5 # 3024); (-5 # 3024); (19 # 7560); (-23 # 30240); (37 # 15120);
      (19 # 7560); (-23 # 30240); (19 # 7560); (-23 # 30240); (-13 # 7560);
      (37 # 15120); (-13 # 7560); (-13 # 7560); (37 # 15120); (-23 # 30240);
      (-31 # 7560); (-13 # 7560); (37 # 15120); (37 # 15120); (19 # 7560);
      (37 # 15120); (37 # 15120); (-13 # 7560); (-13 # 7560); (-23 # 30240);
      (-31 # 7560); (37 # 15120); (-31 # 7560); (37 # 15120); (-5 # 3024);
      (-5 # 3024); (-23 # 30240); (19 # 7560); (-5 # 3024); (37 # 15120);
      (-31 # 7560); (37 # 15120); (37 # 15120); (-13 # 7560); (19 # 7560);
      (37 # 15120); (37 # 15120); (-13 # 7560); (-13 # 7560); (-23 # 30240);
      (37 # 15120); (-13 # 7560); (37 # 15120); (-13 # 7560); (-23 # 30240);
      (19 # 7560); (-23 # 30240); (-23 # 30240); (19 # 7560); (-13 # 7560);
      (-31 # 7560); (37 # 15120); (-13 # 7560); (37 # 15120); (19 # 7560);
      (-31 # 7560); (-31 # 7560); (37 # 15120); (37 # 15120); (-5 # 3024);
      (37 # 15120); (-13 # 7560); (37 # 15120); (-13 # 7560); (-23 # 30240);
      (-5 # 3024); (19 # 7560); (-23 # 30240); (-5 # 3024); (37 # 15120);
      (-5 # 3024); (-23 # 30240); (-23 # 30240); (-23 # 30240); (-13 # 7560);
      (19 # 7560); (19 # 7560); (-23 # 30240); (-23 # 30240); (-13 # 7560);
      (-5 # 3024); (19 # 7560); (-5 # 3024); (-23 # 30240); (37 # 15120);
      (37 # 15120); (-13 # 7560); (-13 # 7560); (37 # 15120); (-23 # 30240) ]%Q)
  | _ => None
  end.

(* make_hardcoded_biorthogonalizer_matrix, biorthogonalization.cpp:141-158. *)
Definition bio_entry (conv : bool) (first_row : list Qc) (n row col : nat) : Qc :=
  nth (rank (mulp conv (unrank (length first_row - 1 - row) n) (unrank col n)) n)
      first_row 0%Qc.

(* hardcoded_nns_projector, biorthogonalization.hpp:151-208, with exact
   rationals for floating point numbers; None is std::nullopt. *)
Definition nns_row (n : nat) : option (list Qc) :=
  match n with
  | 1 => Some (map Q2Qc [
      (1 # 1) ]%Q)
  | 2 => Some (map Q2Qc [
      (0 # 1); (1 # 1) ]%Q)
  | 3 => Some (map Q2Qc [
      (-1 # 5); (-1 # 5); (-1 # 5); (-1 # 5); (-1 # 5); (1 # 1) ]%Q)
  | 4 => Some (map Q2Qc [
      (1 # 7); (1 # 7); (1 # 7); (-1 # 14); (1 # 7); (1 # 7); (1 # 7);
      (-1 # 14); (-1 # 14); (-1 # 14); (1 # 7); (-2 # 7); (-1 # 14); (1 # 7);
      (-1 # 14); (-2 # 7); (1 # 7); (-1 # 14); (-1 # 14); (-2 # 7); (-2 # 7);
      (-2 # 7); (-2 # 7); (1 # 1) ]%Q)
  | 5 => Some (map Q2Qc [
      (-1 # 14); (-1 # 14); (-1 # 14); (-1 # 14); (2 # 21); (-1 # 14);
      (-1 # 14); (-1 # 14); (-1 # 14); (2 # 21); (-1 # 14); (-1 # 14);
      (-1 # 14); (-1 # 14); (2 # 21); (2 # 21); (2 # 21); (2 # 21);
      (-1 # 21); (0 # 1); (-1 # 14); (-1 # 14); (-1 # 14); (-1 # 14);
      (2 # 21); (-1 # 14); (-1 # 14); (-1 # 14); (-1 # 14); (2 # 21);
      (-1 # 14); (-1 # 14); (-1 # 14); (-1 # 14); (2 # 21); (2 # 21);
      (2 # 21); (2 # 21); (-1 # 21); (0 # 1); (2 # 21); (2 # 21); (-1 # 21);
      (2 # 21); (0 # 1); (2 # 21); (2 # 21); (-1 # 21); (2 # 21); (0 # 1);
      (-1 # 21); (-1 # 21); (-1 # 21); (-1 # 21); (1 # 7); (0 # 1); (0 # 1);
      (1 # 7); (1 # 7); (-1 # 3); (2 # 21); (-1 # 21); (2 # 21); (2 # 21);
      (0 # 1); (-1 # 21); (-1 # 21); (-1 # 21); (-1 # 21); (1 # 7); (2 # 21);
      (-1 # 21); (2 # 21); (2 # 21); (0 # 1); (0 # 1); (1 # 7); (0 # 1);
      (1 # 7); (-1 # 3); (-1 # 21); (-1 # 21); (-1 # 21); (-1 # 21); (1 # 7);
      (-1 # 21); (2 # 21); (2 # 21); (2 # 21); (0 # 1); (-1 # 21); (2 # 21);
      (2 # 21); (2 # 21); (0 # 1); (1 # 7); (0 # 1); (0 # 1); (1 # 7);
      (-1 # 3); (0 # 1); (1 # 7); (1 # 7); (0 # 1); (-1 # 3); (1 # 7);
      (0 # 1); (1 # 7); (0 # 1); (-1 # 3); (1 # 7); (1 # 7); (0 # 1);
      (0 # 1); (-1 # 3); (-1 # 3); (-1 # 3); (-1 # 3); (-1 # 3); (1 # 1) ]%Q)
  | _ => None
  end.

(* An index with its space; the name stands for the whole index, and two
   indices are equal when their names and spaces are. *)
Record ix := Ix { iname : nat; isp : nat }.
Definition ix_eqb (a b : ix) : bool :=
  (iname a =? iname b) && (isp a =? isp b).

(* ParticlePairings, biorthogonalization.cpp:38-39 (taken as already sorted by
   first index, biorthogonalization.cpp:268-271). *)
Definition pairing := list (ix * ix).
Definition dix := Ix 0 0.
Definition pfst (p : pairing) i := fst (nth i p (dix, dix)).
Definition psnd (p : pairing) i := snd (nth i p (dix, dix)).

(* rank_transformation_perms, biorthogonalization.cpp:273-287: the permutation
   that takes the second indices of the reference to those of the current
   pairing.  Its direction is libperm's, hence the parameter. *)
Definition trans_perm (conv : bool) (ref cur : pairing) : perm :=
  let p := map (fun c => find_pos (fun r => ix_eqb (snd r) (snd c)) ref) cur in
  if conv then p else invp p.

(* The replacement map of create_expr_for, biorthogonalization.cpp:341-373;
   container::map::emplace keeps the first entry of a key. *)
Definition replacements (ref base : pairing) (p : perm) : list (ix * ix) :=
  flat_map
    (fun i =>
       let j := img p i in
       if ix_eqb (psnd base i) (psnd ref j) then []
       else if isp (psnd base i) =? isp (psnd ref j)
            then [(psnd base i, psnd ref j)]
            else [(pfst base i, pfst ref j)])
    (seq 0 (length base)).

(* The search for a compatible pairing, biorthogonalization.cpp:304-333. *)
Definition compatible (ref : pairing) (p : perm) (cand : pairing) : bool :=
  forallb
    (fun c =>
       existsb (fun i => (isp (pfst ref i) =? isp (fst c)) &&
                         (isp (psnd ref (img p i)) =? isp (snd c)))
               (seq 0 (length ref)))
    cand.

(* create_expr_for, biorthogonalization.cpp:289-386: which expression is used
   and how its indices are replaced; None is the exception "Missing explicit
   expression". *)
Definition create_expr_for (ref : pairing) (p : perm) (pairings : list pairing)
  : option (nat * list (ix * ix)) :=
  let k := find_pos (compatible ref p) pairings in
  if k <? length pairings
  then Some (k, replacements ref (nth k pairings []) p)
  else None.

(* One term: coefficient, position of the base expression, replacements. *)
Definition bterm := (Qc * (nat * list (ix * ix)))%type.

Inductive bres :=
| BOk (terms : list (list bterm))     (* one sum per result *)
| BThrow.                             (* sequant::Exception *)

Fixpoint all_some {A} (l : list (option A)) : option (list A) :=
  match l with
  | [] => Some []
  | None :: _ => None
  | Some x :: r => match all_some r with Some r' => Some (x :: r') | None => None end
  end.

(* biorthogonal_transform(svector<ResultExpr>&), biorthogonalization.cpp:388-536.
   The assertions on the inputs are hypotheses of the theorems.  simplify() and
   the memoization of the matrix are left out.  For more than five particles
   the coefficients come from a floating point pseudoinverse, here the
   parameter [computed]. *)
Definition transform (conv tconv : bool) (computed : nat -> nat -> Qc)
    (exts : list pairing) : bres :=
  match exts with
  | [] => BOk []
  | e0 :: _ =>
    let n := length e0 in
    let ranks := map (fun e => rank (trans_perm tconv e0 e) n) exts in
    let go (coeff : nat -> nat -> Qc) :=
      match
        all_some
          (map (fun i =>
                  let rk := nth i ranks 0 in
                  let reference := invp (unrank rk n) in
                  all_some
                    (map (fun r =>
                            let p := mulp conv (unrank r n) reference in
                            match create_expr_for (nth i exts []) p exts with
                            | Some t => Some (coeff rk r, t)
                            | None => None
                            end)
                         (seq 0 (fact n))))
               (seq 0 (length exts)))
      with
      | Some l => BOk l
      | None => BThrow
      end in
    if n <=? 5 then
      match bio_row n with
      | Some row => go (bio_entry conv row n)
      | None => BThrow
      end
    else go computed
  end.

(* compute_permuted_indices, biorthogonalization.cpp:708-718. *)
Definition permuted_indices (indices : list nat) (perm_rank n : nat) : list nat :=
  map (fun i => nth (img (unrank perm_rank n) i) indices 0) (seq 0 n).

(* biorthogonal_nns_project_ta / _btas / _tapp, biorthogonalization.hpp:269-323,
   343-398, 418-475, for up to five ket slots (None: six or more, where the
   weights are computed in floating point).  An array is the function from its
   bra and ket coordinates to its element; arr(annot) read into lannot puts
   the coordinate x[j] in the slot whose annotation is j, so slot i of the ket
   is read at x[permuted_ket[i] - bra_rank]. *)
Definition nns_project (bra_rank ket_rank : nat)
    (arr : list nat -> list nat -> Qc) : option (list nat -> list nat -> Qc) :=
  if bra_rank + ket_rank <=? 4 then Some arr
  else if ket_rank <? 3 then Some arr   (* nns_projection_weights is empty *)
  else
    match nns_row ket_rank with
    | None => None
    | Some w =>
      Some (fun xb xk =>
        fold_right Qcplus 0%Qc
          (map (fun pr =>
                  (nth pr w 0 *
                   arr xb (map (fun a => nth (a - bra_rank) xk 0%nat)
                               (permuted_indices (seq bra_rank ket_rank)
                                                 pr ket_rank)))%Qc)
               (seq 0 (length w))))
    end.

(* A term of the sum given to the filter: a product with its scalar and the
   hash of its canonicalized network, or something else. *)
Inductive fterm := FProd (scalar : Qc) (hash : nat) (id : nat) | FOther (id : nat).
Definition qabs (x : Qc) : Qc := if Qclt_le_dec x 0 then (- x)%Qc else x.

(* std::map<hash, vector<term>> as an association list sorted by hash. *)
Definition fmap := list (nat * list (Qc * nat)).
Fixpoint fstep (m : fmap) (s : Qc) (h id : nat) : fmap :=
  match m with
  | [] => [(h, [(s, id)])]
  | (h', ts) :: r =>
    if h =? h' then
      match ts with
      | [] => (h', ts) :: r
      | (s0, _) :: _ =>
        if Qclt_le_dec (qabs s0) (qabs s) then (h', [(s, id)]) :: r
        else if Qc_eq_dec (qabs s) (qabs s0) then (h', ts ++ [(s, id)]) :: r
        else (h', ts) :: r
      end
    else if h <? h' then (h, [(s, id)]) :: (h', ts) :: r
    else (h', ts) :: fstep r s h id
  end.

(* WK_biorthogonalization_filter_impl, biorthogonalization.cpp:577-623, for a
   sum.  The hash is an uninterpreted number; the result lists the retained
   terms.  With at most two external groups the sum is returned as it is. *)
Definition wk_filter (n_ext : nat) (ts : list fterm) : list fterm :=
  if n_ext <=? 2 then ts
  else
    flat_map (fun e => map (fun t => FProd (fst t) (fst e) (snd t)) (snd e))
      (fold_left (fun m t => match t with
                             | FProd s h id => fstep m s h id
                             | FOther _ => m
                             end) ts []).
