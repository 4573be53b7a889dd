(** Model of the rules that factorize tensors: density fitting (SeQuant/domain/mbpt/rules/df.cpp),
    tensor hypercontraction (rules/thc.cpp) and the expansion of cluster-specific virtuals
    (rules/csv.cpp). Expressions, products and sums are those of the model of the expression algebra.

    An index is a number; [protos] gives its protoindices. Labels are numbers. Not modelled: empty
    slots (so that ranks are net ranks), hermiticity, braket and column symmetry (the rules copy them
    or set them, but do not look at them). *)
From Coq Require Import List Arith Bool.
From Verif Require Import Idx_Model Expr_Model.
Import ListNotations.

(** Symmetry (attr.hpp) *)
Inductive symm := Symm | Antisymm | Nonsymm.
(** Tensors, and leaves of other kinds (variables, powers, operators) with their indices. *)
Inductive atom :=
| Ten (label : nat) (s : symm) (bra ket aux : list idx)
| Other (n : nat) (ix : list idx).

(** The operations on leaves that the expression algebra needs: no leaf is zero; the others are not
    used here. *)
Definition leaf_ops (k : kops) : aops k :=
  mkaops k atom (fun _ => false) (fun _ => None) (fun x => x) (fun _ _ => false) (fun _ => false) (fun _ => true) (fun _ _ => true).

Section Rules.
  Variable k : kops.
  Notation a := (leaf_ops k).
  Notation E := (expr (K k) atom).
  Notation times := (times k a).
  Notation minus := (minus k a).
  Notation clone := (clone k a).

  (** A loop that appends to a Product (df.cpp:82-97, thc.cpp:70-87, csv.cpp:123-141): [step] gives, for
      a state and a factor, what is appended, how, and the next state. *)
  Definition build {S} (step : S -> E -> E * ftag * S) : S -> list E -> prod k a -> prod k a * S :=
    fix build st fs p :=
    match fs with
    | [] => (p, st)
    | f :: fs' =>
        let '(g, tag, st') := step st f in
        build st' fs' (append k a clone tag g (scale k a (k1 k) p))
    end.
  Definition built {S} (r : prod k a * S) : E * S := (EProd PPlain (fst (fst r)) (snd (fst r)), snd r).

  (** *** Density fitting *)

  (** Index(aux_space, ordinal) *)
  Variable aux : nat -> idx.

  (** density_fit_impl (df.cpp:18-54) *)
  Definition df_tensor (b : nat) (s : symm) (bra ket tens_aux : list idx) (x : idx) : E :=
    match bra, ket, tens_aux with
    | [p1; p2], [q1; q2], [] =>
        let t1 := EAtom (Ten b Nonsymm [p1] [q1] [x]) in
        let t2 := EAtom (Ten b Nonsymm [p2] [q2] [x]) in
        match s with
        | Antisymm =>
            let t3 := EAtom (Ten b Nonsymm [p2] [q1] [x]) in
            let t4 := EAtom (Ten b Nonsymm [p1] [q2] [x]) in
            minus (times t1 t2) (times t3 t4)
        | _ => times t1 t2
        end
    | _, _, _ => EErr
    end.

  (** process_tensor (df.cpp:61-70); [None]: a null pointer. *)
  Definition df_process (g b : nat) (t : atom) (n : nat) : option E :=
    match t with
    | Ten l s bra ket ax =>
        if Nat.eqb l g && Nat.eqb (length bra) 2 && Nat.eqb (length ket) 2 && Nat.eqb (length ax) 0
        then Some (df_tensor b s bra ket ax (aux n))
        else None
    | Other _ _ => None
    end.
  Definition is_tensor (e : E) : bool := match e with EAtom (Ten _ _ _ _ _) => true | _ => false end.
  (** One factor of a product (86-95); Flatten::Yes is Flatten::Recursively (product.hpp:35). *)
  Definition df_step (g b : nat) (n : nat) (f : E) : E * ftag * nat :=
    match f with
    | EAtom (Ten l s bra ket ax) =>
        match df_process g b (Ten l s bra ket ax) (S n) with
        | Some e => (e, FRec, S n)
        | None => (f, FNo, S n)
        end
    | _ => (f, FNo, n)
    end.
  (** density_fit (56-99) *)
  Fixpoint density_fit (g b : nat) (e : E) : E :=
    match e with
    | ESum _ ss => mk_sum k a (map (density_fit g b) ss)
    | EAtom t => match df_process g b t 1 with Some e' => e' | None => e end
    | EProd _ s fs => fst (built (build (df_step g b) 0 fs (scale k a s (k1 k, []))))
    | _ => e
    end.

  (** *** Tensor hypercontraction *)

  (** tensor_hypercontract_impl (thc.cpp:18-46) *)
  Definition thc_tensor (b z : nat) (s : symm) (bra ket tens_aux : list idx) (x y : idx) : E :=
    match bra, ket, tens_aux with
    | [p1; p2], [q1; q2], [] =>
        let t1 := EAtom (Ten b Nonsymm [p1] [] [x]) in
        let t2 := EAtom (Ten b Nonsymm [] [q1] [x]) in
        let t3 := EAtom (Ten b Nonsymm [p2] [] [y]) in
        let t4 := EAtom (Ten b Nonsymm [] [q2] [y]) in
        let core := EAtom (Ten z Nonsymm [] [] [x; y]) in
        let five u v w := times (times (times (times u t2) core) v) w in
        match s with
        | Antisymm =>
            let t1a := EAtom (Ten b Nonsymm [p2] [] [x]) in
            let t3a := EAtom (Ten b Nonsymm [p1] [] [y]) in
            minus (five t1 t3 t4) (five t1a t3a t4)
        | _ => five t1 t3 t4
        end
    | _, _, _ => EErr
    end.
  (** One factor of a product (73-86): only the label is looked at. *)
  Definition thc_step (g b z : nat) (n : nat) (f : E) : E * ftag * nat :=
    match f with
    | EAtom (Ten l s bra ket ax) =>
        if Nat.eqb l g then (thc_tensor b z s bra ket ax (aux (S n)) (aux (S (S n))), FRec, S (S n))
        else (f, FNo, n)
    | _ => (f, FNo, n)
    end.
  (** tensor_hypercontract (48-92) *)
  Fixpoint tensor_hypercontract (g b z : nat) (e : E) : E :=
    match e with
    | ESum _ ss => mk_sum k a (map (tensor_hypercontract g b z) ss)
    | EAtom (Ten l s bra ket ax) =>
        if Nat.eqb l g && Nat.eqb (length bra) 2 && Nat.eqb (length ket) 2
        then thc_tensor b z s bra ket ax (aux 1) (aux 2) else e
    | EProd _ s fs => fst (built (build (thc_step g b z) 0 fs (scale k a s (k1 k, []))))
    | _ => e
    end.

  (** *** Cluster-specific virtuals *)

  Variable protos : idx -> list idx.
  Definition has_protos (x : idx) : bool := negb (Nat.eqb (length (protos x)) 0).
  (** Index::drop_proto_indices (index.hpp:750) and ordinal_compare *)
  Variable drop : idx -> idx.
  Variable ordinal_less : idx -> idx -> bool.
  (** Index::make_tmp_index(csv_basis): the [n]-th temporary index. The counter is passed along. *)
  Variable tmp : nat -> idx.

  (** The loops over bra and ket (csv.cpp:79-100): the new slots, the coefficient tensors and the next
      number; [coeff] makes the coefficient tensor for a slot and a new index. *)
  Fixpoint csv_slots (coeff : idx -> idx -> atom) (n : nat) (l : list idx) : list idx * list atom * nat :=
    match l with
    | [] => ([], [], n)
    | i :: l' =>
        if has_protos i then
          let '(r, c, n') := csv_slots coeff (S n) l' in (tmp n :: r, coeff i (tmp n) :: c, n')
        else
          let '(r, c, n') := csv_slots coeff n l' in (i :: r, c, n')
    end.
  Definition csv_bra (c : nat) (i x : idx) : atom := Ten c Nonsymm [i] [x] [].
  Definition csv_ket (c : nat) (i x : idx) : atom := Ten c Nonsymm [x] [i] [].

  (** csv_transform_impl (22-106). [orthonormal]: the basis is neither AO nor PAO; [overlap]: the label
      of overlaps. [None]: a null pointer; [Some EErr]: a failed assertion. The registry checks are
      not modelled. *)
  Definition csv_tensor (orthonormal : bool) (overlap c : nat) (l : nat) (s : symm) (bra ket ax : list idx) (n : nat) : option E * nat :=
    if negb (existsb has_protos (bra ++ ket)) then (None, n)
    else if existsb has_protos ax then (Some EErr, n)
    else if orthonormal && Nat.eqb l overlap then
      match bra, ket, ax with
      | [p], [q], [] =>
          if has_protos p && has_protos q then
            let d := if ordinal_less p q then drop p else drop q in
            (Some (mk_prod k a PPlain (k1 k) FRec [EAtom (Ten c Nonsymm [p] [d] []); EAtom (Ten c Nonsymm [d] [q] [])]), n)
          else (Some (mk_prod k a PPlain (k1 k) FRec [EAtom (Ten c Nonsymm [p] [q] [])]), n)
      | _, _, _ => (Some EErr, n)
      end
    else
      let '(rbra, cb, n1) := csv_slots (csv_bra c) n bra in
      let '(rket, ck, n2) := csv_slots (csv_ket c) n1 ket in
      let p := fold_left (fun p x => append k a clone FRec (EAtom x) (scale k a (k1 k) p)) (cb ++ ck) (k1 k, []) in
      let q := prepend k a FRec (EAtom (Ten l s rbra rket ax)) (scale k a (k1 k) p) in
      (Some (EProd PPlain (fst q) (snd q)), n2).

  (** csv_transform (108-146) *)
  Fixpoint csv_transform (orthonormal : bool) (overlap c : nat) (labels : list nat) (e : E) (n : nat) : option E * nat :=
    match e with
    | ESum _ ss =>
        let r := (fix go l n :=
          match l with
          | [] => ([], n)
          | x :: l' =>
              let '(y, n1) := csv_transform orthonormal overlap c labels x n in
              let '(ys, n2) := go l' n1 in
              (match y with Some y => y | None => EErr end :: ys, n2)
          end) ss n in
        (Some (mk_sum k a (fst r)), snd r)
    | EAtom (Ten l s bra ket ax) =>
        if negb (existsb (Nat.eqb l) labels) then (Some e, n)
        else if negb (existsb has_protos (bra ++ ket ++ ax)) then (Some e, n)
        else csv_tensor orthonormal overlap c l s bra ket ax n
    | EProd _ s fs =>
        let r := built (build (fun n f =>
          let '(g, n') := csv_transform orthonormal overlap c labels f n in
          (match g with Some g => g | None => f end, FNo, n')) n fs (scale k a s (k1 k, []))) in
        (Some (fst r), snd r)
    | _ => (Some e, n)
    end.
End Rules.
