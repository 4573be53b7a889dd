(** Model of the Wick engine for a sequence of normal operators (SeQuant/core/wick.hpp,
    SeQuant/core/ranges.hpp, SeQuant/core/op.hpp).

    An operator Op<S> is an index with an action. A NormalOperator is the list of its operators in
    the order in which they stand, a NormalOperatorSequence a list of these ("nest").
    Assertions (SEQUANT_ASSERT) are modelled as enabled.
    Not modelled: use_topology() (the theorems are about use_topology(false); with the default
    partitions, one operator each, every weight is 1), logging, the statistics counters, threads,
    and what is done to a finished term afterwards (reduce, canonicalize, merging equal terms). *)
From Coq Require Import List ZArith Bool Arith.
Import ListNotations.

(** Outcomes: a value, a failed assertion, undefined behaviour, or fuel exhausted (excluded by
    the theorems). *)
Inductive res (X : Type) := Ok (x : X) | Asserted | Undefined | NoFuel.
Arguments Ok {X}. Arguments Asserted {X}. Arguments Undefined {X}. Arguments NoFuel {X}.

Definition bind {X Y} (m : res X) (f : X -> res Y) : res Y :=
  match m with Ok x => f x | Asserted => Asserted | Undefined => Undefined | NoFuel => NoFuel end.

(** ** Op<S> (op.hpp:55-115): the index and Action::Create / Action::Annihilate. *)
Record op (I : Type) := mkop { oidx : I; ocre : bool }.
Arguments mkop {I}. Arguments oidx {I}. Arguments ocre {I}.

(** ** flattened_rangenest (ranges.hpp:28-190) *)
Section Nest.
  Context {X : Type}.
  Notation nest := (list (list X)).

  (** cursor: range_iter_ and elem_iter_ as positions, ordinal_. *)
  Record cursor := mkc { c_r : nat; c_e : nat; c_ord : Z }.

  (** index of the first non-empty range at or after [r], or the number of ranges *)
  Fixpoint skip_empty (n : nest) (r : nat) : nat :=
    match n with
    | [] => r
    | [] :: n' => skip_empty n' (S r)
    | _ :: _ => r
    end.

  (** ranges.hpp:97-112 *)
  Definition c_begin (n : nest) : cursor :=
    let r := skip_empty n 0 in
    mkc r 0 (if Nat.eqb r (length n) then -1 else 0)%Z.

  Definition c_is_end (n : nest) (c : cursor) : bool := Nat.eqb (c_r c) (length n).

  (** ranges.hpp:134-146 *)
  Definition c_next (n : nest) (c : cursor) : cursor :=
    let e := S (c_e c) in
    if Nat.eqb e (length (nth (c_r c) n []))
    then mkc (skip_empty (skipn (S (c_r c)) n) (S (c_r c))) 0 (c_ord c + 1)%Z
    else mkc (c_r c) e (c_ord c + 1)%Z.

  (** ranges.hpp:120; None: not an element *)
  Definition c_read (n : nest) (c : cursor) : option X := nth_error (nth (c_r c) n []) (c_e c).

  Definition list_erase (l : list X) (i : nat) : list X := firstn i l ++ skipn (S i) l.
  Definition list_insert (l : list X) (i : nat) (x : X) : list X := firstn i l ++ x :: skipn i l.
  Definition nest_update (n : nest) (r : nat) (f : list X -> list X) : nest :=
    firstn r n ++ match skipn r n with [] => [] | l :: n' => f l :: n' end.

  (** ranges.hpp:161-170 and 171-181 *)
  Definition c_erase (n : nest) (c : cursor) : nest := nest_update n (c_r c) (fun l => list_erase l (c_e c)).
  Definition c_insert (n : nest) (c : cursor) (x : X) : nest := nest_update n (c_r c) (fun l => list_insert l (c_e c) x).

  (** ranges::next(it, k); None: incremented past the end *)
  Fixpoint c_advance (n : nest) (c : cursor) (k : nat) : option cursor :=
    match k with
    | O => Some c
    | S k' => if c_is_end n c then None else c_advance n (c_next n c) k'
    end.

  Definition opsize (n : nest) : nat := length (concat n).
End Nest.

Section Wick.
  Context {I F : Type}.
  Variable ieqb : I -> I -> bool.
  Notation op := (op I).
  Notation nest := (list (list op)).

  Definition op_eqb (a b : op) : bool := ieqb (oidx a) (oidx b) && Bool.eqb (ocre a) (ocre b).

  (** Statistics, is_qpannihilator, can_contract, contract (wick.hpp:1650-1733): parameters here,
      modelled in WickC_Model. contract returns the factors that are appended to the prefactor. *)
  Variable fermi : bool.
  Variable is_qpann : op -> bool.
  Variable can_contract : op -> op -> bool.
  Variable contract : op -> op -> list F.

  (** The options: full_contractions_, count_only, "spin-free over the Fermi vacuum", the bit masks
      of set_nop_connections() and set_nop_avoided_connections() (empty: not set), and
      nop_nconnections_total_. *)
  Variable full count_only spinfree : bool.
  Variable target avoided : list N.
  Variable nconnections_total : nat.

  (** *** init_input, the partner indices (wick.hpp:672-695) *)
  Definition creators (nop : list op) : list op := filter (fun o => ocre o) nop.
  (** NormalOperator::annihilators(): in the order of particles, the reverse of their order in the
      operator (op.hpp:581-583). For an operator built by its constructor the creators stand left. *)
  Definition annihilators (nop : list op) : list op := rev (filter (fun o => negb (ocre o)) nop).
  Definition partners_of (nop : list op) : list (I * I) :=
    rev (combine (map oidx (rev (creators nop))) (map oidx (rev (annihilators nop)))).
  Definition input_partner_indices (input : nest) : list (I * I) := flat_map partners_of input.

  (** *** make_target_partner_indices (wick.hpp:863-920) *)
  Fixpoint find_index {Y} (f : Y -> bool) (l : list Y) : option nat :=
    match l with
    | [] => None
    | x :: l' => if f x then Some O else option_map S (find_index f l')
    end.

  Definition replace_nth {Y} (l : list Y) (i : nat) (f : Y -> Y) : list Y :=
    firstn i l ++ match skipn i l with [] => [] | x :: l' => f x :: l' end.

  Definition target_step (st : list (I * I) * nat) (ct : op * op) : list (I * I) * nat :=
    let '(result, ncycles) := st in
    let '(qpann, qpcre) := ct in
    match find_index (fun p => (negb (ocre qpann) && ieqb (snd p) (oidx qpann)) ||
                               (negb (ocre qpcre) && ieqb (snd p) (oidx qpcre))) result with
    | None => (result, ncycles)
    | Some ai =>
        match find_index (fun p => (ocre qpcre && ieqb (fst p) (oidx qpcre)) ||
                                   (ocre qpann && ieqb (fst p) (oidx qpann))) result with
        | None => (result, ncycles)
        | Some ci =>
            if Nat.eqb ai ci then (list_erase result ci, S ncycles)
            else match nth_error result ai, nth_error result ci with
                 | Some pa, Some pc =>
                     if Nat.ltb ai ci
                     then (list_erase (replace_nth result ai (fun p => (fst p, snd pc))) ci, ncycles)
                     else (list_erase (replace_nth result ci (fun p => (fst pa, snd p))) ai, ncycles)
                 | _, _ => (result, ncycles)
                 end
        end
    end.

  Definition make_target_partner_indices (input_partners : list (I * I)) (contractions : list (op * op)) : list (I * I) * nat :=
    fold_left target_step contractions (input_partners, O).

  (** *** normalize (op.hpp:1142-1272) *)

  (** The loop over the operators, lines 1162-1198: annihilator_groups has one group per normal
      operator, filled from the back. *)
  Fixpoint normalize_loop (nops nnops : nat) (l : list (nat * op)) (pos : nat) (phase : Z)
      (cres : list op) (groups : list (list op)) : Z * list op * list (list op) :=
    match l with
    | [] => (phase, cres, groups)
    | (r, o) :: l' =>
        if ocre o then normalize_loop nops nnops l' (S pos) phase (cres ++ [o]) groups
        else
          let distance_to_end := nops - pos - 1 in
          let op_group := nnops - r - 1 in
          let total_distance := distance_to_end + length (nth op_group groups []) in
          normalize_loop nops nnops l' (S pos)
            (if fermi && Nat.odd total_distance then (- phase)%Z else phase)
            cres (nest_update groups op_group (fun g => g ++ [o]))
    end.

  Fixpoint tag_nest (n : nest) (r : nat) : list (nat * op) :=
    match n with [] => [] | l :: n' => map (pair r) l ++ tag_nest n' (S r) end.

  (** std::swap of two elements *)
  Definition swap_nth (l : list op) (i j : nat) : list op :=
    match nth_error l i, nth_error l j with
    | Some x, Some y => replace_nth (replace_nth l i (fun _ => y)) j (fun _ => x)
    | _, _ => l
    end.

  (** One turn of the loops of lines 1222-1244 and 1249-1270. [rows]: the row that is scanned and
      the row that is permuted; [key] and [partner] pick the two sides of a pair. *)
  Definition pair_step (pairs : list (I * I)) (key partner : I * I -> I) (extra : nat) (row : list op)
      (st : Z * list op) (p : nat) : Z * list op :=
    let '(phase, other) := st in
    match nth_error row p with
    | None => st
    | Some o =>
        match find (fun q => ieqb (key q) (oidx o)) pairs with
        | None => st
        | Some q =>
            match find_index (fun v => ieqb (oidx v) (partner q)) other with
            | None => st
            | Some src =>
                if Nat.eqb (p + extra) src then st
                else ((if fermi then (- phase)%Z else phase), swap_nth other src (p + extra))
            end
        end
    end.

  (** Returns the phase and the creators and annihilators in the order of particles. *)
  Definition normalize (n : nest) (pairs : list (I * I)) : Z * (list op * list op) :=
    let '(phase, cres, groups) :=
      normalize_loop (opsize n) (length n) (tag_nest n 0) 0 1%Z [] (repeat [] (length n)) in
    let anns := flat_map (fun g => rev g) (rev groups) in
    match pairs with
    | [] => (phase, (cres, anns))
    | _ =>
        let ncre := length cres in
        let nann := length anns in
        let rank := Nat.min ncre nann in
        if Nat.eqb ncre rank
        then let '(ph, anns') := fold_left (pair_step pairs fst snd (nann - rank) cres) (rev (seq 0 rank)) (phase, anns) in
             (ph, (cres, anns'))
        else let '(ph, cres') := fold_left (pair_step pairs snd fst (ncre - rank) anns) (rev (seq 0 rank)) (phase, cres) in
             (ph, (cres', anns))
    end.

  (** NormalOperator(cre(c), ann(a)): op.hpp:532-562 *)
  Definition normal_operator (ca : list op * list op) : list op := fst ca ++ rev (snd ca).

  (** *** NontensorWickState (wick.hpp:752-1175) *)
  (** A finished term: scalar, factors, and the normal operator (empty if there is none). *)
  Record wterm := mkt { t_scalar : Z; t_factors : list F; t_op : list op }.

  Record wstate := mkw {
    w_nest : nest;                  (* nopseq *)
    w_size : nat;                   (* nopseq_size *)
    w_scal : Z; w_fac : list F;     (* sp *)
    w_fac0 : nat;                   (* sp_initial_size *)
    w_contr : list (op * op);       (* contractions *)
    w_off : nat;                    (* left_op_offset *)
    w_conn : list N;                (* nop_connections *)
    w_adj : list nat;               (* nop_adjacency_matrix *)
    w_count : nat;                  (* count *)
    w_out : list wterm }.           (* the terms appended to the result, newest first *)

  (** std::bitset<32> operations *)
  Definition zeros (b : N) : nat := length (filter (fun i => negb (N.testbit b (N.of_nat i))) (seq 0 32)).
  Definition bit (l : list N) (i j : nat) : bool := N.testbit (nth i l 0%N) (N.of_nat j).
  Definition set_bit (l : list N) (i j : nat) : list N :=
    firstn i l ++ match skipn i l with [] => [] | b :: l' => N.setbit b (N.of_nat j) :: l' end.
  Definition reset_bit (l : list N) (i j : nat) : list N :=
    firstn i l ++ match skipn i l with [] => [] | b :: l' => N.clearbit b (N.of_nat j) :: l' end.

  (** uptri_idx (wick.hpp:772-780) *)
  Definition uptri_idx (i j n : nat) : nat := i * (2 * n - i - 1) / 2 + j - i - 1.

  Definition pair_eqb (a b : op * op) : bool := op_eqb (fst a) (fst b) && op_eqb (snd a) (snd b).

  (** connect (wick.hpp:963-1101). The bookkeeping of topological partitions is left out. *)
  Definition connect (s : wstate) (cl cr : cursor) (l r : op) : res (bool * wstate) :=
    let n1 := c_r cl in
    let n2 := c_r cr in
    if negb (c_ord cl <? c_ord cr)%Z then Asserted
    else if match avoided with [] => false | _ => negb (bit avoided n1 n2) end then Ok (false, s)
    else
      let register s' :=
        if existsb (fun p => pair_eqb p (l, r)) (w_contr s') then Asserted
        else Ok (true, mkw (w_nest s') (w_size s') (w_scal s') (w_fac s') (w_fac0 s') (w_contr s' ++ [(l, r)])
                           (w_off s') (w_conn s') (w_adj s') (w_count s') (w_out s')) in
      match target with
      | [] => register s
      | _ =>
          let connected := bit (w_conn s) n1 n2 in
          let conn1 := if connected then w_conn s else set_bit (set_bit (w_conn s) n1 n2) n2 n1 in
          let needs k := zeros (N.lor (nth k conn1 0%N) (nth k target 0%N)) in
          let remain k := length (nth k (w_nest s) []) - 1 in
          let with_conn c := mkw (w_nest s) (w_size s) (w_scal s) (w_fac s) (w_fac0 s) (w_contr s) (w_off s) c (w_adj s) (w_count s) (w_out s) in
          let undo := with_conn (if connected then conn1 else reset_bit (reset_bit conn1 n1 n2) n2 n1) in
          if remain n1 <? needs n1 then Ok (false, undo)
          else if remain n2 <? needs n2 then Ok (false, undo)
          else
            let a := uptri_idx n1 n2 (length (w_nest s)) in
            if negb ((n1 <? n2) && (n2 <? length (w_nest s))) then Asserted
            else register (mkw (w_nest s) (w_size s) (w_scal s) (w_fac s) (w_fac0 s) (w_contr s) (w_off s) conn1
                               (replace_nth (w_adj s) a S) (w_count s) (w_out s))
      end.

  (** disconnect (wick.hpp:1103-1174) *)
  Fixpoint remove_pair (p : op * op) (l : list (op * op)) : option (list (op * op)) :=
    match l with
    | [] => None
    | q :: l' => if pair_eqb q p then Some l' else option_map (cons q) (remove_pair p l')
    end.

  Definition disconnect (s : wstate) (cl cr : cursor) (l r : op) : res wstate :=
    let n1 := c_r cl in
    let n2 := c_r cr in
    match remove_pair (l, r) (w_contr s) with
    | None => Asserted
    | Some contr =>
        match target with
        | [] => Ok (mkw (w_nest s) (w_size s) (w_scal s) (w_fac s) (w_fac0 s) contr (w_off s) (w_conn s) (w_adj s) (w_count s) (w_out s))
        | _ =>
            let a := uptri_idx n1 n2 (length (w_nest s)) in
            if negb (bit (w_conn s) n1 n2) then Asserted
            else if Nat.eqb (nth a (w_adj s) 0) 0 then Asserted
            else
              let adj := replace_nth (w_adj s) a pred in
              let conn := if Nat.eqb (nth a adj 0) 0 then reset_bit (reset_bit (w_conn s) n1 n2) n2 n1 else w_conn s in
              Ok (mkw (w_nest s) (w_size s) (w_scal s) (w_fac s) (w_fac0 s) contr (w_off s) conn adj (w_count s) (w_out s))
        end
    end.

  (** What is appended to the result for a complete set of contractions, lines 1495-1586. *)
  Variable partners : list (I * I).         (* input_partner_indices_ *)
  Definition finish_term (s : wstate) : res wterm :=
    let '(tp, ncycles) := make_target_partner_indices partners (w_contr s) in
    if full then
      if spinfree then
        match tp with
        | [] => Ok (mkt (w_scal s * 2 ^ Z.of_nat ncycles) (w_fac s) [])
        | _ => Asserted
        end
      else Ok (mkt (w_scal s) (w_fac s) [])
    else
      let '(phase, ca) := normalize (w_nest s) tp in
      Ok (mkt (w_scal s * (if spinfree then 2 ^ Z.of_nat ncycles else 1) * phase) (w_fac s) (normal_operator ca)).

  Definition emit (s : wstate) : res wstate :=
    if Nat.eqb (length (w_fac s)) (w_fac0 s) then Ok s
    else if negb full || Nat.eqb (w_size s) 0 then
      if count_only
      then Ok (mkw (w_nest s) (w_size s) (w_scal s) (w_fac s) (w_fac0 s) (w_contr s) (w_off s) (w_conn s) (w_adj s) (S (w_count s)) (w_out s))
      else bind (finish_term s) (fun t =>
           Ok (mkw (w_nest s) (w_size s) (w_scal s) (w_fac s) (w_fac0 s) (w_contr s) (w_off s) (w_conn s) (w_adj s) (w_count s) (t :: w_out s)))
    else Ok s.

  Definition with_nest (s : wstate) (n : nest) (sz : nat) : wstate :=
    mkw n sz (w_scal s) (w_fac s) (w_fac0 s) (w_contr s) (w_off s) (w_conn s) (w_adj s) (w_count s) (w_out s).
  Definition with_sp (s : wstate) (z : Z) (f : list F) : wstate :=
    mkw (w_nest s) (w_size s) z f (w_fac0 s) (w_contr s) (w_off s) (w_conn s) (w_adj s) (w_count s) (w_out s).
  Definition with_off (s : wstate) (o : nat) : wstate :=
    mkw (w_nest s) (w_size s) (w_scal s) (w_fac s) (w_fac0 s) (w_contr s) o (w_conn s) (w_adj s) (w_count s) (w_out s).

  (** *** recursive_nontensor_wick (wick.hpp:1244-1647) *)
  Section Recursion.
    (** the recursive call, line 1602 *)
    Variable rec : wstate -> res wstate.

    (** One contraction, lines 1429-1632: [off] is the local variable left_op_offset. *)
    Definition contract_one (cl cr : cursor) (off : nat) (l r : op) (s : wstate) : res wstate :=
      bind (connect s cl cr l r) (fun bs =>
      let '(ok, s1) := bs in
      if negb ok then Ok s1
      else
        let phase := if fermi && Z.odd (c_ord cr - c_ord cl - 1) then (-1)%Z else 1%Z in
        let sp_scal := w_scal s1 in
        let sp_fac := w_fac s1 in
        let s2 := with_sp s1 (w_scal s1 * phase) (w_fac s1 ++ contract l r) in
        let s3 := with_nest s2 (c_erase (w_nest s2) cr) (w_size s2 - 1) in
        let s4 := with_nest s3 (c_erase (w_nest s3) cl) (w_size s3 - 1) in
        bind (emit s4) (fun s5 =>
        bind (if negb (Nat.eqb (w_size s5) 0) then rec (with_off s5 off) else Ok s5) (fun s6 =>
        let s7 := with_sp s6 sp_scal sp_fac in
        let s8 := with_nest s7 (c_insert (w_nest s7) cl l) (w_size s7 + 1) in
        let s9 := with_nest s8 (c_insert (w_nest s8) cr r) (w_size s8 + 1) in
        disconnect s9 cl cr l r))).

    (** for (; op_right_iter != end; ), lines 1281-1644 *)
    Fixpoint right_loop (fuel : nat) (cl cr : cursor) (off : nat) (s : wstate) : res wstate :=
      if c_is_end (w_nest s) cr then Ok s
      else match fuel with
           | O => NoFuel
           | S fuel' =>
               match c_read (w_nest s) cl, c_read (w_nest s) cr with
               | Some l, Some r =>
                   bind (if negb (Nat.eqb (c_r cl) (c_r cr)) && can_contract l r then contract_one cl cr off l r s else Ok s)
                        (fun s' => right_loop fuel' cl (c_next (w_nest s') cr) off s')
               | _, _ => Undefined
               end
           end.

    (** for (; op_left_iter != op_left_iter_fence; ...), lines 1272-1645 *)
    Fixpoint left_loop (fuel : nat) (cl : cursor) (off : nat) (s : wstate) : res wstate :=
      if c_is_end (w_nest s) cl then Ok s
      else match fuel with
           | O => NoFuel
           | S fuel' =>
               bind (right_loop (opsize (w_nest s)) cl (c_next (w_nest s) cl) off s) (fun s' =>
               if full then Ok s'
               else left_loop fuel' (c_next (w_nest s') cl) (S off) s')
           end.
  End Recursion.

  (** [depth] bounds the depth of the recursion. *)
  Fixpoint wick (depth : nat) (s : wstate) : res wstate :=
    match depth with
    | O => NoFuel
    | S depth' =>
        match c_advance (w_nest s) (c_begin (w_nest s)) (w_off s) with
        | None => Undefined
        | Some cl =>
            if full then
              match c_read (w_nest s) cl with
              | None => Undefined
              | Some l => if is_qpann l then left_loop (wick depth') (opsize (w_nest s)) cl (w_off s) s else Ok s
              end
            else left_loop (wick depth') (opsize (w_nest s)) cl (w_off s) s
        end
    end.

  Definition ntri (n : nat) : nat := n * (n - 1) / 2.

  (** compute_nontensor_wick (wick.hpp:1180-1238): the terms in the order in which they are
      appended, and the count. [prefactor]: the factors of the prefactor. *)
  Definition compute (input : nest) (prefactor : list F) (depth : nat) : res (list wterm * nat) :=
    match input with
    | [] => Asserted      (* ntri(0), line 757 *)
    | _ =>
      if Nat.eqb (opsize input) 0 then Asserted    (* ntri(0) for the operator partitions, line 949 *)
      else
        let s0 := mkw input (opsize input) 1%Z prefactor (length prefactor) [] 0
                      (repeat 0%N (length input)) (repeat 0 (ntri (length input))) 0 [] in
        bind (wick depth s0) (fun s =>
        if negb full && Nat.eqb nconnections_total 0 then
          if count_only then Ok (rev (w_out s), S (w_count s))
          else let '(phase, ca) := normalize input partners in
               Ok (rev (mkt phase prefactor (normal_operator ca) :: w_out s), w_count s)
        else Ok (rev (w_out s), w_count s))
    end.
End Wick.

(** ** set_nop_connections / set_nop_avoided_connections (wick.hpp:208-264, 301-348), the masks.
    None: an index is out of range (an exception). *)
Definition connection_masks (nnops : nat) (pairs : list (nat * nat)) : option (list N) :=
  if forallb (fun p => (fst p <? nnops) && (snd p <? nnops)) pairs then
    match pairs with
    | [] => Some []
    | _ => Some (fold_left (fun m p => reset_bit (reset_bit m (fst p) (snd p)) (snd p) (fst p)) pairs
                           (repeat (N.ones 32) nnops))
    end
  else None.

(** nop_nconnections_total_ after the call (line 255): the size of the list cached for a deferred
    call. Called directly for an operator sequence that list is empty. *)
Definition nconnections_total_of (deferred : bool) (pairs : list (nat * nat)) : nat :=
  if deferred then length pairs else 0.
