(** Model of index spaces and of their registry (SeQuant/core/space.hpp,
    SeQuant/core/index_space_registry.hpp and .cpp, SeQuant/core/op.hpp, SeQuant/core/wick.hpp,
    SeQuant/domain/mbpt/convention.cpp).

    A bitset (int32_t, SeQuant/core/fwd.hpp:14-20) is an [N]; bit 31 is the reserved one. The values
    a user can construct are below 2^31, so that the order of int32_t is the order of [N].
    A key (std::wstring) is the list of its characters.
    Not modelled: Field, the reserved attribute used by Index, reference / hole / particle spaces
    (the same code as for the vacuum-occupied and the complete space), the text of exceptions. *)
From Coq Require Import List NArith Bool Arith.
Import ListNotations.
Open Scope N_scope.

(** Outcomes: a value, an exception thrown to the caller, or a failed SEQUANT_ASSERT. *)
Inductive res (X : Type) := Ret (x : X) | Threw | Asserted.
Arguments Ret {X}. Arguments Threw {X}. Arguments Asserted {X}.

Definition bind {X Y} (m : res X) (f : X -> res Y) : res Y :=
  match m with Ret x => f x | Threw => Threw | Asserted => Asserted end.
Notation "'do' x <- m ; k" := (bind m (fun x => k)) (at level 200, x name, m at level 100, k at level 200).

(** ** TypeAttr and QuantumNumbersAttr (space.hpp:33-270) *)

(** fwd.hpp:16 *)
Definition reserved : N := 2 ^ 31.

(** The constructor from a bitset with its assertion (space.hpp:51-53, 168-171). *)
Definition mk_bits (b : N) : res N := if N.land b reserved =? 0 then Ret b else Asserted.

(** space.hpp:77-79, 90-92, 101-103 *)
Definition bits_unIon (a b : N) : res N := mk_bits (N.lor a b).
Definition bits_xOr (a b : N) : res N := mk_bits (N.lxor a b).
Definition bits_intersection (a b : N) : res N := mk_bits (N.land a b).
(** operator~ (space.hpp:112): the complement in 32 bits, converted through the constructor. *)
Definition bits_not (a : N) : res N := mk_bits (N.lxor a (N.ones 32)).
(** space.hpp:122-124 *)
Definition bits_includes (a b : N) : bool := N.land a b =? b.

(** ** IndexSpace (space.hpp:283-545) *)
Definition key := list N.
Record space := mks { skey : key; sty : N; sqn : N; ssize : N }.

(** IndexSpace::null: the default-constructed space. *)
Definition null : space := mks [] 0 0 0.

Definition attr_eqb (s : space) (t q : N) : bool := (sty s =? t) && (sqn s =? q).

Fixpoint key_eqb (a b : key) : bool :=
  match a, b with
  | [], [] => true
  | x :: a', y :: b' => (x =? y) && key_eqb a' b'
  | _, _ => false
  end.

(** std::wstring::operator< *)
Fixpoint key_ltb (a b : key) : bool :=
  match a, b with
  | _, [] => false
  | [], _ :: _ => true
  | x :: a', y :: b' => (x <? y) || ((x =? y) && key_ltb a' b')
  end.

(** operator== (space.hpp:608-612): equal attributes and equal keys. *)
Definition space_eqb (a b : space) : bool := attr_eqb a (sty b) (sqn b) && key_eqb (skey a) (skey b).
(** operator bool (space.hpp:440) *)
Definition is_null (s : space) : bool := space_eqb s null.

(** reduce_key (space.hpp:488-530): up to the first underscore if there is one, otherwise up to
    the first digit unless it comes first, otherwise everything. std::iswdigit is modelled as the
    ASCII digits. *)
Definition underscore : N := 95.
Definition is_digit (c : N) : bool := (48 <=? c) && (c <=? 57).
Fixpoint take_until (p : N -> bool) (k : key) : key :=
  match k with
  | [] => []
  | c :: k' => if p c then [] else c :: take_until p k'
  end.
Definition reduce_key (k : key) : key :=
  if existsb (N.eqb underscore) k then take_until (N.eqb underscore) k
  else
    match k with
    | [] => []
    | c :: k' => if is_digit c then k else take_until is_digit k
    end.

(** ** IndexSpaceRegistry *)

(** spaces_ (flat set ordered by base_key), physical_particle_attribute_mask_, and the default
    parts of vacocc_ and complete_ (index_space_registry.hpp:1366-1376, 1457-1472). *)
Record reg := mkr { spaces : list space; mask : N; vacocc : N; complete : N }.

Definition with_spaces (r : reg) (l : list space) : reg := mkr l (mask r) (vacocc r) (complete r).

(** lookup by key in the set *)
Definition find_key (r : reg) (k : key) : option space := find (fun s => key_eqb (skey s) k) (spaces r).
(** retrieve_ptr(label) (157-162) *)
Definition retrieve_label (r : reg) (k : key) : option space := find_key r (reduce_key k).
(** retrieve_ptr(type, qns), retrieve_ptr(attr) (197-204, 228-233) *)
Definition retrieve_attr (r : reg) (t q : N) : option space := find (fun s => attr_eqb s t q) (spaces r).
(** retrieve(type, qns) (212-222) *)
Definition retrieve (r : reg) (t q : N) : res space :=
  match retrieve_attr r t q with Some s => Ret s | None => Threw end.
(** find_by_attr (1391-1398) *)
Definition find_by_attr (r : reg) (t q : N) : space :=
  match retrieve_attr r t q with Some s => s | None => null end.
(** contains(space) (258-260): by attributes *)
Definition contains (r : reg) (s : space) : bool :=
  match retrieve_attr r (sty s) (sqn s) with Some _ => true | None => false end.

(** emplace into the flat set *)
Fixpoint set_insert (s : space) (l : list space) : list space :=
  match l with
  | [] => [s]
  | x :: l' =>
      if key_ltb (skey s) (skey x) then s :: l
      else if key_ltb (skey x) (skey s) then x :: set_insert s l'
      else l
  end.

(** add (288-317) *)
Definition add (r : reg) (s : space) : res reg :=
  match find_key r (skey s) with
  | Some _ => Threw
  | None =>
      if existsb (fun x => attr_eqb x (sty s) (sqn s)) (spaces r) then Threw
      else Ret (with_spaces r (set_insert s (spaces r)))
  end.

(** remove (532-538) *)
Definition remove (r : reg) (s : space) : reg :=
  match find_key r (skey s) with
  | Some _ => with_spaces r (filter (fun x => negb (key_eqb (skey x) (skey s))) (spaces r))
  | None => r
  end.

(** replace (554-557). The registry left behind is returned also when the addition throws. *)
Definition replace (r : reg) (s : space) : res reg * reg :=
  let r1 := remove r s in
  match add r1 s with Ret r2 => (Ret r2, r2) | Threw => (Threw, r1) | Asserted => (Asserted, r1) end.

(** the default constructor (91-97): a registry with the null space *)
Definition empty_reg : reg := mkr [null] 0 0 0.

(** has_single_bit (1385-1387), is_base(type) (893-895) *)
Definition is_base_type (t : N) : bool := negb (t =? 0) && (N.land t (t - 1) =? 0).
(** physical_particle_attributes and other_attributes (index_space_registry.cpp:19-27) *)
Definition physical_attributes (r : reg) (q : N) : N := N.land q (mask r).
Definition other_attributes (r : reg) (q : N) : N := N.ldiff q (mask r).
(** is_base(space) (866-870) *)
Definition is_base (r : reg) (s : space) : bool := is_base_type (sty s) && (other_attributes r (sqn s) =? 0).

(** compute_approximate_size (1516-1536) *)
Definition compute_size (r : reg) (t q : N) : res N :=
  if is_base_type t then (do s <- retrieve r t q; Ret (ssize s))
  else
    Ret (fold_left (fun n s => n + ssize s)
           (filter (fun s => (sqn s =? q) && is_base_type (sty s) && negb (N.land t (sty s) =? 0)) (spaces r))
           0).

(** The attribute computed by add_unIon and add_intersection from at least two components
    (420-443, 487-511). *)
Definition fold_attr (f : N -> N -> N) (c : list space) : res (N * N) :=
  match c with
  | x :: (_ :: _) as c' => Ret (fold_left (fun a s => (f (fst a) (sty s), f (snd a) (sqn s))) (tl c) (sty x, sqn x))
  | _ => Asserted
  end.

(** add_unIon (409-457) and add_intersection (477-526), without tags *)
Definition add_unIon (r : reg) (k : key) (c : list space) : res reg :=
  do a <- fold_attr N.lor c;
  do n <- compute_size r (fst a) (snd a);
  add r (mks k (fst a) (snd a) n).
Definition add_intersection (r : reg) (k : key) (c : list space) : res reg :=
  do a <- fold_attr N.land c;
  do n <- compute_size r (fst a) (snd a);
  add r (mks k (fst a) (snd a) n).

(** valid_intersection (570-574): the comparison with IndexSpace::Type::null looks at the type. *)
Definition valid_intersection (r : reg) (a b : space) : bool :=
  negb (N.land (sty a) (sty b) =? 0) &&
  match retrieve_attr r (N.land (sty a) (sty b)) (N.land (sqn a) (sqn b)) with Some _ => true | None => false end.

(** intersection (606-634) *)
Definition intersection (r : reg) (a b : space) : res space :=
  if space_eqb a b then Ret a
  else
    let target := N.land (sqn a) (sqn b) in
    if (target =? 0) && negb (sqn a =? sqn b) then Ret null
    else
      let t := N.land (sty a) (sty b) in
      let s := find_by_attr r t (sqn a) in
      if is_null s && negb (t =? 0) then Threw else Ret s.

(** valid_unIon (662-688) *)
Definition valid_unIon (r : reg) (a b : space) : bool :=
  if negb (bits_includes (sty a) (sty b)) && (sqn a =? sqn b) then
    negb (is_null (find_by_attr r (N.lor (sty a) (sty b)) (sqn a)))
  else if negb (bits_includes (sqn a) (sqn b)) && (sty a =? sty b) then
    negb (is_null (find_by_attr r (sty a) (N.lor (sqn a) (sqn b))))
  else false.

(** unIon (724-756) *)
Definition unIon (r : reg) (a b : space) : res space :=
  if negb (contains r a) then Threw
  else if negb (contains r b) then Threw
  else if space_eqb a b then Ret a
  else if negb (sqn a =? sqn b) then Threw
  else
    let s := find_by_attr r (N.lor (sty a) (sty b)) (sqn a) in
    if is_null s then Threw else Ret s.

(** ** Occupancy *)

(** vacuum_occupied_space(bool) and (qn) (1039-1065); complete_space (1172-1196). The type is an
    exception if it was never set. *)
Definition vacuum_occupied (r : reg) (q : N) : res space :=
  if vacocc r =? 0 then Threw else retrieve r (vacocc r) q.
Definition complete_space (r : reg) (q : N) : res space :=
  if complete r =? 0 then Threw else retrieve r (complete r) q.
(** vacuum_unoccupied_space (1201-1208) *)
Definition vacuum_unoccupied (r : reg) (q : N) : res space :=
  do c <- complete_space r q;
  do o <- vacuum_occupied r q;
  retrieve r (N.land (N.lxor (sty c) (sty o)) (sty c)) q.

(** is_pure_occupied (902-913): an integer comparison of the bit patterns *)
Definition is_pure_occupied (r : reg) (s : space) : res bool :=
  if is_null s then Ret false else do o <- vacuum_occupied r (sqn s); Ret (sty s <=? sty o).
(** is_pure_unoccupied (933-943) *)
Definition is_pure_unoccupied (r : reg) (s : space) : res bool :=
  if is_null s then Ret false
  else do o <- vacuum_occupied r (physical_attributes r (sqn s)); Ret (N.land (sty s) (sty o) =? 0).
(** contains_occupied, contains_unoccupied (960-963, 980-983) *)
Definition contains_occupied (r : reg) (s : space) : res bool :=
  do o <- vacuum_occupied r (sqn s); Ret (negb (N.land (sty s) (sty o) =? 0)).
Definition contains_unoccupied (r : reg) (s : space) : res bool :=
  do u <- vacuum_unoccupied r (sqn s); Ret (negb (N.land (sty s) (sty u) =? 0)).

(** ** Operators: a space and an action (true: Action::Create) *)
Record sop := mko { osp : space; ocr : bool }.

(** Short-circuit evaluation of (a && x) || (b && y), where x and y cannot fail. *)
Definition either (a : res bool) (x : bool) (b : res bool) (y : bool) : res bool :=
  do u <- a; if u && x then Ret true else (do v <- b; Ret (v && y)).

(** op.hpp:199-241, 268-311, Vacuum::SingleProduct *)
Definition is_pure_qpcreator (r : reg) (o : sop) : res bool :=
  either (is_pure_occupied r (osp o)) (negb (ocr o)) (is_pure_unoccupied r (osp o)) (ocr o).
Definition is_qpcreator (r : reg) (o : sop) : res bool :=
  either (contains_occupied r (osp o)) (negb (ocr o)) (contains_unoccupied r (osp o)) (ocr o).
Definition is_pure_qpannihilator (r : reg) (o : sop) : res bool :=
  either (is_pure_unoccupied r (osp o)) (negb (ocr o)) (is_pure_occupied r (osp o)) (ocr o).
Definition is_qpannihilator (r : reg) (o : sop) : res bool :=
  either (contains_occupied r (osp o)) (ocr o) (contains_unoccupied r (osp o)) (negb (ocr o)).
(** op.hpp:243-264, 313-335 *)
Definition qpcreator_space (r : reg) (o : sop) : res space :=
  do v <- (if ocr o then vacuum_unoccupied r (sqn (osp o)) else vacuum_occupied r (sqn (osp o)));
  intersection r (osp o) v.
Definition qpannihilator_space (r : reg) (o : sop) : res space :=
  do v <- (if ocr o then vacuum_occupied r (sqn (osp o)) else vacuum_unoccupied r (sqn (osp o)));
  intersection r (osp o) v.

(** can_contract (wick.hpp:1650-1668) *)
Definition can_contract (r : reg) (a b : sop) : res bool :=
  do u <- is_qpannihilator r a;
  if negb u then Ret false
  else
    do v <- is_qpcreator r b;
    if negb v then Ret false
    else
      do x <- qpannihilator_space r a;
      do y <- qpcreator_space r b;
      do c <- intersection r x y;
      Ret (negb (is_null c)).

(** contract (wick.hpp:1670-1733): a product of overlaps and Kronecker deltas. The indices are
    those of the two operators and up to two new ones, over the given space. *)
Inductive idx := ILeft | IRight | INewLeft (s : space) | INewRight (s : space).
Inductive factor := Overlap (bra ket : idx) | Kronecker (bra ket : idx).

Definition contract (r : reg) (a b : sop) : res (list factor) :=
  do ok <- can_contract r a b;
  if negb ok then Asserted
  else
    do lp <- is_pure_qpannihilator r a;
    do rp <- is_pure_qpcreator r b;
    do c <- (if negb lp || negb rp
             then do x <- qpannihilator_space r a; do y <- qpcreator_space r b; intersection r x y
             else Ret null);
    let left_ann := negb (ocr a) in
    if negb (left_ann || negb (ocr b)) then Asserted
    else
      let li := if lp then ILeft else INewLeft c in
      let ri := if rp then IRight else INewRight c in
      let bra := if left_ann then ILeft else IRight in
      let ket := if left_ann then IRight else ILeft in
      let bra_pure := if left_ann then lp else rp in
      let ket_pure := if left_ann then rp else lp in
      let bra_q := if left_ann then li else ri in
      let ket_q := if left_ann then ri else li in
      Ret (Overlap bra_q ket_q ::
           (if bra_pure then [] else [Kronecker bra bra_q]) ++
           (if ket_pure then [] else [Kronecker ket_q ket])).

(** ** Setting the occupied space for particular quantum numbers (1010-1015, 1424-1455) *)

(** throw_if_missing_any: for every space and every entry of the map that it matches, the entry is
    put into the set of found ones with try_emplace, whose second result (true if inserted) is
    asserted to be false. [assertions] tells whether SEQUANT_ASSERT is enabled. *)
Fixpoint missing_inner (assertions : bool) (s : space) (total : nat) (m : list (N * N)) (found : list N)
  : res (option (list N)) :=
  match m with
  | [] => Ret (Some found)
  | (q, t) :: m' =>
      if attr_eqb s t q then
        let inserted := negb (existsb (N.eqb q) found) in
        let found' := if inserted then q :: found else found in
        if assertions && inserted then Asserted
        else if Nat.eqb (length found') total then Ret None
        else missing_inner assertions s total m' found'
      else missing_inner assertions s total m' found
  end.
(** Ret tt: returned; *)
Fixpoint missing_outer (assertions : bool) (l : list space) (m : list (N * N)) (found : list N) : res unit :=
  match l with
  | [] => Threw
  | s :: l' =>
      match missing_inner assertions s (length m) m found with
      | Ret None => Ret tt
      | Ret (Some f) => missing_outer assertions l' m f
      | Threw => Threw
      | Asserted => Asserted
      end
  end.
Definition throw_if_missing_any (assertions : bool) (r : reg) (m : list (N * N)) : res unit :=
  missing_outer assertions (spaces r) m [].
