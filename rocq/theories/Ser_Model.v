(** Model of the text form of expressions: SeQuant/core/io/serialization/v1/serialize.cpp (to_string),
    deserialize.cpp (the grammar), semantic_actions.hpp and ast_conversions.hpp (from_string).

    The grammar is written with Boost.Spirit X3; its operators are modelled as the X3 documentation defines
    them: [a >> b] is a sequence that gives back its input if it fails, [a | b] an ordered choice, [-a] an
    option, [a % b] a list, [a > b] a sequence that throws if [b] fails. Every literal skips white space first
    unless it is inside [lexeme]. Positions of errors are not modelled. *)
From Coq Require Import ZArith List Arith Bool QArith Qcanon String Ascii.
From Verif Require Import Tsr_Model.
Import ListNotations.
Close Scope Q_scope.
Open Scope nat_scope.
Open Scope list_scope.

(** Strings are lists of code points. *)
Definition str := list Z.
Fixpoint txt (s : string) : str :=
  match s with EmptyString => [] | String a s' => Z.of_N (N_of_ascii a) :: txt s' end.
Notation "c ==? d" := (Z.eqb c d) (at level 70).
Fixpoint same (a b : str) : bool :=
  match a, b with [], [] => true | x :: a', y :: b' => (x ==? y) && same a' b' | _, _ => false end.

(** The classes of characters of the standard library and of Boost, as far as they are used. *)
Record charset := mkcharset { alpha : Z -> bool; alnum : Z -> bool; blank : Z -> bool; upper : Z -> bool; unassigned : Z -> bool }.

(** ** Expressions *)

(** [Complex<rational>]. *)
Definition cplx := (Qc * Qc)%type.
Definition variable := (str * bool)%type.
(** [Index]: the base key of its space, the ordinal and the proto-indices. The index with an empty key and no
    ordinal is [Index::null]. The space is the one that the registry knows under the key. *)
Inductive index := Ix (key : str) (ord : option Z) (protos : list index).
Record tensor := mkt { t_label : str; t_bra : list index; t_ket : list index; t_aux : list index;
                       t_symm : symmetry; t_bks : bksymmetry; t_cs : colsymmetry }.
(** [Constant], [Variable], [Power], [Tensor], [NormalOperator] (of bosons or not, with respect to the vacuum of
    a single product or not), [Product], [Sum]. *)
Inductive expr :=
| ECon (c : cplx)
| EVar (v : variable)
| EPow (b : cplx + variable) (e : Qc) (conj : bool)
| ETen (t : tensor)
| EOp (bose single : bool) (cre ann : list index)
| EProd (c : cplx) (fs : list expr)
| ESum (l : list expr).

(** ** Writing *)

(** [std::to_wstring], [cpp_int::str]. *)
Fixpoint digits_of (fuel : nat) (n : Z) (acc : str) : str :=
  match fuel with
  | O => acc
  | S f => if (n <? 10)%Z then (48 + n)%Z :: acc else digits_of f (n / 10) ((48 + n mod 10)%Z :: acc)
  end.
Definition nat_str (n : Z) : str := digits_of (S (Z.to_nat (Z.log2 n))) n [].
Definition int_str (n : Z) : str := if (n <? 0)%Z then 45%Z :: nat_str (- n) else nat_str n.

Definition numer (q : Qc) : Z := Qnum (this q).
Definition denom (q : Qc) : Z := Zpos (Qden (this q)).

(** [serialize_scalar], serialize.cpp:89-130. *)
Definition frac_str (n d : Z) : str := int_str n ++ (if (d ==? 1)%Z then [] else txt "/" ++ int_str d).
Definition scalar_str (c : cplx) : str :=
  let (re, im) := c in
  if (numer re ==? 0) && (numer im ==? 0) then txt "0"
  else
    let s := if numer re ==? 0 then [] else frac_str (numer re) (denom re) in
    if numer im ==? 0 then s
    else match s with
         | [] => frac_str (numer im) (denom im)
         | _ => s ++ (if (numer im <? 0)%Z then txt " - i " else txt " + i ") ++ frac_str (Z.abs (numer im)) (denom im)
         end.

(** [Index::label], index.hpp:588-597. *)
Definition label_str (key : str) (ord : option Z) : str := key ++ match ord with None => [] | Some n => txt "_" ++ int_str n end.
Fixpoint commas (l : list str) : str :=
  match l with [] => [] | [s] => s | s :: l' => s ++ txt "," ++ commas l' end.
(** [to_string] of an [Index], serialize.cpp:268-285: only the label of a proto-index is written. *)
Definition index_str (i : index) : str :=
  match i with
  | Ix k o [] => label_str k o
  | Ix k o ps => label_str k o ++ txt "<" ++ commas (map (fun p => match p with Ix k' o' _ => label_str k' o' end) ps) ++ txt ">"
  end.
Definition indices_str (l : list index) : str := commas (map index_str l).

(** [serialize_symm], serialize.cpp:52-87. *)
Definition symm_str (s : symmetry) : str := match s with Symm => txt "S" | Antisymm => txt "A" | Nonsymm => txt "N" end.
Definition bks_str (s : bksymmetry) : str := match s with BKConjugate => txt "C" | BKSymm => txt "S" | BKNonsymm => txt "N" end.
Definition cs_str (s : colsymmetry) : str := match s with ColSymm => txt "S" | ColNonsymm => txt "N" end.

(** [to_string] of an [AbstractTensor], serialize.cpp:287-311; [annot] is the option [annot_symm]. *)
Definition tensor_str (annot : bool) (t : tensor) : str :=
  t_label t ++ txt "{" ++ indices_str (t_bra t) ++
  (match t_ket t with [] => [] | k => txt ";" ++ indices_str k end) ++
  (match t_aux t with [] => [] | a => (match t_ket t with [] => txt ";" | _ => [] end) ++ txt ";" ++ indices_str a end) ++
  txt "}" ++
  (if annot then txt ":" ++ symm_str (t_symm t) ++ txt "-" ++ bks_str (t_bks t) ++ txt "-" ++ cs_str (t_cs t) else []).

(** [NormalOperator::labels], op.cpp:23-38: the operators with respect to the physical vacuum and to that of a
    single product. *)
Definition op_label (bose single : bool) : str :=
  match bose, single with
  | false, false => txt "a" | false, true => [227%Z]
  | true, false => txt "b" | true, true => [98%Z; 771%Z]
  end.
(** [to_string] of a [NormalOperator], serialize.cpp:318-329. *)
Definition op_str (bose single : bool) (cre ann : list index) : str :=
  op_label bose single ++ txt "{" ++ indices_str ann ++ (match cre with [] => [] | c => txt ";" ++ indices_str c end) ++ txt "}".

Definition var_str (v : variable) : str := fst v ++ (if snd v then txt "^*" else []).

(** [to_string] of a [Power], serialize.cpp:146-162. *)
Definition pow_str (b : cplx + variable) (e : Qc) (conj : bool) : str :=
  let base := match b with
              | inl c => txt "(" ++ scalar_str c ++ txt ")"
              | inr v => if snd v then txt "(" ++ var_str v ++ txt ")" else var_str v
              end in
  let core := base ++ txt "^(" ++ scalar_str (e, 0%Qc) ++ txt ")" in
  if conj then txt "(" ++ core ++ txt ")^*" else core.

Definition is_one (c : cplx) : bool := (numer (fst c) ==? 1) && (denom (fst c) ==? 1) && (numer (snd c) ==? 0).
Definition is_zero_c (c : cplx) : bool := (numer (fst c) ==? 0) && (numer (snd c) ==? 0).

(** [to_string] of a [Product] and of a [Sum], serialize.cpp:164-223; with the statement
    [current_serialized += "(" + current_serialized + ")"] for a sum in a sum. *)
Fixpoint stars (l : list str) : str :=
  match l with [] => [] | [s] => s | s :: l' => s ++ txt " * " ++ stars l' end.
Definition addend_str (s : str) (issum : bool) : str :=
  if issum then txt " + " ++ s ++ txt "(" ++ s ++ txt ")"
  else match s with 45%Z :: s' => txt " - " ++ s' | _ => txt " + " ++ s end.
Definition is_sum (e : expr) : bool := match e with ESum _ => true | _ => false end.
Definition sum_str (l : list (expr * str)) : str :=
  match l with
  | [] => []
  | (e, s) :: l' => (if is_sum e then s ++ txt "(" ++ s ++ txt ")" else s) ++ flat_map (fun x => addend_str (snd x) (is_sum (fst x))) l'
  end.
Section Write.
  Variable annot : bool.
  Fixpoint to_string (e : expr) : str :=
    match e with
    | ECon c => scalar_str c
    | EVar v => var_str v
    | EPow b x k => pow_str b x k
    | ETen t => tensor_str annot t
    | EOp f v cr an => op_str f v cr an
    | EProd c fs =>
        (if is_one c then [] else scalar_str c ++ txt " ") ++
        stars (map (fun f => match f with EProd _ _ | ESum _ => txt "(" ++ to_string f ++ txt ")" | _ => to_string f end) fs)
    | ESum l => sum_str (map (fun f => (f, to_string f)) l)
    end.
End Write.

(** ** Reading: the syntax tree, ast.hpp *)

(** A number read by [x3::double_]. *)
Inductive num := Fin (q : Q) | NonFinite.
Definition ilabel := (str * Z)%type.
Record iast := mki { i_label : ilabel; i_protos : list ilabel }.
Record tast := mkta { a_name : str; a_bra : list iast; a_ket : list iast; a_aux : list iast;
                      a_symm : option (Z * option Z * option Z) }.
Inductive ast :=
| ANum (n d : num)
| ATen (t : tast)
| AVar (v : variable)
| APow (b : num * num + variable) (e : num * num) (conj : bool)
| ASum (l : list (list ast)).

(** ** Reading: the grammar, deserialize.cpp:74-140 *)

(** The result of a parser: a value and the rest of the input; failure; an exception. [Fuel] does not occur. *)
Inductive res (A : Type) := Ok (a : A) (s : str) | Fail | Throw | Fuel.
Arguments Ok {A}. Arguments Fail {A}. Arguments Throw {A}. Arguments Fuel {A}.
Definition bind {A B} (r : res A) (f : A -> str -> res B) : res B :=
  match r with Ok a s => f a s | Fail => Fail | Throw => Throw | Fuel => Fuel end.
(** [a > b]. *)
Definition must {A} (r : res A) : res A := match r with Fail => Throw | _ => r end.
Definition either {A} (r : res A) (r' : res A) : res A := match r with Fail => r' | _ => r end.
Definition optional {A} (r : res A) (s : str) : res (option A) :=
  match r with Ok a s' => Ok (Some a) s' | Fail => Ok None s | Throw => Throw | Fuel => Fuel end.

Fixpoint span (p : Z -> bool) (s : str) : str * str :=
  match s with
  | c :: s' => if p c then let (a, b) := span p s' in (c :: a, b) else ([], s)
  | [] => ([], [])
  end.
Definition is_digit (c : Z) : bool := (48 <=? c)%Z && (c <=? 57)%Z.
(** A literal without skipping. *)
Definition lit0 (c : Z) (s : str) : res unit := match s with x :: s' => if x ==? c then Ok tt s' else Fail | [] => Fail end.
Definition value_of (ds : str) : Z := fold_left (fun n c => (10 * n + (c - 48))%Z) ds 0%Z.

Section Read.
  Variable cs : charset.
  (** What [x3::double_] makes of a sign, digits, digits after the dot, an exponent. *)
  Variable real : bool -> str -> str -> option Z -> Q.
  (** What X3 makes of a name that would end in an underscore; see below. *)
  Variable torn : str -> str.

  Definition skip (s : str) : str := snd (span (blank cs) s).
  Definition lit (c : Z) (s : str) : res unit := lit0 c (skip s).
  (** A literal of two characters. *)
  Definition lit2 (c d : Z) (s : str) : res unit := bind (lit c s) (fun _ => lit0 d).

  Definition word (c : Z) : bool :=
    alnum cs c || (c ==? 95) || (c ==? 8276) || (c ==? 771) || (c ==? 770)
    || ((8304 <=? c)%Z && (c <=? 8351)%Z && negb (unassigned cs c))
    || (c ==? 185) || (c ==? 178) || (c ==? 179)
    || ((8592 <=? c)%Z && (c <=? 8703)%Z && negb (unassigned cs c)).
  (** [name_def] inside [lexeme]. The inner repetition takes all but the last of the longest run of word
      characters; if the last one is an underscore, the whole option fails and only one letter is consumed. What
      the name is then depends on whether X3 takes back the characters that it has stored; this is left open
      unless there are none. *)
  Definition name (s : str) : res str :=
    match s with
    | c :: s' =>
        if alpha cs c then
          let (w, s'') := span word s' in
          match w with
          | [] => Ok [c] s'
          | [_] => if last w 0%Z ==? 95 then Ok [c] s' else Ok (c :: w) s''
          | _ => if last w 0%Z ==? 95 then Ok (torn (c :: w)) s' else Ok (c :: w) s''
          end
        else Fail
    | [] => Fail
    end.

  (** [x3::double_], boost/spirit/home/x3/support/numeric_utils (real_impl.hpp, real_policies.hpp). *)
  Definition p_sign (s : str) : bool * str :=
    match s with
    | c :: s' => if c ==? 45 then (true, s') else if c ==? 43 then (false, s') else (false, s)
    | [] => (false, [])
    end.
  Definition letter (l u c : Z) : bool := (c ==? l) || (c ==? u).
  Definition p_nan (s : str) : option str :=
    match s with
    | a :: b :: c :: s' =>
        if letter 110 78 a && letter 97 65 b && letter 110 78 c then
          match s' with
          | 40%Z :: t => match span (fun x => negb (x ==? 41)) t with (_, _ :: t') => Some t' | _ => None end
          | _ => Some s'
          end
        else None
    | _ => None
    end.
  Definition p_inf (s : str) : option str :=
    match s with
    | a :: b :: c :: s' =>
        if letter 105 73 a && letter 110 78 b && letter 102 70 c then
          match s' with
          | d :: e :: f :: g :: h :: t =>
              if letter 105 73 d && letter 110 78 e && letter 105 73 f && letter 116 84 g && letter 121 89 h then Some t else Some s'
          | _ => Some s'
          end
        else None
    | _ => None
    end.
  Definition p_exp (s : str) : option Z * str :=
    match s with
    | c :: s' =>
        if letter 101 69 c then
          let (neg, t) := p_sign s' in
          match span is_digit t with
          | ([], _) => (None, s)
          | (ds, t') => (Some (if neg then (- value_of ds)%Z else value_of ds), t')
          end
        else (None, s)
    | [] => (None, [])
    end.
  Definition p_real (s : str) : res num :=
    let (neg, s1) := p_sign (skip s) in
    let (ds, s2) := span is_digit s1 in
    match ds, s2 with
    | [], _ =>
        match p_nan s1 with
        | Some t => Ok NonFinite t
        | None =>
            match p_inf s1 with
            | Some t => Ok NonFinite t
            | None =>
                match s2 with
                | 46%Z :: s3 => match span is_digit s3 with
                                | ([], _) => Fail
                                | (fs, s4) => let (e, s5) := p_exp s4 in Ok (Fin (real neg [] fs e)) s5
                                end
                | _ => Fail
                end
            end
        end
    | _, 46%Z :: s3 => let (fs, s4) := span is_digit s3 in let (e, s5) := p_exp s4 in Ok (Fin (real neg ds fs e)) s5
    | _, _ => let (e, s5) := p_exp s2 in Ok (Fin (real neg ds [] e)) s5
    end.

  (** [number_def]. *)
  Definition p_number (s : str) : res (num * num) :=
    bind (p_real s) (fun n s1 =>
    bind (optional (bind (lit 47 s1) (fun _ => p_real)) s1) (fun d s2 =>
    Ok (n, match d with Some x => x | None => Fin 1 end) s2)).

  (** [variable_def]. *)
  Definition p_variable (s : str) : res variable :=
    bind (name (skip s)) (fun n s1 =>
    bind (optional (bind (lit0 94 s1) (fun _ => lit0 42)) s1) (fun k s2 =>
    Ok (n, match k with Some _ => true | None => false end) s2)).

  (** [index_name], [index_label_def]; [x3::uint_] fails above [2^32 - 1]. *)
  Definition index_char (c : Z) : bool :=
    alpha cs c || (c ==? 8314) || (c ==? 8315) || (c ==? 771) || (c ==? 8593) || (c ==? 8595).
  Definition p_ilabel (s : str) : res ilabel :=
    match span index_char (skip s) with
    | ([], _) => Fail
    | (n, s1) =>
        let s2 := match s1 with 95%Z :: t => t | _ => s1 end in
        match span is_digit s2 with
        | ([], _) => Fail
        | (ds, s3) => if (value_of ds <=? 4294967295)%Z then Ok (n, value_of ds) s3 else Fail
        end
    end.
  (** [p % ',']: at least one [p]. *)
  Fixpoint p_list {A} (p : str -> res A) (fuel : nat) (s : str) : res (list A) :=
    match fuel with
    | O => Fuel
    | S f =>
        bind (p s) (fun a s1 =>
        match bind (lit 44 s1) (fun _ => p_list p f) with
        | Ok l s2 => Ok (a :: l) s2
        | Fail => Ok [a] s1
        | Throw => Throw
        | Fuel => Fuel
        end)
    end.
  Definition commalist {A} (p : str -> res A) (s : str) : res (list A) := p_list p (S (List.length s)) s.
  (** [index_def]. *)
  Definition p_index (s : str) : res iast :=
    bind (p_ilabel s) (fun l s1 =>
    bind (optional (bind (lit 60 s1) (fun _ s2 => bind (commalist p_ilabel s2) (fun ps s3 => bind (lit 62 s3) (fun _ s4 => Ok ps s4)))) s1) (fun o s5 =>
    Ok (mki l (match o with Some ps => ps | None => [] end)) s5)).
  Definition p_indices (s : str) : res (list iast) :=
    bind (optional (commalist p_index s) s) (fun o s1 => Ok (match o with Some l => l | None => [] end) s1).
  (** [index_groups_def]: bra, ket, auxiliary indices. *)
  Definition p_two (o1 o2 m1 m2 : Z) (s : str) : res (list iast * list iast) :=
    bind (bind (lit o1 s) (fun _ => lit0 o2)) (fun _ s1 =>
    bind (must (p_indices s1)) (fun b s2 =>
    bind (must (bind (bind (lit 125 s2) (fun _ => lit0 m1)) (fun _ => lit0 m2))) (fun _ s3 =>
    bind (must (p_indices s3)) (fun k s4 =>
    bind (must (lit 125 s4)) (fun _ s5 => Ok (b, k) s5))))).
  Definition p_semi (s : str) : res (list iast) :=
    bind (optional (bind (lit 59 s) (fun _ s1 => must (p_indices s1))) s) (fun o s2 => Ok (match o with Some l => l | None => [] end) s2).
  Definition p_groups (s : str) : res (list iast * list iast * list iast) :=
    either (bind (p_two 95 123 94 123 s) (fun x s1 => Ok (fst x, snd x, []) s1))
    (either (bind (p_two 94 123 95 123 s) (fun x s1 => Ok (snd x, fst x, []) s1))
            (bind (lit 123 s) (fun _ s1 =>
             bind (must (p_indices s1)) (fun b s2 =>
             bind (must (p_semi s2)) (fun k s3 =>
             bind (must (p_semi s3)) (fun a s4 =>
             bind (must (lit 125 s4)) (fun _ s5 => Ok (b, k, a) s5))))))).
  (** [symmetry_spec_def] inside [lexeme]. *)
  Definition p_upper (s : str) : res Z := match s with c :: s' => if upper cs c then Ok c s' else Fail | [] => Fail end.
  Definition p_symm (s : str) : res (Z * option Z * option Z) :=
    bind (lit0 58 s) (fun _ s1 =>
    bind (p_upper s1) (fun a s2 =>
    bind (optional (bind (lit0 45 s2) (fun _ => p_upper)) s2) (fun b s3 =>
    bind (optional (bind (lit0 45 s3) (fun _ => p_upper)) s3) (fun c s4 => Ok (a, b, c) s4)))).
  (** [tensor_def]. *)
  Definition p_tensor (s : str) : res tast :=
    bind (name (skip s)) (fun n s1 =>
    bind (p_groups s1) (fun g s2 =>
    bind (optional (p_symm s2) s2) (fun y s3 =>
    match g with (b, k, a) => Ok (mkta n b k a y) s3 end))).

  (** [power_core], [power_def]. *)
  Definition numvar (s : str) : res (num * num + variable) :=
    either (bind (p_number s) (fun n s1 => Ok (inl n) s1)) (bind (p_variable s) (fun v s1 => Ok (inr v) s1)).
  Definition p_core (s : str) : res ((num * num + variable) * (num * num)) :=
    bind (either (bind (lit 40 s) (fun _ s1 => bind (numvar s1) (fun b s2 => bind (lit 41 s2) (fun _ s3 => Ok b s3)))) (numvar s)) (fun b s1 =>
    bind (lit 94 s1) (fun _ s2 =>
    bind (lit 40 s2) (fun _ s3 =>
    bind (p_number s3) (fun e s4 =>
    bind (lit 41 s4) (fun _ s5 => Ok (b, e) s5))))).
  Definition p_power (s : str) : res ast :=
    either (bind (p_core s) (fun x s1 => Ok (APow (fst x) (snd x) false) s1))
           (bind (lit 40 s) (fun _ s1 => bind (p_core s1) (fun x s2 => bind (lit 41 s2) (fun _ s3 => bind (lit2 94 42 s3) (fun _ s4 => Ok (APow (fst x) (snd x) true) s4))))).

  (** [nullary]. *)
  Definition p_nullary (s : str) : res ast :=
    either (bind (p_number s) (fun n s1 => Ok (ANum (fst n) (snd n)) s1))
    (either (bind (p_tensor s) (fun t s1 => Ok (ATen t) s1)) (bind (p_variable s) (fun v s1 => Ok (AVar v) s1))).

  (** [product_def]: [grouped % -lit('*')]. *)
  Section Product.
    Variable grouped : str -> res ast.
    Fixpoint p_product (fuel : nat) (s : str) : res (list ast) :=
      match fuel with
      | O => Fuel
      | S f =>
          bind (grouped s) (fun a s1 =>
          let s2 := match lit 42 s1 with Ok _ t => t | _ => s1 end in
          match p_product f s2 with
          | Ok l s3 => Ok (a :: l) s3
          | Fail => Ok [a] s1
          | Throw => Throw
          | Fuel => Fuel
          end)
      end.
    Definition product (s : str) : res (list ast) := p_product (S (List.length s)) s.
    (** [process_addend]. *)
    Definition signed_product (neg : bool) (p : list ast) : list ast := if neg then ANum (Fin (-1)) (Fin 1) :: p else p.
    (** [*addend]. *)
    Fixpoint p_addends (fuel : nat) (s : str) : res (list (list ast)) :=
      match fuel with
      | O => Fuel
      | S f =>
          match either (bind (lit 43 s) (fun _ s1 => Ok false s1)) (bind (lit 45 s) (fun _ s1 => Ok true s1)) with
          | Ok neg s1 =>
              bind (must (product s1)) (fun p s2 =>
              bind (p_addends f s2) (fun l s3 => Ok (signed_product neg p :: l) s3))
          | _ => Ok [] s
          end
      end.
    (** [sum_def]. *)
    Definition p_sum (s : str) : res (list (list ast)) :=
      bind (match lit 45 s with
            | Ok _ s1 => bind (product s1) (fun p s2 => Ok (signed_product true p) s2)
            | _ => product (match lit 43 s with Ok _ t => t | _ => s end)
            end) (fun p s1 =>
      bind (p_addends (S (List.length s1)) s1) (fun l s2 => Ok (p :: l) s2)).
  End Product.
  (** [grouped]. *)
  Fixpoint grouped (fuel : nat) (s : str) : res ast :=
    match fuel with
    | O => Fuel
    | S f =>
        either (p_power s)
        (either (bind (lit 40 s) (fun _ s1 => bind (must (p_sum (grouped f) s1)) (fun l s2 => bind (must (lit 41 s2)) (fun _ s3 => Ok (ASum l) s3))))
                (p_nullary s))
    end.
  (** [expr_def], [parse], deserialize.cpp:205-243. *)
  Definition parse (s : str) : res (list (list ast)) :=
    bind (optional (p_sum (grouped (S (List.length s))) s) s) (fun o s1 =>
    match skip s1 with
    | [] => Ok (match o with Some l => l | None => [] end) []
    | _ => Throw
    end).

  (** ** Reading: from the syntax tree to the expression, ast_conversions.hpp; [None] is an exception, a failed
      assertion or undefined behaviour *)

  (** The keys of the registered spaces; the order of indices, used to sort proto-indices; the check for
      duplicates; [Index::min_tmp_index]; division of [double]s. *)
  Variable distinct : list index -> bool.
  Variable known : str -> bool.
  Variable psort : list index -> list index.
  Variable min_tmp : Z.
  Variable fdiv : Q -> Q -> Q.

  (** [IndexSpace::reduce_key], space.hpp:487-524; [retrieve], index_space_registry.hpp:167-197. *)
  Definition reduce_key (s : str) : str :=
    match span (fun c => negb (c ==? 95)) s with
    | (a, _ :: _) => a
    | _ => match span (fun c => negb (is_digit c)) s with
           | (c :: a, _ :: _) => c :: a
           | _ => s
           end
    end.
  Definition retrieve (s : str) : option str := let k := reduce_key s in if known k then Some k else None.
  (** [Index::to_ordinal], index.hpp:965-987, for a label with an underscore; [string_to] wants digits only. *)
  Definition to_ordinal (s : str) : option Z :=
    match span (fun c => negb (c ==? 95)) s with
    | (_, _ :: ds) => if forallb is_digit ds then (match ds with [] => None | _ => Some (value_of ds) end) else None
    | _ => None
    end.
  Definition all_some {A} (l : list (option A)) : option (list A) :=
    fold_right (fun x r => match x, r with Some a, Some l' => Some (a :: l') | _, _ => None end) (Some []) l.

  (** [to_index], ast_conversions.hpp:43-124; [Index] constructors, index.hpp:277-290, 434-446, 952-958. *)
  Definition to_proto (l : ilabel) : option index :=
    let s := fst l ++ txt "_" ++ int_str (snd l) in
    match retrieve s, to_ordinal s with
    | Some k, Some n => if (n <? min_tmp)%Z then Some (Ix k (Some n) []) else None
    | _, _ => None
    end.
  Definition to_index (i : iast) : option index :=
    match all_some (map to_proto (i_protos i)), retrieve (fst (i_label i)) with
    | Some ps, Some k => if (snd (i_label i) <? min_tmp)%Z && distinct (psort ps) then Some (Ix k (Some (snd (i_label i))) (psort ps)) else None
    | _, _ => None
    end.
  Definition to_indices (l : list iast) : option (list index) := all_some (map to_index l).

  (** [to_perm_symmetry], [to_braket_symmetry], [to_column_symmetry], ast_conversions.hpp:126-213. The letters H and
      A for a hermiticity of the bra and the ket, which leave the choice to the spaces of the indices and which
      [to_string] does not write, are not modelled: they count as invalid. *)
  Definition to_symm (c : Z) : option symmetry :=
    if letter 97 65 c then Some Antisymm else if letter 115 83 c then Some Symm else if letter 110 78 c then Some Nonsymm else None.
  Definition to_bks (c : Z) : option bksymmetry :=
    if letter 99 67 c then Some BKConjugate else if letter 115 83 c then Some BKSymm else if letter 110 78 c then Some BKNonsymm else None.
  Definition to_cs (c : Z) : option colsymmetry :=
    if letter 115 83 c then Some ColSymm else if letter 110 78 c then Some ColNonsymm else None.
  (** [DefaultSymmetries], deserialize.cpp:247-274; [to_symmetries], ast_conversions.hpp:230-255. *)
  Variable defaults : symmetry * bksymmetry * colsymmetry.
  Definition to_symmetries (y : option (Z * option Z * option Z)) : option (symmetry * bksymmetry * colsymmetry) :=
    match defaults, y with
    | d, None => Some d
    | (d1, d2, d3), Some (a, b, c) =>
        match to_symm a, (match b with None => Some d2 | Some x => to_bks x end), (match c with None => Some d3 | Some x => to_cs x end) with
        | Some s1, Some s2, Some s3 => Some (s1, s2, s3)
        | _, _, _ => None
        end
    end.

  (** The constructor of [Tensor], tensor.hpp:275-312, with assertions, for slots without null indices. *)
  Definition make_tensor (n : str) (b k a : list index) (s : symmetry) (bk : bksymmetry) (c : colsymmetry) : option tensor :=
    let bk' := if (same n [194%Z] || same n [348%Z]) && (match bk with BKSymm => true | _ => false end) then BKConjugate else bk in
    if distinct b && distinct k && distinct a && (match s, c with Nonsymm, _ => true | _, ColSymm => true | _, ColNonsymm => false end)
    then Some (mkt n b k a s bk' c) else None.
  (** [Transformer::operator()(Tensor)], ast_conversions.hpp:282-344. *)
  Definition op_ok (bose : bool) (t : tast) : bool :=
    (match a_aux t with [] => true | _ => false end) &&
    match a_symm t with
    | None => true
    | Some (a, _, c) => (a ==? (if bose then 83 else 65)) && (match c with None => true | Some x => x ==? 83 end)
    end.
  Definition to_tensor (t : tast) : option expr :=
    match to_indices (a_bra t), to_indices (a_ket t), to_indices (a_aux t), to_symmetries (a_symm t) with
    | Some b, Some k, Some a, Some (s1, s2, s3) =>
        if same (a_name t) (op_label false false) then (if op_ok false t then Some (EOp false false k b) else None)
        else if same (a_name t) (op_label false true) then (if op_ok false t then Some (EOp false true k b) else None)
        else if same (a_name t) (op_label true false) then (if op_ok true t then Some (EOp true false k b) else None)
        else if same (a_name t) (op_label true true) then (if op_ok true t then Some (EOp true true k b) else None)
        else option_map ETen (make_tensor (a_name t) b k a s1 s2 s3)
    | _, _, _, _ => None
    end.

  (** [static_cast<std::int64_t>(x) == x]: the integer, if it is one; undefined if it is out of range. *)
  Definition to_int (x : num) : option (option Z) :=
    match x with
    | NonFinite => None
    | Fin q =>
        let z := (Z.quot (Qnum q) (Zpos (Qden q))) in
        if (-9223372036854775808 <=? z)%Z && (z <? 9223372036854775808)%Z
        then Some (if (z * Zpos (Qden q) ==? Qnum q)%Z then Some z else None) else None
    end.
  Definition ratio (n d : Z) : option Qc :=
    match d with Z0 => None | Zpos p => Some (Q2Qc (n # p)) | Zneg p => Some (Q2Qc ((- n) # p)) end.
  (** [to_constant], ast_conversions.hpp:215-228. *)
  Definition to_constant (n d : num) : option Qc :=
    match to_int n with
    | None => None
    | Some (Some a) => match to_int d with
                       | None => None
                       | Some (Some b) => ratio a b
                       | Some None => match n, d with Fin x, Fin y => Some (Q2Qc (fdiv x y)) | _, _ => None end
                       end
    | Some None => match n, d with Fin x, Fin y => Some (Q2Qc (fdiv x y)) | _, _ => None end
    end.
  (** [Transformer::operator()(Power)], ast_conversions.hpp:361-385; the constructor of [Power], power.hpp:28-40. *)
  Definition to_power (b : num * num + variable) (e : num * num) (conj : bool) : option expr :=
    let base := match b with
                | inl n => option_map (fun q => inl (q, 0%Qc)) (to_constant (fst n) (snd n))
                | inr v => Some (inr v)
                end in
    match base, to_int (fst e), to_int (snd e) with
    | Some x, Some (Some n), Some (Some d) =>
        match ratio n d with
        | None => None
        | Some q =>
            let zero := match x with inl c => is_zero_c c | inr _ => false end in
            if zero && (numer q <? 0)%Z then None else Some (EPow x q conj)
        end
    | _, _, _ => None
    end.

  Definition cmul (a b : cplx) : cplx := ((fst a * fst b - snd a * snd b)%Qc, (fst a * snd b + snd a * fst b)%Qc).
  Definition cadd (a b : cplx) : cplx := ((fst a + fst b)%Qc, (snd a + snd b)%Qc).
  Definition c1 : cplx := (1%Qc, 0%Qc).
  (** The constructor of [Product] with [Flatten::No], product.hpp:84-99, 152-179: constants go into the scalar. *)
  Definition make_product (c : cplx) (fs : list expr) : expr :=
    let (k, gs) := fold_left (fun r f => match f with ECon d => (cmul (fst r) d, snd r) | _ => (fst r, snd r ++ [f]) end) fs (c1, []) in
    EProd (cmul k c) gs.
  (** [Expr::is_zero]: expr.hpp:72, constant.hpp:115, power.hpp:77-80, product.hpp:274. *)
  Definition is_zero (e : expr) : bool :=
    match e with
    | ECon c => is_zero_c c
    | EPow (inl c) x _ => is_zero_c c && (0 <? numer x)%Z
    | EProd c _ => is_zero_c c
    | _ => false
    end.
  (** [Sum::append], sum.hpp:127-151, with [*(summands_[idx]) += *summand] for constants. *)
  Fixpoint add_constant (c : cplx) (l : list expr) : option (list expr) :=
    match l with
    | [] => None
    | ECon d :: l' => Some (ECon (cadd d c) :: l')
    | e :: l' => option_map (cons e) (add_constant c l')
    end.
  Definition append_plain (l : list expr) (e : expr) : list expr :=
    if is_zero e then l
    else match e with
         | ECon c => match add_constant c l with Some l' => l' | None => l ++ [e] end
         | _ => l ++ [e]
         end.
  Fixpoint append (l : list expr) (e : expr) {struct e} : list expr :=
    match e with
    | ESum m => fold_left append m l
    | _ => append_plain l e
    end.
  Definition make_sum (l : list expr) : expr := ESum (fold_left append l []).

  (** [ast_to_expr] of a product, ast_conversions.hpp:403-444. *)
  Definition to_product (fs : list (ast * option expr)) : option expr :=
    match fs with
    | [] => None
    | [(_, r)] => r
    | _ =>
        match fold_left (fun (r : option (Qc * list expr)) (f : ast * option expr) =>
                 match r, f with
                 | Some (k, gs), (ANum n d, _) => option_map (fun q => ((k * q)%Qc, gs)) (to_constant n d)
                 | Some (k, gs), (_, Some e) => Some (k, gs ++ [e])
                 | _, _ => None
                 end) fs (Some (1%Qc, [])) with
        | None => None
        | Some (k, []) => Some (ECon (k, 0%Qc))
        | Some (k, gs) => match gs with
                          | [g] => if is_one (k, 0%Qc) then Some g else Some (make_product (k, 0%Qc) gs)
                          | _ => Some (make_product (k, 0%Qc) gs)
                          end
        end
    end.
  (** [ast_to_expr] of a sum that is not empty, ast_conversions.hpp:446-467. *)
  Definition to_sum (ps : list (option expr)) : option expr :=
    match ps with
    | [r] => r
    | _ => option_map make_sum (all_some ps)
    end.
  Fixpoint conv (a : ast) : option expr :=
    match a with
    | ANum n d => option_map (fun q => ECon (q, 0%Qc)) (to_constant n d)
    | ATen t => to_tensor t
    | AVar v => Some (EVar v)
    | APow b e k => to_power b e k
    | ASum l => to_sum (map (fun p => to_product (map (fun x => (x, conv x)) p)) l)
    end.
  Definition conv_product (p : list ast) : option expr := to_product (map (fun x => (x, conv x)) p).

  (** [from_string<ExprPtr>], deserialize.cpp:276-294. *)
  Inductive outcome := Expression (e : expr) | NullPointer | Error.
  Definition from_string (s : str) : outcome :=
    match parse s with
    | Ok [] _ => NullPointer
    | Ok l _ => match to_sum (map conv_product l) with Some e => Expression e | None => Error end
    | _ => Error
    end.
End Read.
