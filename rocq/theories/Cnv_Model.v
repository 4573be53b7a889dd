(** * Model of SeQuant/core/utility/conversion.hpp: strings to integers

    Characters are integers. [std::from_chars] for integers is the C++ standard library's and is modelled by
    its definition there ([charconv.from.chars]): the longest prefix that matches an optional minus sign,
    for signed types only, and at least one digit of the base; no plus sign, blanks or prefixes. The types
    [T] are their smallest and largest values [lo], [hi] and whether they are signed. *)
From Coq Require Import List ZArith Bool.
Import ListNotations.
Local Open Scope Z_scope.

(** A digit of the base: 0-9, a-z, A-Z. *)
Definition digit_of (base c : Z) : option Z :=
  let d := if (48 <=? c) && (c <=? 57) then c - 48
           else if (97 <=? c) && (c <=? 122) then c - 87
           else if (65 <=? c) && (c <=? 90) then c - 55 else base in
  if d <? base then Some d else None.

(** The digits at the start, and the rest. *)
Fixpoint span_digits (base : Z) (s : list Z) : list Z * list Z :=
  match s with
  | [] => ([], [])
  | c :: s' => match digit_of base c with
               | Some d => (d :: fst (span_digits base s'), snd (span_digits base s'))
               | None => ([], s)
               end
  end.

Inductive from_chars_result :=
| FInvalid                          (* errc::invalid_argument *)
| FRange                            (* errc::result_out_of_range *)
| FValue (v : Z) (rest : list Z).   (* errc{}, and the characters from [ptr] *)

(** [std::from_chars]. *)
Definition from_chars (signed : bool) (lo hi base : Z) (s : list Z) : from_chars_result :=
  let neg := match s with 45 :: _ => signed | _ => false end in
  let body := if neg then tl s else s in
  let ds := fst (span_digits base body) in
  let m := fold_left (fun acc d => acc * base + d) ds 0 in
  let v := if neg then - m else m in
  match ds with
  | [] => FInvalid
  | _ => if (lo <=? v) && (v <=? hi) then FValue v (snd (span_digits base body)) else FRange
  end.

Inductive conversion_error := NotValid | OutOfRange | NotFullyParsed | NotNumeric.
Inductive cout := COk (v : Z) | CThrow (e : conversion_error).

(** [string_to_impl] for integers, and [string_to] of narrow strings, conversion.hpp:24-56 and 82-87. *)
Definition string_to (signed : bool) (lo hi base : Z) (s : list Z) : cout :=
  match from_chars signed lo hi base s with
  | FInvalid => CThrow NotValid
  | FRange => CThrow OutOfRange
  | FValue v rest => match rest with [] => COk v | _ => CThrow NotFullyParsed end
  end.

(** [static_cast<char>(c)] with a signed [char] of 8 bits. *)
Definition to_char (c : Z) : Z := (c + 128) mod 256 - 128.

(** [string_to] of wide strings, conversion.hpp:89-105. [wchar_t] may be signed. *)
Definition string_to_wide (signed : bool) (lo hi base : Z) (w : list Z) : cout :=
  if existsb (fun c => 127 <? c) w then CThrow NotNumeric
  else string_to signed lo hi base (map to_char w).
