(** What is assumed of the character classes and of floating-point numbers, and which expressions have a text form
    that can be read again. *)
From Coq Require Import ZArith List Bool QArith Qcanon String.
From Verif Require Import Tsr_Model Ser_Model.
Import ListNotations.
Close Scope Q_scope.
Open Scope Z_scope.
Open Scope list_scope.

(** The classes are as usual on ASCII; letters and the marks that may begin the label of an index are not white
    space; the label of a fermionic normal operator is a letter. *)
Record usual (cs : charset) : Prop := {
  u_alpha : forall c, 0 <= c < 128 -> alpha cs c = ((65 <=? c) && (c <=? 90) || (97 <=? c) && (c <=? 122))%bool;
  u_alnum : forall c, 0 <= c < 128 -> alnum cs c = (alpha cs c || (48 <=? c) && (c <=? 57))%bool;
  u_blank : forall c, 0 <= c < 128 -> blank cs c = ((9 <=? c) && (c <=? 13) || (c =? 32))%bool;
  u_upper : forall c, 0 <= c < 128 -> upper cs c = ((65 <=? c) && (c <=? 90))%bool;
  u_letter : forall c, alpha cs c = true -> blank cs c = false;
  u_marks : forall c, In c [8314; 8315; 771; 8593; 8595] -> blank cs c = false;
  u_fermi : alpha cs 227 = true }.

(** Integers up to [2^53] are read exactly. *)
Definition exact (real : bool -> str -> str -> option Z -> Q) : Prop :=
  forall neg ds, value_of ds <= 9007199254740992 -> real neg ds [] None = Qmake (if neg then - value_of ds else value_of ds) 1.

(** A name: a letter, then letters, digits, underscores, …, the last of which is not an underscore. It does not begin
    with [inf] or [nan], in small or in capital letters. *)
Definition small (c : Z) : Z := if (65 <=? c) && (c <=? 90) then c + 32 else c.
Definition numeric (n : str) : Prop := map small (firstn 3 n) = txt "inf" \/ map small (firstn 3 n) = txt "nan".
Definition name_ok (cs : charset) (n : str) : Prop :=
  exists c w, n = c :: w /\ alpha cs c = true /\ Forall (fun x => word cs x = true) w /\ (w = [] \/ last w 0 <> 95) /\ ~ numeric n.

(** A real number with a numerator and a denominator up to [2^53]. *)
Definition moderate (q : Qc) : Prop := Z.abs (numer q) <= 9007199254740992 /\ denom q <= 9007199254740992.
Definition real_number (c : cplx) : Prop := moderate (fst c) /\ snd c = 0%Qc.

Section Good.
  Variables (cs : charset) (known : str -> bool) (distinct : list index -> bool) (psort : list index -> list index) (min_tmp : Z).
  Variable annot : bool.
  Variable defaults : symmetry * bksymmetry * colsymmetry.

  (** A label: a known space and an ordinal that is not reserved and fits into 32 bits. *)
  Definition label_ok (k : str) (o : option Z) : Prop :=
    k <> [] /\ Forall (fun c => index_char cs c = true) k /\ known k = true /\ exists n, o = Some n /\ 0 <= n < min_tmp /\ n <= 4294967295.
  Definition proto_ok (i : index) : Prop := exists k o, i = Ix k o [] /\ label_ok k o.
  (** An index whose proto-indices have none themselves, are in order and are distinct. *)
  Definition index_ok (i : index) : Prop :=
    exists k o ps, i = Ix k o ps /\ label_ok k o /\ Forall proto_ok ps /\ psort ps = ps /\ distinct ps = true.

  Definition tensor_ok (t : tensor) : Prop :=
    name_ok cs (t_label t) /\ (forall b v, t_label t <> op_label b v) /\
    Forall index_ok (t_bra t) /\ Forall index_ok (t_ket t) /\ Forall index_ok (t_aux t) /\
    distinct (t_bra t) = true /\ distinct (t_ket t) = true /\ distinct (t_aux t) = true /\
    (t_symm t = Nonsymm \/ t_cs t = ColSymm) /\
    (t_bks t = BKSymm -> t_label t <> [194] /\ t_label t <> [348]) /\
    (annot = true \/ defaults = (t_symm t, t_bks t, t_cs t)).

  Definition is_constant (e : expr) : bool := match e with ECon _ => true | _ => false end.
  Definition atomic_ok (e : expr) : Prop :=
    match e with
    | ECon c => real_number c
    | EVar v => name_ok cs (fst v)
    | EPow b x _ =>
        moderate x /\
        match b with
        | inl c => real_number c /\ (c = (0, 0)%Qc -> 0 <= numer x)
        | inr v => name_ok cs (fst v)
        end
    | ETen t => tensor_ok t
    | EOp _ _ cre ann => Forall index_ok cre /\ Forall index_ok ann
    | EProd _ _ | ESum _ => False
    end.
  (** A product has a factor, and a second one or a scalar that is not one; a sum has two summands or more, none of
      them zero or a sum, at most one of them a constant. *)
  Inductive good : expr -> Prop :=
  | good_atom e : atomic_ok e -> good e
  | good_prod c fs : real_number c -> fs <> [] -> (c = (1, 0)%Qc -> (2 <= List.length fs)%nat) ->
      (forall f, In f fs -> good f) -> (forall f, In f fs -> is_constant f = false) -> good (EProd c fs)
  | good_sum l : (2 <= List.length l)%nat -> (forall f, In f l -> good f) -> (forall f, In f l -> is_sum f = false /\ is_zero f = false) ->
      (List.length (filter is_constant l) <= 1)%nat -> good (ESum l).
End Good.

(** What a value of expressions satisfies: constants are added, a sum is the sum of the values of its summands, a
    zero constant, a product with a zero scalar and a positive power of zero have the value zero. *)
Record additive {K : Type} (zero : K) (plus : K -> K -> K) (value : expr -> K) : Prop := {
  a_constant : forall a b a' b' : Qc, value (ECon (a + a', b + b')%Qc) = plus (value (ECon (a, b))) (value (ECon (a', b')));
  a_sum : forall l, value (ESum l) = fold_right (fun e k => plus (value e) k) zero l;
  a_zero : value (ECon (0, 0)%Qc) = zero;
  a_product : forall fs, value (EProd (0, 0)%Qc fs) = zero;
  a_power : forall x k, 0 < numer x -> value (EPow (inl (0, 0)%Qc) x k) = zero }.
Record monoid {K : Type} (zero : K) (plus : K -> K -> K) : Prop := {
  m_assoc : forall a b c, plus a (plus b c) = plus (plus a b) c;
  m_comm : forall a b, plus a b = plus b a;
  m_zero : forall a, plus zero a = a }.
