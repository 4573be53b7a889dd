(** * Model of the strategies of an export context, SeQuant/core/export/context.{hpp,cpp}

    The functions for tensors and for variables are the same; objects are a parameter with an equality
    (that of the order of the map). A map is a function. *)
From Coq Require Import List Arith Bool.
Import ListNotations.

(** context.hpp:19-33. *)
Inductive load_strategy := Load | Create.
Inductive zero_strategy := NeverZero | ZeroOnLoad | ZeroOnCreate | ZeroOnReuse | AlwaysZero.

(** [StrategyPair], context.hpp:42-50 and its constructors, context.cpp:24-35. *)
Record pair := { load : load_strategy; zero : zero_strategy }.
Definition default_pair : pair := {| load := Create; zero := ZeroOnCreate |}.
Definition pair_of_load (l : load_strategy) : pair := {| load := l; zero := zero default_pair |}.
Definition pair_of_zero (z : zero_strategy) : pair := {| load := load default_pair; zero := z |}.

Section Ecx.
  Context {X : Type} (xeqb : X -> X -> bool) (global : nat).

  (** [m_tensorStrategies] or [m_variableStrategies], and [m_currentExpressionID]. *)
  Record context := { strategies : nat -> X -> option pair; current : option nat }.

  (** The constructors, context.cpp:75-81. *)
  Definition make (m : X -> option pair) : context :=
    {| strategies := fun id x => if id =? global then m x else None; current := None |}.

  (** The entry found by [loadStrategy] and [zeroStrategy], context.cpp:85-104, 168-187. *)
  Definition entry (c : context) (x : X) : option pair :=
    match strategies c global x with
    | Some p => Some p
    | None => match current c with
              | Some id => strategies c id x
              | None => None
              end
    end.
  Definition loadStrategy (c : context) (x : X) : load_strategy :=
    match entry c x with Some p => load p | None => Create end.
  Definition zeroStrategy (c : context) (x : X) : zero_strategy :=
    match entry c x with Some p => zero p | None => ZeroOnCreate end.

  (** [expression_id.value_or(...)], context.cpp:130-131. *)
  Definition resolve (c : context) (id : option nat) : nat :=
    match id with Some n => n | None => match current c with Some n => n | None => global end end.
  Definition put (c : context) (id : nat) (x : X) (p : pair) : context :=
    {| strategies := fun n y => if (n =? id) && xeqb x y then Some p else strategies c n y; current := current c |}.
  (** [setLoadStrategy], context.cpp:127-140. *)
  Definition setLoadStrategy (c : context) (x : X) (l : load_strategy) (id : option nat) : context :=
    let n := resolve c id in
    put c n x match strategies c n x with None => pair_of_load l | Some p => {| load := l; zero := zero p |} end.
  (** [setZeroStrategy], context.cpp:210-223. *)
  Definition setZeroStrategy (c : context) (x : X) (z : zero_strategy) (id : option nat) : context :=
    let n := resolve c id in
    put c n x match strategies c n x with None => pair_of_zero z | Some p => {| load := load p; zero := z |} end.
  (** [set_current_expression_id], [clear_current_expression_id], context.cpp:258-265. *)
  Definition set_current (c : context) (id : option nat) : context := {| strategies := strategies c; current := id |}.

  (** The calls a user makes. *)
  Inductive call := SetLoad (x : X) (l : load_strategy) (id : option nat) | SetZero (x : X) (z : zero_strategy) (id : option nat)
                  | SetCurrent (id : option nat).
  Definition step (c : context) (k : call) : context :=
    match k with
    | SetLoad x l id => setLoadStrategy c x l id
    | SetZero x z id => setZeroStrategy c x z id
    | SetCurrent id => set_current c id
    end.
  Definition run (c : context) (ks : list call) : context := fold_left step ks c.
End Ecx.
Arguments call : clear implicits.
Arguments context : clear implicits.
