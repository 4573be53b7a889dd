(** * What a string of characters denotes *)
From Coq Require Import List ZArith Bool.
Import ListNotations.
Local Open Scope Z_scope.

(** [c] is the digit [d] of the base: a decimal digit, or a letter of either case. *)
Definition is_digit (base c d : Z) : Prop :=
  0 <= d < base /\
  ((d < 10 /\ c = 48 + d) \/ (10 <= d < 36 /\ (c = 97 + (d - 10) \/ c = 65 + (d - 10)))).

(** The positional value, most significant digit first. *)
Fixpoint positional (base : Z) (ds : list Z) : Z :=
  match ds with [] => 0 | d :: ds' => d * base ^ Z.of_nat (length ds') + positional base ds' end.

(** [s] denotes [v]: at least one digit, after a minus sign only if [signed]. *)
Definition denotes (signed : bool) (base : Z) (s : list Z) (v : Z) : Prop :=
  exists cs ds, ds <> [] /\ Forall2 (is_digit base) cs ds /\
    ((s = cs /\ v = positional base ds) \/ (signed = true /\ s = 45 :: cs /\ v = - positional base ds)).
