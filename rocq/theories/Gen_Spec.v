(** What the calls made to a code generator mean, independently of the optimizer
    (documentation of the callbacks: SeQuant/core/export/generator.hpp:90-150).

    The generated program works on a machine with a main memory, organised as a stack of objects, and
    a permanent store. *)
From Coq Require Import List Arith Bool.
From Verif Require Import Gen_Model.
Import ListNotations.

Section Machine.
Context {V : Type}.
Variable zero : V.
Variable add : V -> V -> V.
(** the value of an expression, given the values of the objects it reads *)
Variable ev : list nat -> list V -> V.
(** the contents of an object created without being set to zero *)
Variable garbage : obj -> V.

Record machine : Type := mkMachine {
  stack : list obj;             (* the objects in memory, the one allocated last first *)
  memory : obj -> option V;     (* their values *)
  store : obj -> option V       (* the permanent store *)
}.
Definition update (f : obj -> option V) (o : obj) (v : option V) : obj -> option V :=
  fun o' => if Nat.eqb o' o then v else f o'.

(** what an observer sees of a computation: its result object, the expression and the values it read *)
Definition computation : Type := (obj * list nat * list V)%type.

Definition allocate (o : obj) (v : option V) (m : machine) : option machine :=
  match memory m o, v with
  | None, Some _ => Some (mkMachine (o :: stack m) (update (memory m) o v) (store m))
  | _, _ => None
  end.
(** memory is released in the reverse order of allocation *)
Definition deallocate (o : obj) (m : machine) : option machine :=
  match stack m with
  | o' :: rest => if Nat.eqb o o' then Some (mkMachine rest (update (memory m) o None) (store m)) else None
  | [] => None
  end.
Fixpoint values (f : obj -> option V) (l : list obj) : option (list V) :=
  match l with
  | [] => Some []
  | o :: l' => match f o, values f l' with Some v, Some vs => Some (v :: vs) | _, _ => None end
  end.
Definition set_store (o : obj) (v : option V) (m : option machine) : option machine :=
  match m with
  | Some m => Some (mkMachine (stack m) (memory m) (update (store m) o v))
  | None => None
  end.

(** one call. None: the call is not allowed in this state. *)
Definition step (x : op) (m : machine) : option (machine * list computation) :=
  let quiet r := match r with Some m' => Some (m', []) | None => None end in
  match x with
  | Create o z => quiet (allocate o (Some (if z then zero else garbage o)) m)
  | Load o => quiet (allocate o (store m o) m)
  | LoadAndZero o => quiet (allocate o (Some zero) m)
  | Zero o => match memory m o with
              | Some _ => Some (mkMachine (stack m) (update (memory m) o (Some zero)) (store m), [])
              | None => None
              end
  | Unload o => quiet (deallocate o m)
  | Destroy o => quiet (set_store o None (deallocate o m))
  | Persist o => quiet (set_store o (memory m o) (deallocate o m))
  | Compute r e args =>
      match memory m r, values (memory m) args with
      | Some v, Some vs =>
          Some (mkMachine (stack m) (update (memory m) r (Some (add v (ev e vs)))) (store m), [(r, e, vs)])
      | _, _ => None
      end
  end.
Fixpoint run (l : list op) (m : machine) : option (machine * list computation) :=
  match l with
  | [] => Some (m, [])
  | x :: l' =>
      match step x m with
      | Some (m', t) => match run l' m' with Some (m'', t') => Some (m'', t ++ t') | None => None end
      | None => None
      end
  end.

(** nothing in memory *)
Definition start (s : obj -> option V) : machine := mkMachine [] (fun _ => None) s.

(** the same state: the same objects in the same order, the same values, the same store *)
Definition same (m m' : machine) : Prop :=
  stack m = stack m' /\ (forall o, memory m o = memory m' o) /\ (forall o, store m o = store m' o).
End Machine.

(** an object that the program only reads *)
Definition only_read (o : obj) (calls : list op) : Prop :=
  forall x, In x calls -> object x = o -> x = Load o \/ x = Unload o.
(** every object that is both loaded and unloaded is an input: between the two it is only read *)
Definition inputs_only_read (calls : list op) : Prop :=
  forall o, In (Load o) calls -> In (Unload o) calls -> only_read o calls.

(** calls that do something that cannot be repeated or left out *)
Definition special (x : op) : bool :=
  match x with Create _ _ | LoadAndZero _ | Destroy _ | Persist _ | Zero _ | Compute _ _ _ => true | _ => false end.
