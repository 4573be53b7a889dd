(** * Specification of default contexts, scopes and operator registries *)
From Coq Require Import List Arith Bool.
From Verif Require Import Ctx_Model.
Import ListNotations.

(** ** 1. Scopes *)

(** A program that changes the global context only by entering scopes. *)
Fixpoint scopes_only {H C} (p : prog H C) : Prop :=
  match p with
  | PNil => True
  | PUpd _ _ => False
  | PHeap _ p => scopes_only p
  | PObs p => scopes_only p
  | PThrow => True
  | PScope _ body p => scopes_only body /\ scopes_only p
  end.

(** Two core contexts that cannot be told apart by reading them: the same
    options and registries with the same content. *)
Definition ctx_same (h : heap) (a b : ctx) : Prop :=
  c_before a = c_before b /\ c_after a = c_after b /\
  exists x, deref h (c_reg a) = Some x /\ deref h (c_reg b) = Some x.

(** ** 2. Reading the default contexts

    The context last given for [s] in a history, the newest call first. *)
Fixpoint last_given (s : nat) (newest_first : list dop) : option ctx :=
  match newest_first with
  | [] => None
  | DSet s' c :: os => if s' =? s then Some c else last_given s os
  | DSetMap l :: os =>
      match find (fun e => fst e =? s) (rev l) with
      | Some e => Some (snd e)
      | None => last_given s os
      end
  | DClear :: _ => None
  | DGet _ :: os => last_given s os
  end.

(** What the documentation promises for get_default_context(s). *)
Definition promised (s : nat) (newest_first : list dop) : ctx :=
  match last_given s newest_first with
  | Some c => c
  | None => match last_given Arbitrary newest_first with
            | Some c => c
            | None => ctx_default
            end
  end.

(** ** 3. Operator registries are shared dictionaries

    A dictionary gives for each label the class and the Hermiticity. *)
Definition dict := nat -> option (opclass * herm).
Definition dput (l : nat) (v : option (opclass * herm)) (d : dict) : dict :=
  fun k => if k =? l then v else d k.

(** The Hermiticity of an operator added without one: general operators are
    Hermitian, excitation and deexcitation operators are not
    (op_registry.hpp:22-27). *)
Definition documented_hermiticity (c : opclass) : herm :=
  match c with Ex => NonHermitian | Deex => NonHermitian | Gen => Hermitian end.

(** Each variable refers to a dictionary, or to none after a move. *)
Record dstore : Type := mkDS { d_dicts : list dict; d_vars : list (option nat) }.

Definition dict_of (i : nat) (s : dstore) : option (nat * dict) :=
  match nth_error (d_vars s) i with
  | Some (Some p) =>
      match nth_error (d_dicts s) p with Some d => Some (p, d) | None => None end
  | _ => None
  end.
Definition put_dict (p : nat) (d : dict) (s : dstore) : dstore :=
  mkDS (set_nth p d (d_dicts s)) (d_vars s).
Definition put_vars (v : list (option nat)) (s : dstore) : dstore :=
  mkDS (d_dicts s) v.

Definition spec_step (reserved : nat -> bool) (op : rop) (s : dstore)
  : option (rout * dstore) :=
  let on i (k : nat -> dict -> option (rout * dstore)) :=
    match dict_of i s with Some (p, d) => k p d | None => None end in
  let fresh d := mkDS (d_dicts s ++ [d]) (d_vars s ++ [Some (length (d_dicts s))]) in
  let add i l c h :=
    on i (fun p d =>
      if reserved l then Some (OExc, s)
      else match d l with
           | Some _ => Some (OExc, s)
           | None => Some (ODone, put_dict p (dput l (Some (c, h)) d) s)
           end) in
  match op with
  | RNew => Some (ODone, fresh (fun _ => None))
  | RFrom _ => None
  | RCopy i => match nth_error (d_vars s) i with
               | Some r => Some (ODone, put_vars (d_vars s ++ [r]) s)
               | None => None
               end
  | RMove i => match nth_error (d_vars s) i with
               | Some r => Some (ODone, put_vars (set_nth i None (d_vars s) ++ [r]) s)
               | None => None
               end
  | RClone i => on i (fun _ d => Some (ODone, fresh d))
  | RAssign i j => match nth_error (d_vars s) i, nth_error (d_vars s) j with
                   | Some _, Some r => Some (ODone, put_vars (set_nth i r (d_vars s)) s)
                   | _, _ => None
                   end
  | RMoveAssign i j =>
      match nth_error (d_vars s) i, nth_error (d_vars s) j with
      | Some _, Some r =>
          Some (ODone, put_vars (set_nth i r (set_nth j None (d_vars s))) s)
      | _, _ => None
      end
  | RAdd i l c => add i l c (documented_hermiticity c)
  | RAddH i l c h => add i l c h
  | RSet i l h =>
      on i (fun p d => match d l with
                       | None => Some (OExc, s)
                       | Some (c, _) => Some (ODone, put_dict p (dput l (Some (c, h)) d) s)
                       end)
  | RRemove i l =>
      on i (fun p d => match d l with
                       | None => Some (OExc, s)
                       | Some _ => Some (ODone, put_dict p (dput l None d) s)
                       end)
  | RPurge i => on i (fun p _ => Some (ODone, put_dict p (fun _ => None) s))
  | RContains i l =>
      on i (fun _ d => Some (OBool (match d l with Some _ => true | None => false end), s))
  | RClass i l =>
      on i (fun _ d => Some (match d l with Some (c, _) => OClass c | None => OExc end, s))
  | RHerm i l =>
      on i (fun _ d => Some (match d l with Some (_, h) => OHerm h | None => OExc end, s))
  end.
Fixpoint spec_run (reserved : nat -> bool) (os : list rop) (s : dstore)
  : list (option rout) :=
  match os with
  | [] => []
  | o :: os =>
      match spec_step reserved o s with
      | None => [None]
      | Some (r, s) => Some r :: spec_run reserved os s
      end
  end.
Definition spec_init : dstore := mkDS [] [].

(** No registry is built from the map of another one. *)
Definition no_from (os : list rop) : Prop := forall i, ~ In (RFrom i) os.
