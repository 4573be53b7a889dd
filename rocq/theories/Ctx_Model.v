(** * Model of the default contexts, their scoped replacement, and of the
    registry of operators.

    Sources: SeQuant/core/utility/context.hpp, SeQuant/core/context.cpp,
    SeQuant/domain/mbpt/context.cpp, SeQuant/domain/mbpt/op_registry.{hpp,cpp}.

    Not modelled: the mutex guarding the contexts (one thread is modelled),
    and the fact that the context getters return references (the model returns
    the value the reference denotes when it is returned). *)

From Coq Require Import List Arith Bool.
Import ListNotations.

(** ** 1. Scoped replacement of a global context

    SeQuant/core/utility/context.hpp:11-60.  The template is modelled for an
    arbitrary type of context [C].  Contexts hold shared pointers, so the
    comparison of contexts looks at a heap [H]; it may also dereference a null
    pointer, which is the answer [None]. *)
Section Scoped.
Variables H C : Type.
(** [operator!=] of two contexts *)
Variable neq : H -> C -> C -> option bool.

(** Programs that manipulate the global context.
    - [PUpd g p]: overwrite the global context (set_implicit_context,
      reset_implicit_context, and every function built from them,
      context.hpp:23-31);
    - [PHeap f p]: change an object reachable through a pointer;
    - [PObs p]: read the global context (context.hpp:18-21);
    - [PThrow]: throw an exception;
    - [PScope f body p]: [{ auto r = set_scoped_implicit_context(f()); body }]
      followed by [p]. *)
Inductive prog : Type :=
| PNil
| PUpd (g : C -> C) (p : prog)
| PHeap (f : H -> C -> H) (p : prog)
| PObs (p : prog)
| PThrow
| PScope (f : H -> C -> C) (body p : prog).

(** The result of a terminated program: final heap, final global context,
    whether an exception is propagating, and what was read. *)
Record res : Type := mkRes {
  r_heap : H; r_ctx : C; r_throw : bool; r_obs : list (H * C) }.

Definition add_obs (o : list (H * C)) (r : option res) : option res :=
  match r with
  | None => None
  | Some r => Some (mkRes (r_heap r) (r_ctx r) (r_throw r) (o ++ r_obs r))
  end.

(** ImplicitContextResetter::~ImplicitContextResetter, context.hpp:39-41: the
    destructor runs on normal exit and on stack unwinding. *)
Definition resetter_dtor (previous_ctx : option C) (r : res) : res :=
  match previous_ctx with
  | Some c => mkRes (r_heap r) c (r_throw r) (r_obs r)
  | None => r
  end.

(** set_scoped_implicit_context, context.hpp:51-59: the new global context and
    the content of the resetter. *)
Definition set_scoped (h : H) (cur new : C) : option (C * option C) :=
  match neq h cur new with
  | None => None
  | Some true => Some (new, Some cur)
  | Some false => Some (cur, None)
  end.

Fixpoint exec (p : prog) (h : H) (c : C) : option res :=
  match p with
  | PNil => Some (mkRes h c false [])
  | PUpd g p => exec p h (g c)
  | PHeap f p => exec p (f h c) c
  | PObs p => add_obs [(h, c)] (exec p h c)
  | PThrow => Some (mkRes h c true [])
  | PScope f body p =>
      match set_scoped h c (f h c) with
      | None => None
      | Some (c', prev) =>
          match exec body h c' with
          | None => None
          | Some r =>
              let r := resetter_dtor prev r in
              if r_throw r then Some r
              else add_obs (r_obs r) (exec p (r_heap r) (r_ctx r))
          end
      end
  end.
End Scoped.
Arguments PNil {H C}.
Arguments PUpd {H C} g p.
Arguments PHeap {H C} f p.
Arguments PObs {H C} p.
Arguments PThrow {H C}.
Arguments PScope {H C} f body p.
Arguments mkRes {H C} r_heap r_ctx r_throw r_obs.
Arguments r_heap {H C} r.
Arguments r_ctx {H C} r.
Arguments r_throw {H C} r.
Arguments r_obs {H C} r.
Arguments add_obs {H C} o r.
Arguments resetter_dtor {H C} previous_ctx r.

(** ** 2. The core context

    SeQuant/core/context.hpp.  The fields of a Context compared before the
    registries (vacuum, metric, strictness flag, spbasis, ordinal of the first
    dummy index) are one number, and so are those compared after them
    (canonicalization options, typesettings).  The shared pointer to the
    IndexSpaceRegistry is an optional address; a registry's content is a
    number. *)
Record ctx : Type := mkCtx {
  c_before : nat; c_reg : option nat; c_after : nat }.

(** registries, by address *)
Definition heap := list nat.

(** Context{} (context.cpp:129-146 with default options): null registry *)
Definition ctx_default : ctx := mkCtx 0 None 0.

Definition deref (h : heap) (p : option nat) : option nat :=
  match p with None => None | Some a => nth_error h a end.

(** operator==(Context,Context), context.cpp:19-36.  The conjunction stops at
    the first difference; comparing the registries dereferences both pointers.
    The shortcut for two references to the same object is not modelled. *)
Definition ctx_eq (h : heap) (a b : ctx) : option bool :=
  if c_before a =? c_before b then
    match deref h (c_reg a), deref h (c_reg b) with
    | Some x, Some y => Some ((x =? y) && (c_after a =? c_after b))
    | _, _ => None
    end
  else Some false.

(** enum Statistics, core/attr.hpp:159-163 *)
Definition FermiDirac : nat := 0.
Definition BoseEinstein : nat := 1.
Definition Arbitrary : nat := 2.

(** container::map<Statistics, Context>: a list sorted by key *)
Definition ctxmap := list (nat * ctx).

Fixpoint cm_find (s : nat) (m : ctxmap) : option ctx :=
  match m with
  | [] => None
  | (k, c) :: m => if k =? s then Some c else cm_find s m
  end.

(** assignment to an existing element, or emplace of a new one
    (context.cpp:72-80) *)
Fixpoint cm_set (s : nat) (c : ctx) (m : ctxmap) : ctxmap :=
  match m with
  | [] => [(s, c)]
  | (k, d) :: m' =>
      if s =? k then (s, c) :: m'
      else if s <? k then (s, c) :: m
      else (k, d) :: cm_set s c m'
  end.

(** set_default_context(ctx, s), context.cpp:68-81 *)
Definition set_default_context (c : ctx) (s : nat) (m : ctxmap) : ctxmap :=
  cm_set s c m.

(** set_default_context(map), context.cpp:87-92 *)
Definition set_default_contexts (l : ctxmap) (m : ctxmap) : ctxmap :=
  fold_left (fun m e => set_default_context (snd e) (fst e) m) l m.

(** get_default_context(s), context.cpp:46-66: the context returned and the
    map afterwards (the entry for Arbitrary is made on demand; the recursive
    call on line 65 is the case of s = Arbitrary) *)
Definition get_arbitrary (m : ctxmap) : ctx * ctxmap :=
  match cm_find Arbitrary m with
  | Some c => (c, m)
  | None =>
      let m := set_default_context ctx_default Arbitrary m in
      match cm_find Arbitrary m with
      | Some c => (c, m)
      | None => (ctx_default, m) (* not reached *)
      end
  end.
Definition get_default_context (s : nat) (m : ctxmap) : ctx * ctxmap :=
  if s =? Arbitrary then get_arbitrary m
  else match cm_find s m with
       | Some c => (c, m)
       | None => get_arbitrary m
       end.

(** reset_default_context, context.cpp:94-99 *)
Definition reset_default_context (m : ctxmap) : ctxmap := [].

(** operator== of two maps: the same size and pairwise equal elements *)
Fixpoint cm_equal (h : heap) (m1 m2 : ctxmap) : option bool :=
  match m1, m2 with
  | [], [] => Some true
  | (k1, c1) :: m1, (k2, c2) :: m2 =>
      if k1 =? k2 then
        match ctx_eq h c1 c2 with
        | None => None
        | Some false => Some false
        | Some true => cm_equal h m1 m2
        end
      else Some false
  | _, _ => Some false
  end.
Definition cm_neq (h : heap) (m1 m2 : ctxmap) : option bool :=
  if length m1 =? length m2 then
    match cm_equal h m1 m2 with None => None | Some b => Some (negb b) end
  else Some true.

(** Calls that read and write the default contexts. *)
Inductive dop : Type :=
| DSet (s : nat) (c : ctx)
| DSetMap (l : ctxmap)
| DClear
| DGet (s : nat).
Definition dstep (o : dop) (m : ctxmap) : option ctx * ctxmap :=
  match o with
  | DSet s c => (None, set_default_context c s m)
  | DSetMap l => (None, set_default_contexts l m)
  | DClear => (None, reset_default_context m)
  | DGet s => let (c, m) := get_default_context s m in (Some c, m)
  end.
(** A history of calls, starting with the empty map (the function-local static
    of context.hpp:12-15), and what each returned. *)
Fixpoint drun (os : list dop) (m : ctxmap) : list (option ctx) :=
  match os with
  | [] => []
  | o :: os => let (r, m) := dstep o m in r :: drun os m
  end.
Fixpoint dstate (os : list dop) (m : ctxmap) : ctxmap :=
  match os with
  | [] => m
  | o :: os => dstate os (snd (dstep o m))
  end.

(** The argument of set_scoped_default_context(Context), context.cpp:112-118 *)
Definition scoped_map (c : ctx) : ctxmap := [(Arbitrary, c)].

(** Core programs: [PScope] is set_scoped_default_context,
    context.cpp:101-127. *)
Definition core_exec := exec heap ctxmap cm_neq.

(** ** 3. The registry of operators

    Labels are numbers; which of them are reserved (core/reserved.hpp:50-60)
    is a parameter. *)
Inductive opclass : Type := Ex | Deex | Gen.
Inductive herm : Type := Hermitian | NonHermitian | AntiHermitian.

(** default_hermiticity, op_registry.hpp:28-31 *)
Definition default_hermiticity (c : opclass) : herm :=
  match c with Gen => Hermitian | _ => NonHermitian end.

(** maps from labels, as association lists *)
Fixpoint lfind {A} (l : nat) (m : list (nat * A)) : option A :=
  match m with
  | [] => None
  | (k, a) :: m => if k =? l then Some a else lfind l m
  end.
Definition lerase {A} (l : nat) (m : list (nat * A)) : list (nat * A) :=
  filter (fun e => negb (fst e =? l)) m.
Definition linsert {A} (l : nat) (a : A) (m : list (nat * A)) : list (nat * A) :=
  (l, a) :: lerase l m.
(** emplace does nothing if the key is present *)
Definition lemplace {A} (l : nat) (a : A) (m : list (nat * A)) : list (nat * A) :=
  match lfind l m with Some _ => m | None => (l, a) :: m end.

Definition set_nth {A} (n : nat) (a : A) (l : list A) : list A :=
  firstn n l ++ match skipn n l with [] => [] | _ :: t => a :: t end.

(** An OpRegistry (op_registry.hpp:122-126): two shared pointers, both null
    after a move. *)
Record reg : Type := mkReg { g_ops : option nat; g_herm : option nat }.
(** The maps the pointers lead to, and the OpRegistry variables. *)
Record rstate : Type := mkRS {
  s_ops : list (list (nat * opclass));
  s_herm : list (list (nat * herm));
  s_vars : list reg }.

Inductive rop : Type :=
| RNew
| RFrom (i : nat)
| RCopy (i : nat) | RMove (i : nat) | RClone (i : nat)
| RAssign (i j : nat) | RMoveAssign (i j : nat)
| RAdd (i l : nat) (c : opclass)
| RAddH (i l : nat) (c : opclass) (h : herm)
| RSet (i l : nat) (h : herm)
| RRemove (i l : nat)
| RPurge (i : nat)
| RContains (i l : nat)
| RClass (i l : nat)
| RHerm (i l : nat).

Inductive rout : Type :=
| ODone | OExc | OBool (b : bool) | OClass (c : opclass) | OHerm (h : herm).

(** the maps of variable [i]; [None]: no such variable or a null pointer *)
Definition maps_of (i : nat) (s : rstate)
  : option (nat * list (nat * opclass) * nat * list (nat * herm)) :=
  match nth_error (s_vars s) i with
  | Some (mkReg (Some p) (Some q)) =>
      match nth_error (s_ops s) p, nth_error (s_herm s) q with
      | Some o, Some h => Some (p, o, q, h)
      | _, _ => None
      end
  | _ => None
  end.

Section Registry.
Variable reserved : nat -> bool.

(** The result of a step: [None] when a null pointer is dereferenced. *)
Definition rstep (op : rop) (s : rstate) : option (rout * rstate) :=
  match op with
  | RNew => (* op_registry.hpp:43-46 *)
      Some (ODone, mkRS (s_ops s ++ [[]]) (s_herm s ++ [[]])
                        (s_vars s ++ [mkReg (Some (length (s_ops s)))
                                            (Some (length (s_herm s)))]))
  | RFrom i => (* op_registry.hpp:50-53, from the map registry [i] was made of *)
      match nth_error (s_vars s) i with
      | Some (mkReg (Some p) _) =>
          Some (ODone, mkRS (s_ops s) (s_herm s ++ [[]])
                            (s_vars s ++ [mkReg (Some p) (Some (length (s_herm s)))]))
      | _ => None
      end
  | RCopy i => (* op_registry.hpp:56-57 *)
      match nth_error (s_vars s) i with
      | Some r => Some (ODone, mkRS (s_ops s) (s_herm s) (s_vars s ++ [r]))
      | None => None
      end
  | RMove i => (* op_registry.hpp:60-62 *)
      match nth_error (s_vars s) i with
      | Some r => Some (ODone, mkRS (s_ops s) (s_herm s)
                         (set_nth i (mkReg None None) (s_vars s) ++ [r]))
      | None => None
      end
  | RClone i => (* op_registry.cpp:88-96 *)
      match maps_of i s with
      | Some (_, o, _, h) =>
          Some (ODone, mkRS (s_ops s ++ [o]) (s_herm s ++ [h])
                        (s_vars s ++ [mkReg (Some (length (s_ops s)))
                                            (Some (length (s_herm s)))]))
      | None => None
      end
  | RAssign i j => (* i = j, op_registry.cpp:23-27 *)
      match nth_error (s_vars s) i, nth_error (s_vars s) j with
      | Some _, Some r =>
          Some (ODone, mkRS (s_ops s) (s_herm s) (set_nth i r (s_vars s)))
      | _, _ => None
      end
  | RMoveAssign i j => (* i = std::move(j), op_registry.cpp:29-33 *)
      match nth_error (s_vars s) i, nth_error (s_vars s) j with
      | Some _, Some r =>
          Some (ODone, mkRS (s_ops s) (s_herm s)
                 (set_nth i r (set_nth j (mkReg None None) (s_vars s))))
      | _, _ => None
      end
  | RAdd i l c => (* op_registry.cpp:12-21, 35-39 *)
      match maps_of i s with
      | Some (p, o, _, _) =>
          if reserved l then Some (OExc, s)
          else match lfind l o with
               | Some _ => Some (OExc, s)
               | None => Some (ODone, mkRS (set_nth p (lemplace l c o) (s_ops s))
                                           (s_herm s) (s_vars s))
               end
      | None => None
      end
  | RAddH i l c hm => (* op_registry.cpp:41-47 *)
      match maps_of i s with
      | Some (p, o, q, h) =>
          if reserved l then Some (OExc, s)
          else match lfind l o with
               | Some _ => Some (OExc, s)
               | None => Some (ODone, mkRS (set_nth p (lemplace l c o) (s_ops s))
                                           (set_nth q (linsert l hm h) (s_herm s))
                                           (s_vars s))
               end
      | None => None
      end
  | RSet i l hm => (* op_registry.cpp:49-57 *)
      match maps_of i s with
      | Some (_, o, q, h) =>
          match lfind l o with
          | None => Some (OExc, s)
          | Some _ => Some (ODone, mkRS (s_ops s)
                                        (set_nth q (linsert l hm h) (s_herm s))
                                        (s_vars s))
          end
      | None => None
      end
  | RRemove i l => (* op_registry.cpp:59-67 *)
      match maps_of i s with
      | Some (p, o, q, h) =>
          match lfind l o with
          | None => Some (OExc, s)
          | Some _ => Some (ODone, mkRS (set_nth p (lerase l o) (s_ops s))
                                        (set_nth q (lerase l h) (s_herm s))
                                        (s_vars s))
          end
      | None => None
      end
  | RPurge i => (* op_registry.hpp:115-118 *)
      match maps_of i s with
      | Some (p, _, q, _) =>
          Some (ODone, mkRS (set_nth p [] (s_ops s)) (set_nth q [] (s_herm s))
                            (s_vars s))
      | None => None
      end
  | RContains i l => (* op_registry.cpp:69-71 *)
      match maps_of i s with
      | Some (_, o, _, _) =>
          Some (OBool (match lfind l o with Some _ => true | None => false end), s)
      | None => None
      end
  | RClass i l => (* op_registry.cpp:73-80 *)
      match maps_of i s with
      | Some (_, o, _, _) =>
          match lfind l o with
          | Some c => Some (OClass c, s)
          | None => Some (OExc, s)
          end
      | None => None
      end
  | RHerm i l => (* op_registry.cpp:82-86 *)
      match maps_of i s with
      | Some (_, o, _, h) =>
          match lfind l h with
          | Some hm => Some (OHerm hm, s)
          | None => match lfind l o with
                    | Some c => Some (OHerm (default_hermiticity c), s)
                    | None => Some (OExc, s)
                    end
          end
      | None => None
      end
  end.

(** The outputs of a history; [None] marks undefined behaviour and ends it. *)
Fixpoint rrun (os : list rop) (s : rstate) : list (option rout) :=
  match os with
  | [] => []
  | o :: os =>
      match rstep o s with
      | None => [None]
      | Some (r, s) => Some r :: rrun os s
      end
  end.
Fixpoint rfinal (os : list rop) (s : rstate) : option rstate :=
  match os with
  | [] => Some s
  | o :: os => match rstep o s with None => None | Some (_, s) => rfinal os s end
  end.
Definition rinit : rstate := mkRS [] [] [].

(** operator==(OpRegistry,OpRegistry), op_registry.hpp:136-139.  Two sorted
    maps are equal when they hold the same associations. *)
Definition opclass_eqb (a b : opclass) : bool :=
  match a, b with Ex, Ex | Deex, Deex | Gen, Gen => true | _, _ => false end.
Definition herm_eqb (a b : herm) : bool :=
  match a, b with
  | Hermitian, Hermitian | NonHermitian, NonHermitian
  | AntiHermitian, AntiHermitian => true
  | _, _ => false
  end.
Definition opt_eqb {A} (e : A -> A -> bool) (a b : option A) : bool :=
  match a, b with
  | Some a, Some b => e a b
  | None, None => true
  | _, _ => false
  end.
Definition map_eqb {A} (e : A -> A -> bool) (m1 m2 : list (nat * A)) : bool :=
  forallb (fun k => opt_eqb e (lfind k m1) (lfind k m2))
          (map fst m1 ++ map fst m2).
Definition reg_eq (i j : nat) (s : rstate) : option bool :=
  match maps_of i s, maps_of j s with
  | Some (_, o1, _, h1), Some (_, o2, _, h2) =>
      Some (map_eqb opclass_eqb o1 o2 && map_eqb herm_eqb h1 h2)
  | _, _ => None
  end.
End Registry.

(** The context of mbpt, mbpt/context.cpp:64-72: a flag and an optional
    pointer; the content of an operator registry is a number here. *)
Record mctx : Type := mkM { m_csv : nat; m_reg : option nat }.
Definition mctx_neq (h : heap) (a b : mctx) : option bool :=
  if negb (m_csv a =? m_csv b) then Some true
  else match m_reg a, m_reg b with
       | None, None => Some false
       | Some p, Some q =>
           match nth_error h p, nth_error h q with
           | Some x, Some y => Some (negb (x =? y))
           | _, _ => None
           end
       | _, _ => Some true
       end.
Definition mbpt_exec := exec heap mctx mctx_neq.
