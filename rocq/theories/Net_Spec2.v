(** What the graph library computes: canonical labellings of coloured graphs. *)
From Coq Require Import List Permutation.
From Verif Require Import Net_Model.
Import ListNotations.

Definition adjacent (g : graph) (u v : vtx) : Prop := In (u, v) (g_edges g) \/ In (v, u) (g_edges g).

(** The graphs are the same up to the names of the vertices. *)
Definition isomorphic (g h : graph) : Prop :=
  exists f, Permutation (map f (g_verts g)) (g_verts h) /\
    (forall v, In v (g_verts g) -> g_color h (f v) = g_color g v) /\
    (forall u v, In u (g_verts g) -> In v (g_verts g) -> (adjacent g u v <-> adjacent h (f u) (f v))).

(** The labels of the vertices are 0, 1, ...; isomorphic graphs become equal when every vertex is replaced
    by its label. *)
Definition canonical_labelling (bliss : graph -> vtx -> nat) : Prop :=
  (forall g, NoDup (g_verts g) -> Permutation (map (bliss g) (g_verts g)) (seq 0 (length (g_verts g)))) /\
  (forall g h, NoDup (g_verts g) -> NoDup (g_verts h) -> isomorphic g h ->
   forall u u' v v', In u (g_verts g) -> In v (g_verts g) -> In u' (g_verts h) -> In v' (g_verts h) ->
     bliss g u = bliss h u' -> bliss g v = bliss h v' ->
     g_color g u = g_color h u' /\ (adjacent g u v <-> adjacent h u' v')).
