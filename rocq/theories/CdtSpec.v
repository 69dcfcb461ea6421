(** What a constrained Delaunay triangulation of a polygon is expected to be, as far as it matters for choosing
    the triangles inside. *)
From Coq Require Import List Arith Bool Reals.
From Verif Require Import Base DVec Mesh Spec MeshSpec TriSpec TopoSpec.
Import ListNotations.
Set Implicit Arguments.
Unset Strict Implicit.

(** twice the signed area of the triangle o, a, b: positive if it runs counter-clockwise *)
Definition ccw2 (o a b : R * R) : R := ((fst a - fst o) * (snd b - snd o) - (snd a - snd o) * (fst b - fst o))%R.
Definition spot (ps : list (R * R)) (i : nat) : R * R := nth i ps (0, 0)%R.
(** the points are at least [eps] apart *)
Definition spread (eps : R) (ps : list (R * R)) : Prop := forall i j, i < length ps -> j < length ps -> i <> j ->
  (eps <= sqrt ((fst (spot ps j) - fst (spot ps i)) * (fst (spot ps j) - fst (spot ps i)) + (snd (spot ps j) - snd (spot ps i)) * (snd (spot ps j) - snd (spot ps i))))%R.
(** the triangle seen from its corner [v]: [x] and [y] follow counter-clockwise *)
Definition seen (t : nat * nat * nat) (v x y : nat) : Prop := t = (v, x, y) \/ t = (y, v, x) \/ t = (x, y, v).

(** [D] triangulates the points [ps] and respects the polygon they form: the triangles run counter-clockwise,
    there is at most one on each side of an edge, no edge leaves a corner into or along a triangle other than
    along its sides, and some of the triangles triangulate the polygon. *)
Record constrained (ps : list (R * R)) (D : list (nat * nat * nat)) : Prop := {
  ct_index : forall a b c, In (a, b, c) D -> a < length ps /\ b < length ps /\ c < length ps;
  ct_ccw : forall a b c, In (a, b, c) D -> (0 < ccw2 (spot ps a) (spot ps b) (spot ps c))%R;
  ct_once : NoDup (flat_map (@tri_edges nat) D);
  ct_apart : forall t v x y d, In t D -> seen t v x y ->
    In (v, d) (flat_map (@tri_edges nat) D) \/ In (d, v) (flat_map (@tri_edges nat) D) ->
    (0 <= ccw2 (spot ps v) (spot ps x) (spot ps d))%R -> (0 <= ccw2 (spot ps v) (spot ps d) (spot ps y))%R -> d = x \/ d = y;
  ct_inside : exists keep, triangulates (seq 0 (length ps)) (filter keep D) }.

(** a triangle of indices as a triangle of vertices *)
Definition lift3 (l : list nat) (t : nat * nat * nat) : nat * nat * nat := match t with (x, y, z) => (nth x l 0, nth y l 0, nth z l 0) end.

Section Alone.
  Context {VP EP FP : Type}.
  (** the vertices of the face are joined by its own sides only, and differ *)
  Definition alone (g : graph VP EP FP) (f : nat) (l : list nat) : Prop :=
    NoDup l /\ forall e, lv g e = true -> In (og g e) l -> In (og g (tw g e)) l -> fc g e = Some f \/ fc g (tw g e) = Some f.
End Alone.
