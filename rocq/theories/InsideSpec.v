(** What it means to be inside a polygon, by way of a triangulation. *)
From Coq Require Import QArith Qabs List ZArith.
From Verif Require Import GeoSpec GeoMathSpec TriSpec.
Import ListNotations.

Definition tri_orient (t : pt * pt * pt) : Q := match t with (a, b, c) => orient a b c end.
Definition in_triangle (p : pt) (t : pt * pt * pt) : Prop := match t with (a, b, c) => weakly_inside p a b c end.
Definition in_triangle_strictly (p : pt) (t : pt * pt * pt) : Prop := match t with (a, b, c) => strictly_inside p a b c end.
(** All triangles counter-clockwise, or all clockwise. *)
Definition same_side (T : list (pt * pt * pt)) : Prop :=
  (forall t, In t T -> 0 < tri_orient t) \/ (forall t, In t T -> tri_orient t < 0).
(** not on an edge of the polygon *)
Definition off_boundary (p : pt) (ps : list pt) : Prop :=
  forall a b, In (a, b) (poly_edges ps) -> ~ on_segment 0 p a b.
(** How often the triangle winds around [p]. *)
Inductive winds (p : pt) (t : pt * pt * pt) : Z -> Prop :=
| winds_ccw : 0 < tri_orient t -> in_triangle_strictly p t -> winds p t 1
| winds_cw : tri_orient t < 0 -> in_triangle_strictly p t -> winds p t (-1)
| winds_not : ~ tri_orient t == 0 -> ~ in_triangle p t -> winds p t 0
| winds_flat : tri_orient t == 0 -> winds p t 0.
(** The segments [a b] and [s t], each prolonged by [eps] of its length, have a common point, and their
    directions differ noticeably. *)
Definition crosses (eps : Q) (a b s t : pt) : Prop :=
  eps < Qabs ((fst b - fst a) * (snd t - snd s) - (snd b - snd a) * (fst t - fst s)) /\
  exists x, on_segment eps x a b /\ on_segment eps x s t.
(** neighbours along the closed polygon with [n] corners, in either direction *)
Definition neighbours (n i j : nat) : Prop :=
  (i = S j \/ j = S i \/ (i = 0 /\ S j = n) \/ (j = 0 /\ S i = n))%nat.
Definition midpoint (a b : pt) : pt := ((fst a + fst b) / 2, (snd a + snd b) / 2).
(** The boundary edge from corner [k] to the next is away from the corners [i] and [j]. *)
Definition apart (n i j k : nat) : Prop := (k <> i /\ k <> j /\ S k mod n <> i /\ S k mod n <> j)%nat.
