(** Specification vocabulary for regular polygons and convex solids. *)
From Coq Require Import List Arith Reals.
From Verif Require Import Base Mesh Sphere SphereSpec SolidSpec.
Import ListNotations.
Set Implicit Arguments.
Unset Strict Implicit.
Local Open Scope R_scope.

Definition dist (p q : vec3) : R := vlen (vsub p q).
Definition pt (pts : list vec3) (i : nat) : vec3 := nth i pts zero3.

(** The polygon [l] is a facet of the convex hull of [pts]: it lies in a plane, all other points are on one
    side of it, and seen from the other side the corners are those of a strictly convex polygon in
    counter-clockwise order. *)
Definition facet (pts : list vec3) (l : list nat) : Prop :=
  exists v c,
    (forall i, In i l -> vdot v (pt pts i) = c) /\
    (forall k, (k < length pts)%nat -> ~ In k l -> vdot v (pt pts k) < c) /\
    (forall i j k, In (i, j) (cyc l) -> In k l -> k <> i -> k <> j ->
       0 < det3 v (vsub (pt pts j) (pt pts i)) (vsub (pt pts k) (pt pts i))).
(** A convex solid with all faces turned outwards. *)
Definition convex_solid (pts : list vec3) (polys : list (list nat)) : Prop := forall l, In l polys -> facet pts l.
(** All sides have the length [s]. *)
Definition sides (pts : list vec3) (polys : list (list nat)) (s : R) : Prop :=
  forall l i j, In l polys -> In (i, j) (cyc l) -> dist (pt pts i) (pt pts j) = s.

(** A plane polygon around the origin of the xy-plane: twice the signed area of the triangle over a side, and of the whole polygon. *)
Definition wedge (p q : vec3) : R := let '(x, y, _) := p in let '(u, v, _) := q in x * v - y * u.
Definition area2 (l : list vec3) : R := fold_right Rplus 0 (map (fun pq => wedge (fst pq) (snd pq)) (cyc l)).
