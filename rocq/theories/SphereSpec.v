(** Points and triangles around a centre, over the real numbers. *)
From Coq Require Import Reals.
From Verif Require Import Mesh Sphere.
Local Open Scope R_scope.

(** At distance [r] from [o]. *)
Definition on_sphere (o : vec3) (r : R) (p : vec3) : Prop := vlen (vsub p o) = r.
(** Six times the signed volume of the tetrahedron over a triangle. *)
Definition det3 (a b c : vec3) : R :=
  let '(x, y, z) := a in let '(u, v, w) := b in let '(i, j, k) := c in
  x * (v * k - w * j) - y * (u * k - w * i) + z * (u * j - v * i).
(** The triangle runs counter-clockwise, seen from outside. *)
Definition outward (o p q r : vec3) : Prop := 0 < det3 (vsub p o) (vsub q o) (vsub r o).
(** The triangle lies on one side of some plane through [o], and does not run clockwise. *)
Definition weakly_outward (o p q r : vec3) : Prop :=
  0 <= det3 (vsub p o) (vsub q o) (vsub r o) /\
  exists h, 0 < vdot h (vsub p o) /\ 0 < vdot h (vsub q o) /\ 0 < vdot h (vsub r o).
(** What can be said about the triangles. With a positive [EPS] arcs shorter than its square root are
    not divided, and degenerate triangles may appear; with [EPS = 0] (in a release build: the assertions of
    [slerp] fail for [EPS = 0]) all triangles are proper. *)
Inductive orientation (c : cfg) (eps : R) (o : vec3) : (vec3 -> vec3 -> vec3 -> Prop) -> Prop :=
| rounded : 0 < eps -> orientation c eps o (weakly_outward o)
| exact : eps = 0 -> dbg c = false -> orientation c eps o (outward o).
