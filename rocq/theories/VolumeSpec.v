(** Areas and volumes of triangles and polygons in space. *)
From Coq Require Import List Arith Reals.
From Verif Require Import Base Mesh Spec MeshSpec TopoSpec TriSpec MinWeightSpec Tess BufferSpec TriMesh TriMeshSpec Sphere SphereSpec.
Import ListNotations.
Set Implicit Arguments.
Unset Strict Implicit.
Local Open Scope R_scope.

Definition vcross (a b : vec3) : vec3 := let '(x, y, z) := a in let '(u, v, w) := b in (y * w - z * v, z * u - x * w, x * v - y * u).
Definition vsum3 (l : list vec3) : vec3 := fold_right vadd zero3 l.
Definition rsum (l : list R) : R := fold_right Rplus 0 l.

(** The area vector of a polygon: half the sum of the cross products along its sides. *)
Definition area_vec (ps : list vec3) : vec3 := vmul (vsum3 (map (fun e => vcross (fst e) (snd e)) (poly_edges ps))) (/ 2).
(** The area vector of a triangle: its length is the area, it is orthogonal to the triangle. *)
Definition tri_area (a b c : vec3) : vec3 := vmul (vcross (vsub b a) (vsub c a)) (/ 2).
(** The signed volume of the tetrahedron over a triangle with the tip [o]. *)
Definition tri_volume (o a b c : vec3) : R := det3 (vsub a o) (vsub b o) (vsub c o) / 6.

Section Placed.
  Variable pos : nat -> vec3.
  (** The area vector of some triangles. *)
  Definition area_of (T : list (nat * nat * nat)) : vec3 :=
    vsum3 (map (fun t => let '(a, b, c) := t in tri_area (pos a) (pos b) (pos c)) T).
  (** The volume between some triangles and [o]; if the triangles are closed, [o] does not matter. *)
  Definition volume_of (o : vec3) (T : list (nat * nat * nat)) : R :=
    rsum (map (fun t => let '(a, b, c) := t in tri_volume o (pos a) (pos b) (pos c)) T).
End Placed.

(** The points lie in a plane: no four of them span a tetrahedron. *)
Definition flat (ps : list vec3) : Prop := forall a b c d, In a ps -> In b ps -> In c ps -> In d ps -> tri_volume a b c d = 0.
(** The volume of the cone over a plane polygon: a third of the area times the height. *)
Definition cone_volume (o : vec3) (ps : list vec3) : R := / 3 * vdot (vsub (hd o ps) o) (area_vec ps).
(** The volume inside a closed surface made of plane polygons. *)
Definition solid_volume (polys : list (list vec3)) : R := rsum (map (cone_volume zero3) polys).

Section VolumeSpec.
  Context {VP EP FP : Type}.
  Notation graph := (graph VP EP FP).
  Implicit Types (g : graph).
  (** Every face lies in a plane. *)
  Definition flat_faces g (pos : nat -> vec3) : Prop := forall f l, lvf g f = true -> boundary_vertices g f l -> flat (map pos l).
End VolumeSpec.

(** Whatever triangulation of [m] succeeds (ear clipping excepted, see C64), its triangles are watertight and
    enclose the volume [V]. *)
Definition encloses {EP FP : Type} (m : mesh vec3 EP FP) (V : R) : Prop :=
  forall (P S W : Type) (pos2 : nat -> option (nat -> P)) planar convex_face simple (ds : P -> P -> S) le cv inside3 collinear rnd
    (addW : W -> W -> W) ltW zeroW (distance : P -> P -> W) valid_diagonal sweep delaunay dbg alg blank ix out,
  weights addW ltW zeroW -> (forall k, sound (sweep k)) -> (forall f, sound (delaunay f)) -> alg <> EarClipping ->
  triangulate pos2 planar convex_face simple ds le cv inside3 collinear rnd addW ltW zeroW distance valid_diagonal sweep delaunay dbg alg blank m = Ok (ix, out) ->
  exists T, ix = flatten T /\ watertight T /\
    forall pos o, (forall v p, vp (abs m) v = Some p -> pos v = p) -> volume_of pos o T = V.
