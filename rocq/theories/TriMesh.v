(** Triangulating a whole mesh: src/tesselate/mod.rs and src/mesh/mesh/triangulate.rs. *)
From Coq Require Import List Arith Bool.
From Verif Require Import Base DVec Mesh MeshMore Tess Buffer.
Import ListNotations.
Set Implicit Arguments.
Unset Strict Implicit.

(** tesselate/mod.rs:28-62 [TriangulationAlgorithm] *)
Inductive algorithm := Fan | EarClipping | Sweep | SweepDynamic | SweepDelaunay | Delaunay | EdgeFlip | MinWeight | Heuristic | Auto.
(** the three sweeps differ in the triangulator for monotone polygons *)
Inductive mono := Linear_ | Dynamic_ | Delaunay_.

Section TriMesh.
  Variables (P S W : Type).
  (** face3d.rs:125-138 [vertices_2d]: the positions of the vertices, rotated into the plane of the face;
      nothing if the normal or the rotation panics (see Plane.v) *)
  Variable pos2 : nat -> option (nat -> P).
  (** the conditions in the debug assertions, per face: planar or possibly curved, convex, simple *)
  Variables (planar convex_face simple : nat -> bool).
  (** predicates of fixed_n.rs, ear_clipping.rs and min_weight_dynamic.rs, as in Tess.v *)
  Variables (ds : P -> P -> S) (le : S -> S -> bool) (cv : P -> P -> P -> bool).
  Variables (inside3 : P -> P -> P -> P -> bool) (collinear : P -> P -> P -> bool) (rnd : nat -> nat).
  Variables (addW : W -> W -> W) (ltW : W -> W -> bool) (zeroW : W) (distance : P -> P -> W).
  Variable valid_diagonal : nat -> nat -> nat -> bool.
  (** tesselate/sweep/mod.rs:53-68 after its assertion, tesselate/delaunay.rs:12-: whatever they append *)
  Variables (sweep : mono -> list (P * nat) -> res (list tri3)) (delaunay : nat -> list (P * nat) -> res (list tri3)).

  (** face3d.rs:140-145 [vec2s] *)
  Definition vec2s (f : nat) (vs : list nat) : res (list (P * nat)) :=
    let* p := unwrap (pos2 f) in Ok (map (fun v => (p v, v)) vs).
  (** fixed_n.rs:11-33 [try_min_weight_small] *)
  Definition try_min_weight_small (f n : nat) (vs : list nat) : res (option (list tri3)) :=
    if n =? 3 then match vs with [a; b; c] => Ok (Some [(a, b, c)]) | _ => Panic end
    else if (n <=? 3) || (6 <? n) then Ok None
    else let* us := vec2s f vs in try_min_weight_small_direct ds le cv us.
  (** ear_clipping.rs:11-24 *)
  Definition ear_clipping (dbg : bool) (f : nat) (vs : list nat) : res (list tri3) :=
    assert (negb dbg || (planar f && simple f)) (let* us := vec2s f vs in ear_clipping_direct cv inside3 collinear rnd dbg false us).
  Definition sweep_line (dbg : bool) (k : mono) (f : nat) (vs : list nat) : res (list tri3) :=
    assert (negb dbg || planar f) (let* us := vec2s f vs in sweep k us).
  (** tesselate/mod.rs:71-126 [triangulate_face] *)
  Definition triangulate_face (dbg : bool) (alg : algorithm) (f n : nat) (vs : list nat) : res (list tri3) :=
    assert (3 <=? n)
    (let* o := try_min_weight_small f n vs in
     match o with
     | Some T => Ok T
     | None =>
         match alg with
         | Auto | Delaunay => let* us := vec2s f vs in delaunay f us
         | EarClipping => ear_clipping dbg f vs
         | Sweep => sweep_line dbg Linear_ f vs
         | SweepDynamic => sweep_line dbg Dynamic_ f vs
         | SweepDelaunay => sweep_line dbg Delaunay_ f vs
         | MinWeight => let* us := vec2s f vs in minweight_dynamic_direct addW ltW zeroW distance dbg (valid_diagonal f) us
         | Fan => fan_triangulation dbg (planar f && convex_face f) vs
         | EdgeFlip | Heuristic => Panic
         end
     end).

  Context {VP EP FP : Type}.
  Implicit Types (m : mesh VP EP FP).
  (** mesh/mesh/triangulate.rs:14-32 [triangulate]; [num_vertices] of a face is [num_edges]
      (face/basics.rs); inserting a triangle appends its three indices *)
  Definition face_triangles dbg alg m (f : nat) : res (list tri3) :=
    let* n := face_num_edges m f in
    let* vs := face_vertices m f in
    triangulate_face dbg alg f n vs.
  Definition triangulate_ids dbg alg m : res (list tri3) :=
    foldM (fun out f => let* t := face_triangles dbg alg m f in Ok (out ++ t)) (face_ids m) [].
  Definition triangulate dbg alg (blank : VP) m : res (list nat * list VP) :=
    let* T := triangulate_ids dbg alg m in
    let* (vs, ix) := dense_vertices blank m (flat_map (fun t => match t with (a, b, c) => [a; b; c] end) T) in
    Ok (ix, vs).
End TriMesh.
