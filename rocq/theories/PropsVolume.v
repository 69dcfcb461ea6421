(** Property C72: areas and volumes of triangulated meshes. *)
From Coq Require Import List Arith Reals.
From Verif Require Import Base DVec Mesh MeshMore Spec MeshSpec MeshEx TopoSpec Tess TriSpec BufferSpec MinWeightSpec TriMesh TriMeshSpec TriMeshEx Solid Sphere SphereSpec Regular VolumeSpec VolumeSolids VolumeTop VolumeEx SolidSpec.
Import ListNotations.
Local Open Scope R_scope.

(** C72. Whatever the positions of the vertices: the area vectors of the triangles add up to those of the
    faces. If the mesh is closed they add up to zero, and the enclosed volume does not depend on the point it is
    measured from. If the faces are flat, the volume is that of the cones over the faces. *)
Theorem C72_areas :
  forall (VP EP FP P S W : Type) (pos2 : nat -> option (nat -> P)) planar convex_face simple (ds : P -> P -> S) le cv inside3 collinear rnd
      (addW : W -> W -> W) ltW zeroW (distance : P -> P -> W) valid_diagonal sweep delaunay (m : mesh VP EP FP), wf m ->
    weights addW ltW zeroW -> (forall k, sound (sweep k)) -> (forall f, sound (delaunay f)) -> forall dbg alg blank ix out, alg <> EarClipping ->
    triangulate pos2 planar convex_face simple ds le cv inside3 collinear rnd addW ltW zeroW distance valid_diagonal sweep delaunay dbg alg blank m = Ok (ix, out) ->
    exists T, ix = flatten T /\ forall pos ls, Forall2 (boundary_vertices (abs m)) (face_ids m) ls ->
      area_of pos T = vsum3 (map (fun l => area_vec (map pos l)) ls) /\
      (closed (abs m) -> area_of pos T = zero3 /\ forall o o', volume_of pos o T = volume_of pos o' T) /\
      (flat_faces (abs m) pos -> forall o, volume_of pos o T = rsum (map (fun l => cone_volume o (map pos l)) ls)).
Proof. exact @any_run. Qed.
Print Assumptions C72_areas.

(** Ear clipping turns over the base of a pyramid over a pentagon: the areas do not add up to zero. *)
Theorem C72_ear_clipping_refuted :
  exists T out, wf ex_penta /\ closed (abs ex_penta) /\ flat_faces (abs ex_penta) penta_pts /\
    z_triangulate true EarClipping 0 ex_penta = Ok (flatten T, out) /\ area_of penta_pts T <> zero3 /\
    exists o o', volume_of penta_pts o T <> volume_of penta_pts o' T.
Proof. exact ear_volume. Qed.
Print Assumptions C72_ear_clipping_refuted.

(** ** Volumes of the solids, however they are triangulated *)
(** A pyramid over any flat polygon. *)
Theorem C72_pyramid : forall (EP FP : Type) (dE : EP) (dF : FP) (c : cfg) (ps : list vec3) (a : vec3), let n := length ps in
  (3 <= n)%nat -> flat ps -> (4 * n <= capE c)%nat -> (S n <= capV c)%nat -> (S n <= capF c)%nat ->
  exists m, pyramid dE dF c ps a = Ok m /\ wf m /\ encloses m (/ 3 * vdot (vsub a (hd zero3 ps)) (area_vec ps)).
Proof. exact @any_pyramid. Qed.
Print Assumptions C72_pyramid.

(** A bipyramid over any polygon, flat or not. *)
Theorem C72_bipyramid : forall (EP FP : Type) (dE : EP) (dF : FP) (c : cfg) (ps : list vec3) (a b : vec3), let n := length ps in
  (3 <= n)%nat -> (6 * n <= capE c)%nat -> (2 + n <= capV c)%nat -> (2 * n <= capF c)%nat -> (S n <= capF c)%nat ->
  exists m, bipyramid dE dF c ps a b = Ok m /\ wf m /\ encloses m (/ 3 * vdot (vsub a b) (area_vec ps)).
Proof. exact @any_bipyramid. Qed.
Print Assumptions C72_bipyramid.

(** A prism over any flat polygon. *)
Theorem C72_prism : forall (EP FP : Type) (dE : EP) (dF : FP) (c : cfg) (ps : list vec3) (h : vec3), let n := length ps in
  (3 <= n)%nat -> flat ps -> (6 * n <= capE c)%nat -> (2 * n <= capV c)%nat -> (2 + n <= capF c)%nat ->
  exists m, frustum dE dF c ps (map (vadd h) ps) false = Ok m /\ wf m /\ encloses m (vdot h (area_vec ps)).
Proof. exact @any_prism. Qed.
Print Assumptions C72_prism.

(** The regular ones, with the area from the library. *)
Theorem C72_regular_pyramid : forall (EP FP : Type) (dE : EP) (dF : FP) (c : cfg) (r h : R) (n : nat),
  (3 <= n)%nat -> 0 < r -> 0 < h -> (4 * n <= capE c)%nat -> (S n <= capV c)%nat -> (S n <= capF c)%nat ->
  exists m, r_pyramid dE dF c r h n = Ok m /\ wf m /\ encloses m (/ 3 * regular_polygon_area r n * h).
Proof. exact @pyramid_encloses. Qed.
Print Assumptions C72_regular_pyramid.

Theorem C72_regular_frustum : forall (EP FP : Type) (dE : EP) (dF : FP) (c : cfg) (r1 r2 h : R) (n : nat),
  (3 <= n)%nat -> 0 < r1 -> 0 < r2 -> 0 < h -> (6 * n <= capE c)%nat -> (2 * n <= capV c)%nat -> (2 + n <= capF c)%nat ->
  let a1 := regular_polygon_area r1 n in let a2 := regular_polygon_area r2 n in
  exists m, r_frustum dE dF c r1 r2 h n false = Ok m /\ wf m /\ encloses m (h / 3 * (a1 + sqrt (a1 * a2) + a2)).
Proof. exact @frustum_encloses. Qed.
Print Assumptions C72_regular_frustum.

Theorem C72_regular_prism : forall (EP FP : Type) (dE : EP) (dF : FP) (c : cfg) (r h : R) (n : nat),
  (3 <= n)%nat -> 0 < r -> 0 < h -> (6 * n <= capE c)%nat -> (2 * n <= capV c)%nat -> (2 + n <= capF c)%nat ->
  exists m, r_prism dE dF c r h n = Ok m /\ wf m /\ encloses m (regular_polygon_area r n * h).
Proof. exact @prism_encloses. Qed.
Print Assumptions C72_regular_prism.

Theorem C72_regular_antiprism : forall (EP FP : Type) (dE : EP) (dF : FP) (c : cfg) (r h : R) (n : nat),
  (3 <= n)%nat -> 0 < r -> 0 < h -> (8 * n <= capE c)%nat -> (2 * n <= capV c)%nat -> (2 + 2 * n <= capF c)%nat ->
  exists m, r_antiprism dE dF c r h n = Ok m /\ wf m /\ encloses m (h / 3 * (2 * regular_polygon_area r n + regular_polygon_area r (2 * n))).
Proof. exact @antiprism_encloses. Qed.
Print Assumptions C72_regular_antiprism.

Theorem C72_cuboid : forall (EP FP : Type) (dE : EP) (dF : FP) (c : cfg) (x y z : R),
  0 < x -> 0 < y -> 0 < z -> (24 <= capE c)%nat -> (8 <= capV c)%nat -> (6 <= capF c)%nat ->
  exists m, r_cuboid dE dF c (x, y, z) = Ok m /\ wf m /\ encloses m (x * y * z).
Proof. exact @cuboid_encloses. Qed.
Print Assumptions C72_cuboid.

Theorem C72_tetrahedron : forall (EP FP : Type) (dE : EP) (dF : FP) (c : cfg) (l : R),
  0 < l -> (12 <= capE c)%nat -> (4 <= capV c)%nat -> (4 <= capF c)%nat ->
  exists m, regular_tetrahedron dE dF c l = Ok m /\ wf m /\ encloses m (l * l * l / (6 * sqrt 2)).
Proof. exact @tetrahedron_encloses. Qed.
Print Assumptions C72_tetrahedron.

Theorem C72_icosahedron : forall (EP FP : Type) (dE : EP) (dF : FP) (c : cfg) (l : R),
  0 < l -> (60 <= capE c)%nat -> (12 <= capV c)%nat -> (20 <= capF c)%nat ->
  exists m, regular_icosahedron dE dF c l = Ok m /\ wf m /\ encloses m (5 / 12 * (3 + sqrt 5) * (l * l * l)).
Proof. exact @icosahedron_encloses. Qed.
Print Assumptions C72_icosahedron.

(** The octahedron; and since its faces are triangles, every algorithm succeeds on it. *)
Theorem C72_octahedron : forall (EP FP : Type) (dE : EP) (dF : FP) (c : cfg) (r : R),
  0 < r -> (24 <= capE c)%nat -> (6 <= capV c)%nat -> (8 <= capF c)%nat ->
  exists m, octahedron_mesh dE dF c r = Ok m /\ wf m /\ encloses m (4 / 3 * (r * r * r)) /\
    forall (P S W : Type) (pos2 : nat -> option (nat -> P)) planar convex_face simple (ds : P -> P -> S) le cv inside3 collinear rnd
    (addW : W -> W -> W) ltW zeroW (distance : P -> P -> W) valid_diagonal sweep delaunay blank, exists ix out, forall dbg alg,
    triangulate pos2 planar convex_face simple ds le cv inside3 collinear rnd addW ltW zeroW distance valid_diagonal sweep delaunay dbg alg blank m = Ok (ix, out).
Proof. exact @octa_all. Qed.
Print Assumptions C72_octahedron.

(** The hypotheses can be met: [ex_penta] is triangulated by a fan (C64_example); its base is flat, with area
    21; the unit square is flat and has area 1; a twisted square is not flat. *)
Example C72_example :
  wf ex_penta /\ closed (abs ex_penta) /\ (exists ix out, z_triangulate true Fan 0 ex_penta = Ok (ix, out)) /\
  (3 <= length [(0, 0, 0); (1, 0, 0); (1, 1, 0); (0, 1, 0)] /\ 6 * 4 <= capE c0 /\ 2 * 4 <= capV c0 /\ 2 + 4 <= capF c0)%nat /\
  flat [(0, 0, 0); (1, 0, 0); (1, 1, 0); (0, 1, 0)] /\ area_vec [(0, 0, 0); (1, 0, 0); (1, 1, 0); (0, 1, 0)] = (0, 0, 1) /\
  ~ flat [(0, 0, 0); (1, 0, 0); (1, 1, 1); (0, 1, 0)].
Proof. exact volume_examples. Qed.
