(** Properties of the geodesic spheres, with real positions. *)
From Coq Require Import List Arith Reals.
From Verif Require Import Base DVec Mesh Spec MeshSpec MeshMore MeshEx Solid Subdivision SubdivSpec Interpolate Sphere SphereSpec GeodesicProofs PlatonicProofs SphereEx.
Import ListNotations.

(** C58. Subdividing a closed triangle mesh that surrounds [o] with [SlerpVertexInterpolator] keeps the old
    vertices, puts every new one at distance [radius] from [o], and the triangles still surround [o]. *)
Theorem C58_slerp_subdivision :
  forall (EP FP : Type) (dE : EP) (c : cfg) (eps : R) (o : vec3) (radius : R) (P : vec3 -> vec3 -> vec3 -> Prop) (k : nat) (m : mesh vec3 EP FP),
    (0 < radius)%R -> orientation c eps o P -> wf m -> triangles (abs m) -> every_face P (abs m) ->
    fits c m ((4 ^ k - 1) * num_edges m) ((4 ^ k - 1) / 3 * (num_edges m / 2)) ((4 ^ k - 1) * num_faces m) ->
    exists m', (let* d := sd_new (2 ^ k) 0 in
        subdivision_frequency dE (slerp_call (fun x => x) (fun x => x) vadd vsub vmul normalize (slerp c eps) o radius) c m d) = Ok m' /\
      wf m' /\ triangles (abs m') /\ every_face P (abs m') /\
      (forall v, lvv (abs m) v = true -> lvv (abs m') v = true /\ vp (abs m') v = vp (abs m) v) /\
      (forall v, lvv (abs m') v = true -> lvv (abs m) v = true \/ exists p, vp (abs m') v = Some p /\ on_sphere o radius p) /\
      num_edges m' = 4 ^ k * num_edges m /\ num_vertices m' = num_vertices m + (4 ^ k - 1) / 3 * (num_edges m / 2) /\
      num_faces m' = 4 ^ k * num_faces m.
Proof. exact @slerp_frequency. Qed.
Print Assumptions C58_slerp_subdivision.

(** Every vertex of the geodesic icosahedron and octahedron is on the sphere. *)
Theorem C58_geodesic_icosahedron :
  forall (EP FP : Type) (dE : EP) (dF : FP) (c : cfg) (eps radius : R) (P : vec3 -> vec3 -> vec3 -> Prop) (k : nat),
    (0 < radius)%R -> orientation c eps zero3 P ->
    60 * 4 ^ k <= capE c -> 2 + 10 * 4 ^ k <= capV c -> 20 * 4 ^ k <= capF c ->
    exists m : mesh vec3 EP FP, geodesic_icosahedron dE dF c eps radius (2 ^ k) = Ok m /\ wf m /\ triangles (abs m) /\ every_face P (abs m) /\
      (forall v p, lvv (abs m) v = true -> vp (abs m) v = Some p -> on_sphere zero3 radius p) /\
      num_edges m = 60 * 4 ^ k /\ num_vertices m = 2 + 10 * 4 ^ k /\ num_faces m = 20 * 4 ^ k.
Proof. exact @geodesic_icosahedron_ok. Qed.
Print Assumptions C58_geodesic_icosahedron.

Theorem C58_geodesic_octahedron :
  forall (EP FP : Type) (dE : EP) (dF : FP) (c : cfg) (eps radius : R) (P : vec3 -> vec3 -> vec3 -> Prop) (k : nat),
    (0 < radius)%R -> orientation c eps zero3 P ->
    24 * 4 ^ k <= capE c -> 2 + 4 * 4 ^ k <= capV c -> 8 * 4 ^ k <= capF c ->
    exists m : mesh vec3 EP FP, geodesic_octahedron dE dF c eps radius (2 ^ k) = Ok m /\ wf m /\ triangles (abs m) /\ every_face P (abs m) /\
      (forall v p, lvv (abs m) v = true -> vp (abs m) v = Some p -> on_sphere zero3 radius p) /\
      num_edges m = 24 * 4 ^ k /\ num_vertices m = 2 + 4 * 4 ^ k /\ num_faces m = 8 * 4 ^ k.
Proof. exact @geodesic_octahedron_ok. Qed.
Print Assumptions C58_geodesic_octahedron.

(** The geodesic tetrahedron never is a sphere: the four corners stay at about 0.61 of the radius. *)
Theorem C58_geodesic_tetrahedron_refuted :
  forall (EP FP : Type) (dE : EP) (dF : FP) (c : cfg) (eps radius : R) (P : vec3 -> vec3 -> vec3 -> Prop) (k : nat),
    (0 < radius)%R -> orientation c eps zero3 P ->
    12 * 4 ^ k <= capE c -> 2 + 2 * 4 ^ k <= capV c -> 4 * 4 ^ k <= capF c ->
    exists m : mesh vec3 EP FP, geodesic_tetrahedron dE dF c eps radius (2 ^ k) = Ok m /\ wf m /\ triangles (abs m) /\ every_face P (abs m) /\
      (forall v p, lvv (abs m) v = true -> vp (abs m) v = Some p -> on_sphere zero3 (sqrt (3 / 8) * radius) p \/ on_sphere zero3 radius p) /\
      (exists v p, lvv (abs m) v = true /\ vp (abs m) v = Some p /\ ~ on_sphere zero3 radius p) /\
      num_edges m = 12 * 4 ^ k /\ num_vertices m = 2 + 2 * 4 ^ k /\ num_faces m = 4 * 4 ^ k.
Proof. exact @geodesic_tetrahedron_ok. Qed.
Print Assumptions C58_geodesic_tetrahedron_refuted.

(** A subdivision count that is not a power of two panics. *)
Theorem C58_geodesic_panics :
  forall (EP FP : Type) (dE : EP) (c : cfg) (eps radius : R) (m : mesh vec3 EP FP) (n : nat),
    (forall k, n <> 2 ^ k) -> geodesic dE c eps radius (Ok m) n = Panic.
Proof. exact @geodesic_panics. Qed.
Print Assumptions C58_geodesic_panics.

Example C58_example : (0 < 2)%R /\ orientation c0 (/ 1000) zero3 (weakly_outward zero3) /\
  orientation (mkCfg 255 255 255 false) 0 zero3 (outward zero3) /\
  60 * 4 ^ 1 <= capE c0 /\ 2 + 10 * 4 ^ 1 <= capV c0 /\ 20 * 4 ^ 1 <= capF c0 /\ (forall k, 6 <> 2 ^ k).
Proof. exact sphere_example. Qed.
(** ... and a mesh around another centre. *)
Example C58_slerp_example : exists (o : vec3) (m : mesh vec3 nat nat), (o <> zero3) /\
  wf m /\ triangles (abs m) /\ every_face (outward o) (abs m) /\ every_face (weakly_outward o) (abs m) /\
  num_edges m = 12 /\ num_vertices m = 4 /\ num_faces m = 4 /\
  fits c0 m ((4 ^ 2 - 1) * 12) ((4 ^ 2 - 1) / 3 * (12 / 2)) ((4 ^ 2 - 1) * 4).
Proof. exact slerp_example. Qed.
