(** C67: geometry of regular polygons and solids. *)
From Coq Require Import List Arith Reals.
From Verif Require Import Base Mesh Spec MeshEx Solid SolidSpec Sphere SphereSpec Regular RegularSpec RegularPlato RegularTop.
Import ListNotations.
Local Open Scope R_scope.

(** The base is a regular polygon, all other sides are equal, and every face is an outward facet. *)
Theorem C67_pyramid : forall (EP FP : Type) (dE : EP) (dF : FP) (c : cfg) (r : R) (h : R) (n : nat),
  (3 <= n)%nat -> 0 < r -> 0 < h -> (4 * n <= capE c)%nat -> (S n <= capV c)%nat -> (S n <= capF c)%nat ->
  let pts := circle_iter (circle_at r n 0 0) n ++ [(0, h, 0)] in
  exists m : mesh vec3 EP FP, r_pyramid dE dF c r h n = Ok m /\ wf m /\ solid (abs m) dF pts (pyramid_polys n) (2 * n) /\ convex_solid pts (pyramid_polys n) /\
    forall l i j, In l (pyramid_polys n) -> In (i, j) (cyc l) ->
      dist (pt pts i) (pt pts j) = if (Nat.max i j <? n)%nat then regular_polygon_sidelength r n else sqrt (r * r + h * h).
Proof. exact @pyramid_top. Qed.
Print Assumptions C67_pyramid.

Theorem C67_frustum : forall (EP FP : Type) (dE : EP) (dF : FP) (c : cfg) (r1 : R) (r2 : R) (h : R) (n : nat),
  (3 <= n)%nat -> 0 < r1 -> 0 < r2 -> 0 < h -> (6 * n <= capE c)%nat -> (2 * n <= capV c)%nat -> (2 + n <= capF c)%nat ->
  let pts := circle_iter (circle_at r1 n 0 0) n ++ circle_iter (circle_at r2 n 0 h) n in
  exists m : mesh vec3 EP FP, r_frustum dE dF c r1 r2 h n false = Ok m /\ wf m /\ solid (abs m) dF pts (frustum_polys n) (3 * n) /\ convex_solid pts (frustum_polys n).
Proof. exact @frustum_top. Qed.
Print Assumptions C67_frustum.

(** The base is moved against its normal: upwards, by the height. *)
Theorem C67_prism : forall (EP FP : Type) (dE : EP) (dF : FP) (c : cfg) (r : R) (h : R) (n : nat),
  (3 <= n)%nat -> 0 < r -> 0 < h -> (6 * n <= capE c)%nat -> (2 * n <= capV c)%nat -> (2 + n <= capF c)%nat ->
  let pts := circle_iter (circle_at r n 0 0) n ++ circle_iter (circle_at r n 0 h) n in
  exists m : mesh vec3 EP FP, r_prism dE dF c r h n = Ok m /\ wf m /\ solid (abs m) dF pts (frustum_polys n) (3 * n) /\ convex_solid pts (frustum_polys n) /\
    forall l i j, In l (frustum_polys n) -> In (i, j) (cyc l) ->
      dist (pt pts i) (pt pts j) = if Bool.eqb (i <? n)%nat (j <? n)%nat then regular_polygon_sidelength r n else h.
Proof. exact @prism_top. Qed.
Print Assumptions C67_prism.

Theorem C67_uniform_prism : forall (EP FP : Type) (dE : EP) (dF : FP) (c : cfg) (r : R) (n : nat),
  (3 <= n)%nat -> 0 < r -> (6 * n <= capE c)%nat -> (2 * n <= capV c)%nat -> (2 + n <= capF c)%nat ->
  let s := regular_polygon_sidelength r n in let pts := circle_iter (circle_at r n 0 0) n ++ circle_iter (circle_at r n 0 s) n in
  exists m : mesh vec3 EP FP, uniform_prism dE dF c r n = Ok m /\ wf m /\ solid (abs m) dF pts (frustum_polys n) (3 * n) /\ convex_solid pts (frustum_polys n) /\
    sides pts (frustum_polys n) s.
Proof. exact @uniform_prism_top. Qed.
Print Assumptions C67_uniform_prism.

(** The last part says for which heights all sides are equal. *)
Theorem C67_antiprism : forall (EP FP : Type) (dE : EP) (dF : FP) (c : cfg) (r : R) (h : R) (n : nat),
  (3 <= n)%nat -> 0 < r -> 0 < h -> (8 * n <= capE c)%nat -> (2 * n <= capV c)%nat -> (2 + 2 * n <= capF c)%nat ->
  let pts := circle_iter (circle_at r n 0 0) n ++ circle_iter (circle_at r n 1 h) n in
  exists m : mesh vec3 EP FP, r_antiprism dE dF c r h n = Ok m /\ wf m /\ solid (abs m) dF pts (antiprism_polys n) (4 * n) /\ convex_solid pts (antiprism_polys n) /\
    (forall l i j, In l (antiprism_polys n) -> In (i, j) (cyc l) ->
      dist (pt pts i) (pt pts j) = if Bool.eqb (i <? n)%nat (j <? n)%nat then regular_polygon_sidelength r n else sqrt (2 * (r * r) * (1 - cos (PI / INR n)) + h * h)) /\
    (sides pts (antiprism_polys n) (regular_polygon_sidelength r n) <-> h * h = 2 * (r * r) * (cos (PI / INR n) - cos (2 * (PI / INR n)))).
Proof. exact @antiprism_top. Qed.
Print Assumptions C67_antiprism.

(** The height of [uniform_antiprism] is not that of a uniform antiprism, for any number of sides. *)
Theorem C67_uniform_antiprism_refuted : forall (EP FP : Type) (dE : EP) (dF : FP) (c : cfg) (r : R) (n : nat),
  (3 <= n)%nat -> 0 < r -> (8 * n <= capE c)%nat -> (2 * n <= capV c)%nat -> (2 + 2 * n <= capF c)%nat ->
  let pts := circle_iter (circle_at r n 0 0) n ++ circle_iter (circle_at r n 1 (regular_polygon_sidelength r n * sqrt 3 * / 2)) n in
  exists m : mesh vec3 EP FP, uniform_antiprism dE dF c r n = Ok m /\ wf m /\ solid (abs m) dF pts (antiprism_polys n) (4 * n) /\
    ~ exists s, sides pts (antiprism_polys n) s.
Proof. exact @uniform_antiprism_top. Qed.
Print Assumptions C67_uniform_antiprism_refuted.

Theorem C67_uv_sphere : forall (EP FP : Type) (dE : EP) (dF : FP) (c : cfg) (radius : R) (n : nat) (k : nat),
  (2 <= n)%nat -> (3 <= k)%nat -> 0 < radius ->
  (2 * ((2 * n - 1) * k) <= capE c)%nat -> (2 + (n - 1) * k <= capV c)%nat -> (n * k <= capF c)%nat ->
  let pts := sphere_points (uv_at radius n k) n k in
  exists m : mesh vec3 EP FP, r_uv_sphere dE dF c radius n k = Ok m /\ wf m /\ solid (abs m) dF pts (sphere_polys n k) ((2 * n - 1) * k) /\
    convex_solid pts (sphere_polys n k) /\ Forall (on_sphere zero3 radius) pts.
Proof. exact @uv_top. Qed.
Print Assumptions C67_uv_sphere.

Theorem C67_cuboid : forall (EP FP : Type) (dE : EP) (dF : FP) (c : cfg) (x : R) (y : R) (z : R),
  0 < x -> 0 < y -> 0 < z -> (24 <= capE c)%nat -> (8 <= capV c)%nat -> (6 <= capF c)%nat ->
  let a := x / 2 in let b := y / 2 in let d := z / 2 in
  let pts := [(- a, - b, - d); (a, - b, - d); (a, b, - d); (- a, b, - d); (- a, - b, d); (a, - b, d); (a, b, d); (- a, b, d)] in
  let polys := [[0; 3; 2; 1]; [0; 1; 5; 4]; [1; 2; 6; 5]; [2; 3; 7; 6]; [3; 0; 4; 7]; [4; 5; 6; 7]]%nat in
  exists m : mesh vec3 EP FP, r_cuboid dE dF c (x, y, z) = Ok m /\ wf m /\ solid (abs m) dF pts polys 12 /\ convex_solid pts polys.
Proof. exact @cuboid_top. Qed.
Print Assumptions C67_cuboid.

Theorem C67_icosahedron : forall (EP FP : Type) (dE : EP) (dF : FP) (c : cfg) (l : R),
  0 < l -> (60 <= capE c)%nat -> (12 <= capV c)%nat -> (20 <= capF c)%nat ->
  exists (m : mesh vec3 EP FP) pts, regular_icosahedron dE dF c l = Ok m /\ wf m /\ solid (abs m) dF pts (icosa_polys 5) 30 /\
    convex_solid pts (icosa_polys 5) /\ sides pts (icosa_polys 5) l /\ Forall (on_sphere zero3 (icosahedron_a2r l)) pts.
Proof. exact @icosa_top. Qed.
Print Assumptions C67_icosahedron.

Theorem C67_octahedron : forall (EP FP : Type) (dE : EP) (dF : FP) (c : cfg) (r : R),
  0 < r -> (24 <= capE c)%nat -> (6 <= capV c)%nat -> (8 <= capF c)%nat ->
  exists (m : mesh vec3 EP FP) pts, octahedron_mesh dE dF c r = Ok m /\ wf m /\ solid (abs m) dF pts (bipyramid_polys 4) 12 /\
    convex_solid pts (bipyramid_polys 4) /\ sides pts (bipyramid_polys 4) (r * sqrt 2) /\ Forall (on_sphere zero3 r) pts.
Proof. exact @octa_top. Qed.
Print Assumptions C67_octahedron.

Theorem C67_tetrahedron : forall (EP FP : Type) (dE : EP) (dF : FP) (c : cfg) (l : R),
  0 < l -> (12 <= capE c)%nat -> (4 <= capV c)%nat -> (4 <= capF c)%nat ->
  exists (m : mesh vec3 EP FP) pts, regular_tetrahedron dE dF c l = Ok m /\ wf m /\ solid (abs m) dF pts (pyramid_polys 3) 6 /\
    convex_solid pts (pyramid_polys 3) /\ sides pts (pyramid_polys 3) l /\ Forall (on_sphere zero3 (l * sqrt (3 / 8))) pts.
Proof. exact @tetra_top. Qed.
Print Assumptions C67_tetrahedron.

(** The face has the area and the sides that [regular_polygon_area] and [regular_polygon_sidelength] say. It runs counter-clockwise: its area is positive. *)
Theorem C67_polygon : forall (EP FP : Type) (dE : EP) (dF : FP) (c : cfg) (r : R) (n : nat),
  (3 <= n)%nat -> 0 < r -> (2 * n <= capE c)%nat -> (n <= capV c)%nat -> (1 <= capF c)%nat ->
  let pts := map (star_point r r n) (seq 0 n) in
  exists (m : mesh vec3 EP FP) e f vs, insert_regular_star dE dF c empty_mesh r r n = Ok (m, e) /\ wf m /\ exactly (lvf (abs m)) [f] /\
    poly (abs m) dF f (turn vs) /\ map (vp (abs m)) vs = map Some pts /\
    area2 (turn pts) = 2 * regular_polygon_area r n /\ sides pts [turn (seq 0 n)] (regular_polygon_sidelength r n) /\ Forall (on_sphere zero3 r) pts.
Proof. exact @polygon_top. Qed.
Print Assumptions C67_polygon.

Theorem C67_star : forall (EP FP : Type) (dE : EP) (dF : FP) (c : cfg) (r1 : R) (r2 : R) (n : nat),
  (3 <= n)%nat -> (2 * n <= capE c)%nat -> (n <= capV c)%nat -> (1 <= capF c)%nat ->
  let pts := map (star_point r1 r2 n) (seq 0 n) in
  exists (m : mesh vec3 EP FP) e f vs, insert_regular_star dE dF c empty_mesh r1 r2 n = Ok (m, e) /\ wf m /\ exactly (lvf (abs m)) [f] /\
    poly (abs m) dF f (turn vs) /\ map (vp (abs m)) vs = map Some pts /\
    area2 (turn pts) = if Nat.odd n then (INR (n - 1) * (r1 * r2) + r1 * r1) * sin (2 * PI / INR n) else INR n * (r1 * r2 * sin (2 * PI / INR n)).
Proof. exact @star_top. Qed.
Print Assumptions C67_star.

(** The radius of an icosahedron and its side determine each other. *)
Theorem C67_icosahedron_radius : forall x, icosahedron_a2r (icosahedron_r2a x) = x /\ icosahedron_r2a (icosahedron_a2r x) = x.
Proof. exact @icosa_inverse. Qed.
Print Assumptions C67_icosahedron_radius.

(** With an odd number of corners the radii do not alternate: two neighbours are at the inner radius. *)
Theorem C67_star_odd_refuted : forall n r1 r2, Nat.odd n = true ->
  vdot (star_point r1 r2 n (n - 1)) (star_point r1 r2 n (n - 1)) = r1 * r1 /\ vdot (star_point r1 r2 n 0) (star_point r1 r2 n 0) = r1 * r1.
Proof. exact @star_odd. Qed.
Print Assumptions C67_star_odd_refuted.

(** The values for a triangle; room for solids with many corners; [facet] tells the two sides of a polygon apart. *)
Example C67_example : (3 <= 20 /\ 8 * 20 <= capE c0 /\ 2 * 20 <= capV c0 /\ 2 + 2 * 20 <= capF c0)%nat /\ regular_polygon_sidelength 1 3 = sqrt 3 /\ regular_polygon_area 1 3 = 3 * sqrt 3 / 4 /\
  (let pts := [(1, 0, 0); (0, 0, -1); (-1, 0, 0); (0, 0, 1); (0, 1, 0)] in facet pts [0; 3; 2; 1]%nat /\ ~ facet pts [0; 1; 2; 3]%nat).
Proof. split; [cbn; repeat split; repeat constructor|]. split; [apply triangle_values|]. split; [apply triangle_values|exact unturned]. Qed.
