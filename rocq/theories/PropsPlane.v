(** Property C71: faces rotated into the plane. *)
From Coq Require Import List Arith Reals Lra.
From Verif Require Import Base DVec Mesh MeshMore Spec MeshSpec TopoSpec TriSpec Alg AlgSpec Transform TransSpec Solid Normals NormalsSpec TriMesh TriMeshSpec Plane PlaneSpec PlaneProofs PlaneMesh PlaneEx PlaneRotSpec PlaneRotProofs.
Import ListNotations.
Local Open Scope nat_scope.

(** C71. For every face that is not level up to [eps] (and planar in debug builds), [vertices_2d] gives its
    vertices in order as seen from the side its normal points to: distances across the normal are kept, turns
    around the normal are counter-clockwise. *)
Theorem C71_plane : forall (FP : Type) planar c eps, (0 <= eps)%R -> forall (m : mesh (pnu R) (curve R) FP) f a u, wf m ->
  lvf (abs m) f = true -> (dbg c = true -> planar f = true) -> face_area (abs m) f a -> direction a u -> tilted eps a ->
  exists h out, vertices_2d (arc_nalgebra eps) planar c m f = Ok out /\ laid_out (abs m) f h out /\ flattens u h.
Proof. exact (@plane_ok). Qed.
Print Assumptions C71_plane.

(** The polygon in the plane has the area of the face along the direction of view: all of it, with a positive
    sign, if that is the normal. *)
Theorem C71_area : forall (FP : Type) (m : mesh (pnu R) (curve R) FP) f u h out a, wf m -> lvf (abs m) f = true ->
  laid_out (abs m) f h out -> flattens u h -> face_area (abs m) f a -> area2 (map fst out) = rdot u a.
Proof. exact (@laid_area). Qed.
Print Assumptions C71_area.
Theorem C71_area_normal : forall a u, direction a u -> (0 <= rdot u a)%R /\ (rdot u a * rdot u a = rdot a a)%R.
Proof. exact direction_len. Qed.
Print Assumptions C71_area_normal.

(** Level faces that look up (and faces without area) keep their first two coordinates; lengths within the
    face shrink by less than the factor 1 - eps^2. *)
Theorem C71_level : forall (FP : Type) planar c eps, (0 <= eps)%R -> forall (m : mesh (pnu R) (curve R) FP) f a, wf m ->
  lvf (abs m) f = true -> (dbg c = true -> planar f = true) -> face_area (abs m) f a -> ~ tilted eps a -> (0 <= a 2%nat)%R ->
  exists out, vertices_2d (arc_nalgebra eps) planar c m f = Ok out /\ laid_out (abs m) f (fun p => (p 0, p 1)) out /\
    area2 (map fst out) = a 2.
Proof. exact (@level_ok). Qed.
Print Assumptions C71_level.
Theorem C71_level_lengths : forall eps a (p q : rvec), (0 <= eps)%R -> ~ tilted eps a -> (0 < a 2%nat)%R -> rdot a (vsub p q) = 0%R ->
  ((1 - eps * eps) * rdot (vsub p q) (vsub p q) <= dist2 (p 0%nat, p 1%nat) (q 0%nat, q 1%nat) <= rdot (vsub p q) (vsub p q))%R.
Proof. exact level_lengths. Qed.
Print Assumptions C71_level_lengths.

(** Exactly the level faces that look down panic (and those that are not planar in debug builds). *)
Theorem C71_panics : forall (FP : Type) planar c eps, (0 <= eps)%R -> forall (m : mesh (pnu R) (curve R) FP) f a, wf m ->
  lvf (abs m) f = true -> face_area (abs m) f a ->
  (vertices_2d (arc_nalgebra eps) planar c m f = Panic /\ (dbg c = true /\ planar f = false \/ looks_down eps a)) \/
  ((exists out, vertices_2d (arc_nalgebra eps) planar c m f = Ok out) /\ ~ (dbg c = true /\ planar f = false \/ looks_down eps a)).
Proof. exact (@panic_iff). Qed.
Print Assumptions C71_panics.

(** A face with four to six vertices that looks down makes every algorithm fail on the whole mesh. *)
Theorem C71_downward : forall (FP S W : Type) eps planar cc c (m : mesh (pnu R) (curve R) FP) pos2 convex_face simple
    (ds : R * R -> R * R -> S) le cv inside3 collinear rnd (addW : W -> W -> W) ltW zeroW distance valid_diagonal sweep delaunay f a n,
  (0 <= eps)%R -> wf m -> lvf (abs m) f = true -> face_size (abs m) f n -> 4 <= n <= 6 -> face_area (abs m) f a -> looks_down eps a ->
  plane_pos (arc_nalgebra eps) planar cc m pos2 ->
  forall dbg alg blank r, triangulate pos2 c convex_face simple ds le cv inside3 collinear rnd addW ltW zeroW distance valid_diagonal sweep delaunay dbg alg blank m <> Ok r.
Proof. exact (@downward). Qed.
Print Assumptions C71_downward.
(** No cuboid of any size can be triangulated, whatever the algorithm: its bottom looks down. *)
Theorem C71_cuboid_refuted : forall (FP : Type) (dE : curve R) (dF : FP) c x y z nor uv, (0 < x)%R -> (0 < y)%R -> (0 < z)%R ->
  24 <= capE c -> 8 <= capV c -> 6 <= capF c ->
  let p := corner nor uv in
  exists m, cuboid dE dF c (p (- x) (- y) (- z))%R (p x (- y) (- z))%R (p x y (- z))%R (p (- x) y (- z))%R
      (p (- x) (- y) z)%R (p x (- y) z)%R (p x y z) (p (- x) y z)%R = Ok m /\ wf m /\
    forall (S W : Type) eps planar cc pos2 planar' convex_face simple
        (ds : R * R -> R * R -> S) le cv inside3 collinear rnd (addW : W -> W -> W) ltW zeroW distance valid_diagonal sweep delaunay,
      (0 <= eps)%R -> plane_pos (arc_nalgebra eps) planar cc m pos2 ->
      forall dbg alg blank r, triangulate pos2 planar' convex_face simple ds le cv inside3 collinear rnd addW ltW zeroW distance valid_diagonal sweep delaunay dbg alg blank m <> Ok r.
Proof. exact (@cuboid_refuted). Qed.
Print Assumptions C71_cuboid_refuted.

(** Where no face with four to six vertices looks down (and they are planar in debug builds), the positions
    that C64 asks for exist. *)
Theorem C71_placed : forall (FP : Type) eps planar c (m : mesh (pnu R) (curve R) FP) pos2, (0 <= eps)%R -> wf m ->
  plane_pos (arc_nalgebra eps) planar c m pos2 ->
  (forall f n a, lvf (abs m) f = true -> face_size (abs m) f n -> 4 <= n <= 6 -> face_area (abs m) f a ->
     (dbg c = true -> planar f = true) /\ ~ looks_down eps a) ->
  placed pos2 (abs m) (fun n => 4 <= n <= 6).
Proof. exact (@nalgebra_placed). Qed.
Print Assumptions C71_placed.
Theorem C71_positions : forall (FP : Type) arc planar c (m : mesh (pnu R) (curve R) FP), wf m -> exists pos2, plane_pos arc planar c m pos2.
Proof. exact (@plane_pos_exists). Qed.
Print Assumptions C71_positions.

(** With the rotations of Bevy there is no such exception: faces that look straight down are seen from below. *)
Theorem C71_bevy : forall (FP : Type) planar c eps, (0 < eps < 1)%R -> forall (m : mesh (pnu R) (curve R) FP) f a u, wf m ->
  lvf (abs m) f = true -> (dbg c = true -> planar f = true) -> face_area (abs m) f a -> direction a u -> rdot u u = 1%R ->
  (- (1 - 2 * eps) <= u 2%nat <= 1 - 2 * eps \/ u 2%nat = -1)%R ->
  exists h out, vertices_2d (arc_bevy eps) planar c m f = Ok out /\ laid_out (abs m) f h out /\ flattens u h.
Proof. exact (@bevy_ok). Qed.
Print Assumptions C71_bevy.
Theorem C71_bevy_placed : forall (FP : Type) eps planar c (m : mesh (pnu R) (curve R) FP) pos2, wf m ->
  plane_pos (arc_bevy eps) planar c m pos2 ->
  (forall f n, lvf (abs m) f = true -> face_size (abs m) f n -> 4 <= n <= 6 -> dbg c = true -> planar f = true) ->
  placed pos2 (abs m) (fun n => 4 <= n <= 6).
Proof. exact (@bevy_placed). Qed.
Print Assumptions C71_bevy_placed.

(** A square standing upright and a square seen from above. *)
Example C71_example :
  wf (wall 2) /\ lvf (abs (wall 2)) 0 = true /\ face_area (abs (wall 2)) 0 (r_new 0 4 0) /\ direction (r_new 0 4 0) (r_new 0 1 0) /\
  tilted (/ 10) (r_new 0 4 0) /\ ~ tilted (/ 10) (r_new 0 0 4) /\ looks_down (/ 10) (r_new 0 0 (-4)) /\ face_size (abs (wall 2)) 0 4.
Proof. exact wall_ok. Qed.

(** The rotations themselves: [from_axis_angle] turns by the angle about the axis, for every unit axis and angle,
    as a matrix and as a quaternion. *)
Theorem C71_axis_angle : forall u angle, rdot u u = 1%R -> turns u angle (a_apply 0%R Rplus Rmult 3 (a_from_rotation 0%R (from_axis_angle u angle))).
Proof. exact axis_angle_turns. Qed.
Print Assumptions C71_axis_angle.
Theorem C71_quaternion : forall u angle, rdot u u = 1%R -> turns u angle (q_apply (q_axis_angle u angle)).
Proof. exact quat_turns. Qed.
Print Assumptions C71_quaternion.
(** [from_rotation_arc] takes one unit vector to the other by a rotation about an axis across both, unless they
    are parallel up to [eps]; then it does nothing, and panics where they are opposite. *)
Theorem C71_arc : forall eps a b, (0 <= eps)%R -> rdot a a = 1%R -> rdot b b = 1%R ->
  ((eps * eps < 1 - rdot a b * rdot a b)%R -> exists h, arc_nalgebra eps a b = Some h /\ carries a b h) /\
  ((1 - rdot a b * rdot a b <= eps * eps)%R -> (0 <= rdot a b)%R -> exists h, arc_nalgebra eps a b = Some h /\ forall p i, i < 3 -> h p i = p i) /\
  ((1 - rdot a b * rdot a b <= eps * eps)%R -> (rdot a b < 0)%R -> arc_nalgebra eps a b = None).
Proof. exact arc_unit. Qed.
Print Assumptions C71_arc.
(** With Bevy, opposite vectors give half a turn about an axis across the first. *)
Theorem C71_arc_bevy : forall eps a b, (0 < eps < 1)%R -> rdot a a = 1%R -> rdot b b = 1%R ->
  exists h, arc_bevy eps a b = Some h /\
    ((- (1 - 2 * eps) <= rdot a b <= 1 - 2 * eps)%R -> carries a b h) /\
    ((1 - 2 * eps < rdot a b)%R -> forall p i, i < 3 -> h p i = p i) /\
    ((rdot a b < - (1 - 2 * eps))%R -> (rdot a b <= 1 - 2 * eps)%R -> exists w, rdot w w = 1%R /\ rdot w a = 0%R /\ turns w PI h).
Proof. exact quat_arc. Qed.
Print Assumptions C71_arc_bevy.
Example C71_arc_example :
  rdot (r_new 1 0 0) (r_new 1 0 0) = 1%R /\ rdot (r_new 0 (3 / 5) (4 / 5)) (r_new 0 (3 / 5) (4 / 5)) = 1%R /\
  ((/ 10) * (/ 10) < 1 - rdot (r_new 1 0 0) (r_new 0 (3 / 5) (4 / 5)) * rdot (r_new 1 0 0) (r_new 0 (3 / 5) (4 / 5)))%R /\
  (- (1 - 2 * / 10) <= rdot (r_new 1 0 0) (r_new 0 (3 / 5) (4 / 5)) <= 1 - 2 * / 10)%R.
Proof. exact axes_ok. Qed.
