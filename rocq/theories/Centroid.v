(** Centroids of meshes, faces and edges, the orientation of polygons and line segments of the plane, over the
    real numbers. *)
From Coq Require Import List Arith Bool Reals.
From Verif Require Import Base DVec Mesh MeshMore Alg Transform Normals.
Import ListNotations.
Set Implicit Arguments.
Unset Strict Implicit.

(** src/math/vector.rs:72-76 [stable_mean]; the mean of no vectors is 0/0 in every coordinate, [nan] *)
Definition stable_mean (nan : rvec) (l : list rvec) : rvec := fun i =>
  let (s, count) := kahan 0%R Rplus Rminus (map (fun v => v i) l) in
  if count =? 0 then nan i else (s / INR count)%R.

Section Centroid.
  Context {FP : Type}.
  Notation mesh := (mesh (pnu R) (curve R) FP).
  Implicit Types (m : mesh).
  Variable nan : rvec.
  (** src/mesh/mesh/position.rs:8-11 [centroid] *)
  Definition mesh_centroid m : rvec := stable_mean nan (map (fun x => u_pos (v_pay (snd x))) (d_iter (verts m))).
  (** src/mesh/face/mod.rs:23-31 [centroid] *)
  Definition face_centroid m (f : nat) : res rvec := let* l := face_points m f in Ok (stable_mean nan l).
  (** src/mesh/edge/basics.rs:27-34 [centroid] *)
  Definition edge_centroid m (e : nat) : res rvec :=
    let* (v1, v2) := edge_ends m e in Ok (fun i => (v1 i + v2 i) * / 2)%R.
End Centroid.

(** src/math/polygon.rs:42-44 [area], 47-49 [is_ccw], 52-54 [is_cw]; [ge] is the comparison of absolute values
    within the compensated sum *)
Section Polygon.
  Variable ge : R -> R -> bool.
  Notation signed_area := (signed_area 0%R Rplus Rmult Rminus ge (/ 2)%R).
  Definition poly_area (pts : list (R * R)) : res R := let* a := signed_area pts in Ok (Rabs a).
  Definition is_ccw (pts : list (R * R)) : res bool := let* a := signed_area pts in Ok (if Rle_dec 0 a then true else false).
  Definition is_cw (pts : list (R * R)) : res bool := let* a := signed_area pts in Ok (if Rle_dec a 0 then true else false).
End Polygon.

(** src/math/line_segment.rs:33-47 [length], [length_squared], [midpoint] *)
Definition seg_length_squared (p q : R * R) : R := ((fst p - fst q) * (fst p - fst q) + (snd p - snd q) * (snd p - snd q))%R.
Definition seg_length (p q : R * R) : R := sqrt (seg_length_squared p q).
Definition seg_midpoint (p q : R * R) : R * R := (fst p + (fst q - fst p) * / 2, snd p + (snd q - snd p) * / 2)%R.
