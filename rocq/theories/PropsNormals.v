(** Property C66: smooth normals. *)
From Coq Require Import List Arith Reals.
From Verif Require Import Base DVec Mesh MeshMore Spec MeshSpec TopoSpec TriSpec MeshEx Alg AlgSpec Transform TransSpec Normals NormalsSpec NormalsProofs NormalsMore NormalsEx.
Import ListNotations.
Local Open Scope nat_scope.

(** C66. On every consistent mesh (with planar faces in debug builds) [generate_smooth_normals] succeeds and
    changes normals only: every vertex with a face gets the direction of the sum of the unit normals of its
    corners, however many faces meet there. *)
Theorem C66_smooth : forall (FP : Type) planar nan c (m : mesh (pnu R) (curve R) FP), wf m ->
  (dbg c = true -> forall f, lvf (abs m) f = true -> planar f = true) ->
  exists m', generate_smooth_normals planar nan c m = Ok m' /\ wf m' /\ smoothed nan (abs m) (abs m').
Proof. exact (@smooth_ok). Qed.
Print Assumptions C66_smooth.
(** In debug builds a single face that is not planar panics. *)
Theorem C66_nonplanar_panics : forall (FP : Type) planar nan c (m : mesh (pnu R) (curve R) FP) f, wf m ->
  dbg c = true -> lvf (abs m) f = true -> planar f = false -> generate_smooth_normals planar nan c m = Panic.
Proof. exact (@smooth_panics). Qed.
Print Assumptions C66_nonplanar_panics.

(** If all faces at a vertex look into the half space of [d], its normal is a unit vector of that half space. *)
Theorem C66_points : forall (FP : Type) nan (g g' : graph (pnu R) (curve R) FP) v q d, smoothed nan g g' -> vp g' v = Some q ->
  (exists e, lv g e = true /\ og g e = v /\ fc g e <> None) ->
  (forall e f a, lv g e = true -> og g e = v -> fc g e = Some f -> face_area g f a -> (0 < rdot a d)%R) ->
  rdot (u_nor q) (u_nor q) = 1%R /\ (0 < rdot (u_nor q) d)%R.
Proof. exact (@smooth_points). Qed.
Print Assumptions C66_points.
(** If all faces at a vertex have the same unit normal, the vertex gets it. *)
Theorem C66_flat : forall (FP : Type) nan (g g' : graph (pnu R) (curve R) FP) v q w, smoothed nan g g' -> vp g' v = Some q ->
  (exists e, lv g e = true /\ og g e = v /\ fc g e <> None) -> rdot w w = 1%R ->
  (forall e f a, lv g e = true -> og g e = v -> fc g e = Some f -> face_area g f a -> direction a w) ->
  forall i, i < 3 -> u_nor q i = w i.
Proof. exact (@smooth_flat). Qed.
Print Assumptions C66_flat.
(** Where the triangles at a vertex are turned away from the origin, its normal points away from it. *)
Theorem C66_outward : forall (FP : Type) (m : mesh (pnu R) (curve R) FP) nan g' v p q, wf m ->
  smoothed nan (abs m) g' -> vp (abs m) v = Some p -> vp g' v = Some q ->
  (exists e, lv (abs m) e = true /\ og (abs m) e = v /\ fc (abs m) e <> None) ->
  (forall e f vs ps, lv (abs m) e = true -> og (abs m) e = v -> fc (abs m) e = Some f -> boundary_vertices (abs m) f vs ->
     map (vp (abs m)) vs = map Some ps ->
     exists a b c, map (@u_pos R) ps = [a; b; c] /\ (0 < rdot a (fun i => cross3 Rmult Rminus i b c))%R) ->
  rdot (u_nor q) (u_nor q) = 1%R /\ (0 < rdot (u_nor q) (u_pos p))%R.
Proof. exact (@smooth_outward). Qed.
Print Assumptions C66_outward.
(** Smooth normals turn with the mesh: moving it rigidly and computing the normals gives the moved normals, turned
    around if the motion mirrors. *)
Theorem C66_rigid : forall (FP : Type) planar planar' nan c (m : mesh (pnu R) (curve R) FP) t, wf m ->
  similarity 0%R Rplus Rmult eq 3 1%R (a_mat t) ->
  (dbg c = true -> forall f, lvf (abs m) f = true -> planar f = true /\ planar' f = true) ->
  exists m1 m2, generate_smooth_normals planar nan c m = Ok m1 /\
    generate_smooth_normals planar' nan c (t_transform 0%R Rplus Rmult 3 t m) = Ok m2 /\
    forall e v p q, lv (abs m) e = true -> og (abs m) e = v -> fc (abs m) e <> None -> vp (abs m1) v = Some p -> vp (abs m2) v = Some q ->
      forall i, i < 3 -> u_nor q i = (volume 0%R Rplus Rmult Rminus (a_mat t) * a_apply_vec 0%R Rplus Rmult 3 t (u_nor p) i)%R.
Proof. exact (@smooth_rigid_both). Qed.
Print Assumptions C66_rigid.

(** Not every vertex of a closed mesh gets a unit normal: a triangle with a face on either side, wherever its
    corners are, has zero normals everywhere. *)
Theorem C66_two_sided_refuted : forall a b c, wf (tri2 a b c) /\
  forall nan g v q, smoothed nan (abs (tri2 a b c)) g -> v < 3 -> vp g v = Some q -> forall i, i < 3 -> u_nor q i = 0%R.
Proof. exact (fun a b c => conj (tri2_wf a b c) (@tri2_zero a b c)). Qed.
Print Assumptions C66_two_sided_refuted.
(** A vertex without faces gets 0/0. *)
Theorem C66_isolated_refuted : forall a b c d, wf (tri_lone a b c d) /\
  forall nan g q, smoothed nan (abs (tri_lone a b c d)) g -> vp g 3 = Some q -> u_nor q = nan.
Proof. exact (fun a b c d => conj (lone_wf a b c d) (@lone_nan a b c d)). Qed.
Print Assumptions C66_isolated_refuted.

Example C66_example : wf flat3 /\ wf out3 /\
  (exists e, lv (abs flat3) e = true /\ og (abs flat3) e = 1 /\ fc (abs flat3) e <> None) /\
  (forall e f x, lv (abs flat3) e = true -> og (abs flat3) e = 1 -> fc (abs flat3) e = Some f -> face_area (abs flat3) f x -> direction x (rv 0 0 1)) /\
  (forall v, v < 3 -> exists e, lv (abs out3) e = true /\ og (abs out3) e = v /\ fc (abs out3) e <> None) /\
  (forall e f vs ps, lv (abs out3) e = true -> fc (abs out3) e = Some f -> boundary_vertices (abs out3) f vs ->
     map (vp (abs out3)) vs = map Some ps ->
     exists a b c, map (@u_pos R) ps = [a; b; c] /\ (0 < rdot a (fun i => cross3 Rmult Rminus i b c))%R) /\
  similarity 0%R Rplus Rmult eq 3 1%R (a_mat r_turn).
Proof.
  split; [apply tri1_wf|]. split; [apply tri1_wf|]. split; [exact flat3_at|]. split; [exact flat3_dir|].
  split; [exact out3_at|]. split; [exact out3_pos|]. apply r_turn_ok.
Qed.
