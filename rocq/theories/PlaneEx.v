(** Examples for faces in the plane: a square that stands upright; cuboids. *)
From Coq Require Import List Arith Lia Bool Reals Lra.
From Verif Require Import Base DVec Mesh Spec MeshSpec TopoSpec MeshMore MeshEx IsoProofs Alg AlgSpec TriSpec Transform TransSpec Solid Normals NormalsSpec NormalsProofs TriMesh TriMeshSpec Plane PlaneSpec PlaneProofs PlaneMesh.
Import ListNotations.
Set Implicit Arguments.
Unset Strict Implicit.
Local Arguments abs : simpl never.
Local Open Scope nat_scope.

Lemma cuboid_refuted (FP : Type) (dE : curve R) (dF : FP) c x y z nor uv : (0 < x)%R -> (0 < y)%R -> (0 < z)%R ->
  24 <= capE c -> 8 <= capV c -> 6 <= capF c ->
  let p := corner nor uv in
  exists m, cuboid dE dF c (p (- x) (- y) (- z))%R (p x (- y) (- z))%R (p x y (- z))%R (p (- x) y (- z))%R
      (p (- x) (- y) z)%R (p x (- y) z)%R (p x y z) (p (- x) y z)%R = Ok m /\ wf m /\
    forall (S W : Type) eps planar cc pos2 planar' convex_face simple
        (ds : R * R -> R * R -> S) le cv inside3 collinear rnd (addW : W -> W -> W) ltW zeroW distance valid_diagonal sweep delaunay,
      (0 <= eps)%R -> plane_pos (arc_nalgebra eps) planar cc m pos2 ->
      forall dbg alg blank r, triangulate pos2 planar' convex_face simple ds le cv inside3 collinear rnd addW ltW zeroW distance valid_diagonal sweep delaunay dbg alg blank m <> Ok r.
Proof.
  intros X Y Z A B D p. destruct (cuboid_bottom dE dF nor uv X Y Z A B D) as (m & E & Wm & f & a & L & SZ & AR & A0 & A1 & A2).
  exists m. split; [exact E|]. split; auto. intros. eapply (@downward FP S W eps planar cc planar' m pos2 convex_face simple ds le cv inside3 collinear rnd addW ltW zeroW distance valid_diagonal sweep delaunay f a 4); eauto.
  split; [rewrite A2; nra|]. unfold tilted, dot3. rewrite A0, A1. intros T. assert (0 <= eps * eps)%R by nra. pose proof (Rle_0_sqr (a 2)) as Q. unfold Rsqr in Q. nra.
Qed.

Definition at_ (x y z : R) : pnu R := corner (fun _ => 0%R) (fun _ => 0%R) x y z.
Definition wall (s : R) : mesh (pnu R) (curve R) nat := get_ok empty_mesh
  (let* (m, _) := insert_polygon (Linear R) 7 c0 empty_mesh [at_ 0 0 0; at_ s 0 0; at_ s 0 s; at_ 0 0 s] in Ok m).
Lemma wall_wf s : wf (wall s).
Proof. apply wfb_ok; vm_compute; reflexivity. Qed.
Lemma wall_ok :
  wf (wall 2) /\ lvf (abs (wall 2)) 0 = true /\ face_area (abs (wall 2)) 0 (r_new 0 4 0) /\ direction (r_new 0 4 0) (r_new 0 1 0) /\
  tilted (/ 10) (r_new 0 4 0) /\ ~ tilted (/ 10) (r_new 0 0 4) /\ looks_down (/ 10) (r_new 0 0 (-4)) /\ face_size (abs (wall 2)) 0 4.
Proof.
  assert (L : lvf (abs (wall 2)) 0 = true) by reflexivity. pose proof (wall_wf 2) as Wm. split; auto. split; auto.
  destruct (boundary_exists Wm L) as (vs & B). pose proof (boundary_face_vertices Wm L B) as FV.
  assert (exists l, face_vertices (wall 2) 0 = Ok l /\ exists ps, map (vp (abs (wall 2))) l = map Some ps /\ length l = 4 /\
    forall i, i < 3 -> r_new 0 4 0 i = (/ 2 * esum 0 Rplus (cross3 Rmult Rminus i) (poly_edges (map (@u_pos R) ps)))%R) as (l & FL & ps & M & LL & AR).
  { eexists. split; [vm_compute; reflexivity|]. 
    exists (map (fun v => nth v [at_ 0 0 0; at_ 2 0 0; at_ 2 0 2; at_ 0 0 2] (at_ 0 0 0)) ltac:(let x := eval vm_compute in (get_ok [] (face_vertices (wall 2) 0)) in exact x)).
    split; [reflexivity|]. split; [reflexivity|].
    intros i Hi. destruct i as [|[|[|]]]; [| | |lia]; cbn; unfold cross3; cbn; field. }
  rewrite FL in FV. injection FV as ->. split; [exists vs, ps; auto|]. split; [|split; [|split; [|split]]].
  - left. exists 4%R. split; [lra|]. split; [unfold dot3; cbn [r_new]; ring|]. intros i Hi. destruct i as [|[|[|]]]; cbn [r_new]; try ring; lia.
  - unfold tilted, dot3. cbn [r_new]. lra.
  - unfold tilted, dot3. cbn [r_new]. lra.
  - split; [cbn; lra|]. unfold tilted, dot3. cbn [r_new]. lra.
  - exists vs. auto.
Qed.
