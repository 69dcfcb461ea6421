(** Property C73: the triangulation of a face with a constrained Delaunay triangulation. *)
From Coq Require Import List Arith Bool Reals Lra.
From Verif Require Import Base DVec Mesh MeshMore Spec MeshSpec MeshEx TopoSpec Tess TriSpec BufferSpec MinWeightSpec TriMesh TriMeshSpec Cdt CdtSpec CdtMesh CdtEx.
Import ListNotations.

(** C73. If the outer crate returns a constrained Delaunay triangulation of the corners of a face, and the corners are
    joined by the sides of the face only, then the triangles that the library keeps triangulate the face. The six
    debug checks at every triangle inside the face pass: the function panics only if the checks at its start or
    its end fail. *)
Theorem C73_delaunay :
  forall (VP EP FP : Type) (m : mesh VP EP FP) c f us eps cdt before after D, wf m -> lvf (abs m) f = true ->
    boundary_vertices (abs m) f (map snd us) -> alone (abs m) f (map snd us) -> 3 <= length us -> (0 < eps)%R ->
    spread eps (map fst us) -> cdt (map fst us) = Ok D -> constrained (map fst us) D ->
    exists keep, let T := map (lift3 (map snd us)) (filter keep D) in triangulates (map snd us) T /\
      delaunay_triangulation c eps cdt before after m f us = if negb (dbg c) || (before f && after T) then Ok T else Panic.
Proof. exact @delaunay_ok. Qed.
Print Assumptions C73_delaunay.

(** A star with three points: triangles beyond its sides are dropped, and the one in the middle, which touches no side, is kept. *)
Example C73_example :
  wf star6 /\ lvf (abs star6) 0 = true /\ boundary_vertices (abs star6) 0 (map snd star_us) /\ alone (abs star6) 0 (map snd star_us) /\
  spread 1 (map fst star_us) /\ constrained (map fst star_us) star_D /\ length star_D = 7 /\ In (1, 3, 5) star_D /\
  exists T, delaunay_triangulation c0 1 (fun _ => Ok star_D) (fun _ => true) (fun _ => true) star6 0 star_us = Ok T /\
    triangulates (map snd star_us) T /\ length T = 4.
Proof.
  destruct star_mesh as (Wm & L & B & AL).
  assert (SP : spread 1 (map fst star_us)) by (apply (@spreadb_ok star_pts); [vm_compute; reflexivity|lra]).
  split; [exact Wm|]. split; [exact L|]. split; [exact B|]. split; [exact AL|]. split; [exact SP|]. split; [exact star_constrained|].
  split; [reflexivity|]. split; [cbn; auto|].
  destruct (@C73_delaunay _ _ _ star6 c0 0 star_us 1%R (fun _ => Ok star_D) (fun _ => true) (fun _ => true) star_D Wm L B AL) as (keep & TR & E);
    [vm_compute; auto|apply Rlt_0_1|exact SP|reflexivity|exact star_constrained|].
  eexists. split; [exact E|]. split; [exact TR|]. pose proof (TriFacts.triangulates_length TR) as Q. cbn [map snd star_us combine star_pts length] in Q.
  injection Q. auto.
Qed.

(** The whole mesh: with constrained Delaunay triangulations of the faces, every face is triangulated by itself, and the
    triangulation of a closed mesh has no gaps. *)
Theorem C73_mesh :
  forall (VP EP FP S W : Type) (pos2 : nat -> option (nat -> rvec2)) planar convex_face simple (ds : rvec2 -> rvec2 -> S) le cv inside3 collinear rnd
      (addW : W -> W -> W) ltW zeroW (distance : rvec2 -> rvec2 -> W) valid_diagonal sweep (m : mesh VP EP FP) c eps cdt before after,
    wf m -> weights addW ltW zeroW -> (forall k, sound (sweep k)) -> (0 < eps)%R ->
    (forall f l p, lvf (abs m) f = true -> boundary_vertices (abs m) f l -> pos2 f = Some p -> 3 <= length l ->
      alone (abs m) f l /\ spread eps (map p l) /\ forall D, cdt f (map p l) = Ok D -> constrained (map p l) D) ->
    forall dbg alg blank ix out, alg <> EarClipping ->
    triangulate pos2 planar convex_face simple ds le cv inside3 collinear rnd addW ltW zeroW distance valid_diagonal sweep
      (fun f us => delaunay_triangulation c eps (cdt f) (before f) (after f) m f us) dbg alg blank m = Ok (ix, out) ->
    exists T, ix = flatten T /\ face_by_face (abs m) (fun _ => false) (face_ids m) T /\ (closed (abs m) -> watertight T).
Proof. exact @delaunay_mesh. Qed.
Print Assumptions C73_mesh.

Example C73_mesh_example :
  forall f l p, lvf (abs star6) f = true -> boundary_vertices (abs star6) f l -> star_pos f = Some p -> 3 <= length l ->
    alone (abs star6) f l /\ spread 1 (map p l) /\ forall D, Ok star_D = Ok D -> constrained (map p l) D.
Proof. exact star_faces. Qed.

(** Without the condition that the corners are joined by the sides of the face only, triangles are missing: in a
    closed mesh of three faces, one with seven corners, two of which are joined on the other side as well, the
    triangle at this edge is dropped, although the vertices of the face are all used. *)
Theorem C73_chord_refuted :
  exists (m : mesh nat nat nat) us D T, wf m /\ closed (abs m) /\ no_parallel (abs m) /\ lvf (abs m) 0 = true /\
    boundary_vertices (abs m) 0 (map snd us) /\ NoDup (map snd us) /\ spread 1 (map fst us) /\ constrained (map fst us) D /\
    (forall c eps before after, (dbg c = true -> before 0 = true /\ after T = true) ->
      delaunay_triangulation c eps (fun _ => Ok D) before after m 0 us = Ok T) /\
    (forall v, In v (map snd us) -> exists t, In t T /\ In v (flatten [t])) /\ length T + 3 = length us /\
    ~ triangulates (map snd us) T /\ ~ covers (map snd us) T.
Proof. exact chord_drops. Qed.
Print Assumptions C73_chord_refuted.
