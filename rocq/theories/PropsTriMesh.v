(** Property C64: triangulating a whole mesh. *)
From Coq Require Import List Arith ZArith Bool.
From Verif Require Import Base DVec Mesh MeshMore Spec MeshSpec MeshEx TopoSpec Tess TriSpec BufferSpec MinWeightSpec MinWeightProofs TriMesh TriMeshSpec TriMeshProofs TriMeshEx.
Import ListNotations.

(** C64. For every algorithm except ear clipping: the faces are triangulated one after the other, each
    with the winding of its boundary; all indices are vertices of the mesh; the number of triangles is
    the number of sides of the faces minus two per face; and as oriented chains the triangles cover
    exactly the half-edges that belong to a face. The sweeps and the Delaunay triangulation are assumed to
    triangulate every polygon they do not refuse (for the sweeps see C37 and C57; spade is not modelled). *)
Theorem C64_mesh_triangulation :
  forall (P S W VP EP FP : Type) (pos2 : nat -> option (nat -> P)) (planar convex_face simple : nat -> bool) (ds : P -> P -> S) le cv inside3 collinear rnd
      (addW : W -> W -> W) ltW zeroW (distance : P -> P -> W) valid_diagonal sweep delaunay (m : mesh VP EP FP),
    wf m -> weights addW ltW zeroW -> (forall k, sound (sweep k)) -> (forall f, sound (delaunay f)) ->
    forall dbg alg blank ix out, alg <> EarClipping ->
    triangulate pos2 planar convex_face simple ds le cv inside3 collinear rnd addW ltW zeroW distance valid_diagonal sweep delaunay dbg alg blank m = Ok (ix, out) ->
    exists T, ix = flatten T /\ face_by_face (abs m) (fun _ => false) (face_ids m) T /\ Forall (fun v => lvv (abs m) v = true) ix /\
      exists es, lists_sides (abs m) (fun _ => True) es /\ length T + 2 * num_faces m = length es /\
        forall a b, net (flat_map (@tri_edges nat) T) a b = net (arrows (abs m) es) a b.
Proof. intros until m. intros Wm GW GS GD dbg alg blank ix out. exact (@triangulate_covers _ _ _ _ _ _ _ _ _ _ _ _ _ _ _ _ _ _ _ _ _ _ _ m Wm dbg alg blank ix out GW GS GD). Qed.
Print Assumptions C64_mesh_triangulation.

(** If every half-edge belongs to a face, the triangles are watertight: every directed edge is met as
    often as the opposite one. *)
Theorem C64_watertight :
  forall (P S W VP EP FP : Type) (pos2 : nat -> option (nat -> P)) (planar convex_face simple : nat -> bool) (ds : P -> P -> S) le cv inside3 collinear rnd
      (addW : W -> W -> W) ltW zeroW (distance : P -> P -> W) valid_diagonal sweep delaunay (m : mesh VP EP FP),
    wf m -> weights addW ltW zeroW -> (forall k, sound (sweep k)) -> (forall f, sound (delaunay f)) ->
    forall dbg alg blank ix out, alg <> EarClipping -> closed (abs m) ->
    triangulate pos2 planar convex_face simple ds le cv inside3 collinear rnd addW ltW zeroW distance valid_diagonal sweep delaunay dbg alg blank m = Ok (ix, out) ->
    exists T, ix = flatten T /\ watertight T /\ length T + 2 * num_faces m = num_edges m.
Proof. intros until m. intros Wm GW GS GD dbg alg blank ix out. exact (@triangulate_closed _ _ _ _ _ _ _ _ _ _ _ _ _ _ _ _ _ _ _ _ _ _ _ m Wm dbg alg blank ix out GW GS GD). Qed.
Print Assumptions C64_watertight.

Example C64_example :
  wf ex_penta /\ closed (abs ex_penta) /\ weights Nat.add Nat.ltb 0 /\ sound z_fan /\ num_faces ex_penta = 6 /\ num_edges ex_penta = 20 /\
  z_triangulate true Fan 0 ex_penta =
    Ok (flatten [(0, 4, 3); (0, 3, 2); (0, 2, 1); (5, 4, 0); (5, 3, 4); (5, 2, 3); (5, 1, 2); (1, 5, 0)], [0; 10; 20; 30; 40; 50]).
Proof.
  split; [apply wfb_ok; vm_compute; reflexivity|]. split; [apply closedb_ok; vm_compute; reflexivity|].
  split; [exact nat_weights|]. split; [exact z_fan_sound|]. repeat split; vm_compute; reflexivity.
Qed.

(** Ear clipping turns over the faces with more than four vertices; smaller faces never reach it. A
    closed mesh without parallel edges stays watertight exactly if no edge lies between a face with at
    most four vertices and a larger one. *)
Theorem C64_ear_clipping :
  forall (P S W VP EP FP : Type) (pos2 : nat -> option (nat -> P)) (planar convex_face simple : nat -> bool) (ds : P -> P -> S) le cv inside3 collinear rnd
      (addW : W -> W -> W) ltW zeroW (distance : P -> P -> W) valid_diagonal sweep delaunay (m : mesh VP EP FP),
    wf m -> weights addW ltW zeroW -> (forall k, sound (sweep k)) -> (forall f, sound (delaunay f)) ->
    forall dbg blank ix out, closed (abs m) -> no_parallel (abs m) ->
    triangulate pos2 planar convex_face simple ds le cv inside3 collinear rnd addW ltW zeroW distance valid_diagonal sweep delaunay dbg EarClipping blank m = Ok (ix, out) ->
    exists T, ix = flatten T /\ face_by_face (abs m) (fun n => 4 <? n) (face_ids m) T /\ length T + 2 * num_faces m = num_edges m /\
      (watertight T <-> forall e, lv (abs m) e = true -> small_side (abs m) e -> small_side (abs m) (tw (abs m) e)).
Proof. intros until m. intros Wm GW GS GD dbg blank ix out. exact (@triangulate_ears _ _ _ _ _ _ _ _ _ _ _ _ _ _ _ _ _ _ _ _ _ _ _ m Wm dbg blank ix out GW GS GD). Qed.
Print Assumptions C64_ear_clipping.

(** A pyramid over a convex pentagon: the sides of the base are traversed twice in the same direction. *)
Theorem C64_ear_clipping_refuted :
  exists (m : mesh nat nat nat) T out, wf m /\ closed (abs m) /\ no_parallel (abs m) /\ num_faces m = 6 /\
    z_triangulate true EarClipping 0 m = Ok (flatten T, out) /\ net (flat_map (@tri_edges nat) T) 0 1 = 2%Z /\ ~ watertight T.
Proof. exact ear_not_watertight. Qed.
Print Assumptions C64_ear_clipping_refuted.

(** If all faces have three or four vertices and those with four can be rotated into the plane, every
    algorithm succeeds, with the same result. *)
Theorem C64_small_faces :
  forall (P S W VP EP FP : Type) (pos2 : nat -> option (nat -> P)) (planar convex_face simple : nat -> bool) (ds : P -> P -> S) le cv inside3 collinear rnd
      (addW : W -> W -> W) ltW zeroW (distance : P -> P -> W) valid_diagonal sweep delaunay (m : mesh VP EP FP),
    wf m -> forall blank, every_size (abs m) (fun n => n = 3 \/ n = 4) -> placed pos2 (abs m) (fun n => n = 4) ->
    exists ix out, forall dbg alg, triangulate pos2 planar convex_face simple ds le cv inside3 collinear rnd addW ltW zeroW distance valid_diagonal sweep delaunay dbg alg blank m = Ok (ix, out).
Proof. intros until m. intros Wm. exact (@small_faces_succeed _ _ _ _ _ _ _ _ _ _ _ _ _ _ _ _ _ _ _ _ _ _ _ m Wm). Qed.
Print Assumptions C64_small_faces.

(** The fan succeeds if all faces have three vertices or more, those with four to six can be rotated into
    the plane and, in a debug build, all are flat and convex. *)
Theorem C64_fan :
  forall (P S W VP EP FP : Type) (pos2 : nat -> option (nat -> P)) (planar convex_face simple : nat -> bool) (ds : P -> P -> S) le cv inside3 collinear rnd
      (addW : W -> W -> W) ltW zeroW (distance : P -> P -> W) valid_diagonal sweep delaunay (m : mesh VP EP FP),
    wf m -> forall dbg blank, every_size (abs m) (fun n => 3 <= n) -> placed pos2 (abs m) (fun n => 4 <= n <= 6) ->
    (dbg = false \/ forall f, lvf (abs m) f = true -> planar f = true /\ convex_face f = true) ->
    exists r, triangulate pos2 planar convex_face simple ds le cv inside3 collinear rnd addW ltW zeroW distance valid_diagonal sweep delaunay dbg Fan blank m = Ok r.
Proof. intros until m. intros Wm. exact (@fan_succeeds _ _ _ _ _ _ _ _ _ _ _ _ _ _ _ _ _ _ _ _ _ _ _ m Wm). Qed.
Print Assumptions C64_fan.

(** A face with one or two vertices makes every algorithm fail. *)
Theorem C64_degenerate :
  forall (P S W VP EP FP : Type) (pos2 : nat -> option (nat -> P)) (planar convex_face simple : nat -> bool) (ds : P -> P -> S) le cv inside3 collinear rnd
      (addW : W -> W -> W) ltW zeroW (distance : P -> P -> W) valid_diagonal sweep delaunay (m : mesh VP EP FP),
    wf m -> forall dbg alg blank r, triangulate pos2 planar convex_face simple ds le cv inside3 collinear rnd addW ltW zeroW distance valid_diagonal sweep delaunay dbg alg blank m = Ok r ->
    every_size (abs m) (fun n => 3 <= n).
Proof. intros until m. intros Wm. exact (@export_sizes _ _ _ _ _ _ _ _ _ _ _ _ _ _ _ _ _ _ _ _ _ _ _ m Wm). Qed.
Print Assumptions C64_degenerate.

(** The two algorithms that are not implemented panic, unless no face has more than four vertices and
    those with four can be rotated into the plane. *)
Theorem C64_unimplemented :
  forall (P S W VP EP FP : Type) (pos2 : nat -> option (nat -> P)) (planar convex_face simple : nat -> bool) (ds : P -> P -> S) le cv inside3 collinear rnd
      (addW : W -> W -> W) ltW zeroW (distance : P -> P -> W) valid_diagonal sweep delaunay (m : mesh VP EP FP),
    wf m -> forall dbg alg blank, alg = EdgeFlip \/ alg = Heuristic ->
    let r := triangulate pos2 planar convex_face simple ds le cv inside3 collinear rnd addW ltW zeroW distance valid_diagonal sweep delaunay dbg alg blank m in
    (every_size (abs m) (fun n => n = 3 \/ n = 4) /\ placed pos2 (abs m) (fun n => n = 4) /\ exists x, r = Ok x) \/
    (~ (every_size (abs m) (fun n => n = 3 \/ n = 4) /\ placed pos2 (abs m) (fun n => n = 4)) /\ r = Panic).
Proof. intros until m. intros Wm. exact (@todo_algorithms _ _ _ _ _ _ _ _ _ _ _ _ _ _ _ _ _ _ _ _ _ _ _ m Wm). Qed.
Print Assumptions C64_unimplemented.

(** A face with four to six vertices that cannot be rotated into the plane makes every algorithm fail. *)
Theorem C64_unplaced :
  forall (P S W VP EP FP : Type) (pos2 : nat -> option (nat -> P)) (planar convex_face simple : nat -> bool) (ds : P -> P -> S) le cv inside3 collinear rnd
      (addW : W -> W -> W) ltW zeroW (distance : P -> P -> W) valid_diagonal sweep delaunay (m : mesh VP EP FP),
    wf m -> forall dbg alg blank f n, lvf (abs m) f = true -> face_size (abs m) f n -> 4 <= n <= 6 -> pos2 f = None ->
    forall r, triangulate pos2 planar convex_face simple ds le cv inside3 collinear rnd addW ltW zeroW distance valid_diagonal sweep delaunay dbg alg blank m <> Ok r.
Proof. intros until m. intros Wm. exact (@unplaced _ _ _ _ _ _ _ _ _ _ _ _ _ _ _ _ _ _ _ _ _ _ _ m Wm). Qed.
Print Assumptions C64_unplaced.

(** Without deleted vertices the index of a vertex is its position in the exported vertex buffer. *)
Theorem C64_payloads :
  forall (P S W VP EP FP : Type) (pos2 : nat -> option (nat -> P)) (planar convex_face simple : nat -> bool) (ds : P -> P -> S) le cv inside3 collinear rnd
      (addW : W -> W -> W) ltW zeroW (distance : P -> P -> W) valid_diagonal sweep delaunay (m : mesh VP EP FP),
    wf m -> forall dbg alg blank ix out, d_len (verts m) = d_cap (verts m) ->
    triangulate pos2 planar convex_face simple ds le cv inside3 collinear rnd addW ltW zeroW distance valid_diagonal sweep delaunay dbg alg blank m = Ok (ix, out) ->
    length out = num_vertices m /\ forall v, nth_error out v = vp (abs m) v.
Proof. intros until m. intros Wm. exact (@export_payloads _ _ _ _ _ _ _ _ _ _ _ _ _ _ _ _ _ _ _ _ _ _ _ m Wm). Qed.
Print Assumptions C64_payloads.

Example C64_more_examples :
  z_triangulate true Heuristic 0 ex_penta = Panic /\
  z_triangulate true Heuristic 0 ex_square = z_triangulate false Sweep 0 ex_square /\
  z_triangulate true Heuristic 0 ex_square = Ok (flatten [(3, 2, 1); (3, 1, 0)], [0; 10; 20; 30]) /\
  d_len (verts ex_penta) = d_cap (verts ex_penta).
Proof. repeat split; vm_compute; reflexivity. Qed.
