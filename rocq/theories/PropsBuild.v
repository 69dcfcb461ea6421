(** Properties C16-C20 and C54: paths, loops, polygons, apexes, lofts, extrusions and solids. *)
From Coq Require Import List Arith Bool.
From Verif Require Import Base DVec Mesh Spec MeshSpec MeshMore MeshEx TopoSpec TopoEx BuildSpec Solid SolidSpec.
From Verif Require Import PathProofs LoftProofs TriProofs SolidProofs ShapeProofs SphereProofs CountProofs.
Import ListNotations.

(** C16. [insert_path] with at least two payloads adds an open path of new vertices with these payloads in
    order and returns the half-edges that lead to its first and to its last vertex. *)
Theorem C16_path :
  forall (VP EP FP : Type) (dE : EP) (c : cfg) (m : mesh VP EP FP) y0 y1 rest a b d, wf m ->
    let n := length (y0 :: y1 :: rest) in
    fits c m (2 * (n - 1) + a) (n + b) d ->
    exists m' es vs, insert_path dE c m (y0 :: y1 :: rest) = Ok (m', tw (abs m') (hd 0 es), last es 0) /\
      wf m' /\ fits c m' a b d /\ path_built (abs m) (abs m') es vs (y0 :: y1 :: rest).
Proof. exact @path_total. Qed.
Print Assumptions C16_path.

(** With fewer payloads it panics. *)
Theorem C16_path_short :
  forall (VP EP FP : Type) (dE : EP) (c : cfg) (m : mesh VP EP FP) ys, length ys < 2 -> insert_path dE c m ys = Panic.
Proof. exact @insert_path_short. Qed.
Print Assumptions C16_path_short.

(** [insert_loop] adds two opposite boundary loops through the new vertices. *)
Theorem C16_loop :
  forall (VP EP FP : Type) (dE : EP) (c : cfg) (m : mesh VP EP FP) y0 y1 y2 rest a b d, wf m ->
    let ys := y0 :: y1 :: y2 :: rest in let n := length ys in
    fits c m (2 * n + a) (n + b) d ->
    exists m' es vs, insert_loop dE c m ys = Ok (m', tw (abs m') (hd 0 es)) /\ wf m' /\ fits c m' a b d /\
      ring_built (abs m) (abs m') es vs ys [] /\ hole (abs m') es /\ hole (abs m') (rev (map (tw (abs m')) es)).
Proof. exact @insert_loop_total. Qed.
Print Assumptions C16_loop.

(** [insert_polygon] adds one face, on the side opposite to the payload order, and returns the boundary
    half-edge from the first to the second vertex. *)
Theorem C16_polygon :
  forall (VP EP FP : Type) (dE : EP) (dF : FP) (c : cfg) (m : mesh VP EP FP) y0 y1 y2 rest a b d, wf m ->
    let ys := y0 :: y1 :: y2 :: rest in let n := length ys in
    fits c m (2 * n + a) (n + b) (S d) ->
    exists m' es vs f, insert_polygon dE dF c m ys = Ok (m', hd 0 es) /\ wf m' /\ fits c m' a b d /\
      ring_built (abs m) (abs m') es vs ys [f] /\ hole (abs m') es /\
      face_is (abs m') f (rev (map (tw (abs m')) es)) dF false.
Proof. exact @insert_polygon_total. Qed.
Print Assumptions C16_polygon.

Example C16_example : wf ex_square /\ fits c0 ex_square (2 * 4 + 0) (4 + 0) 1 /\
  (exists m', insert_path 0 c0 ex_square [1; 2; 3] = Ok (m', 9, 10)) /\
  (exists m', insert_loop 0 c0 ex_square [1; 2; 3; 4] = Ok (m', 9)) /\
  (exists m', insert_polygon 0 7 c0 ex_square [1; 2; 3; 4] = Ok (m', 8)).
Proof.
  split; [apply wfb_ok; vm_compute; reflexivity|].
  split; [repeat split; apply Nat.leb_le; vm_compute; reflexivity|].
  split; [|split]; eexists; vm_compute; reflexivity.
Qed.

(** [insert_dihedron] with any payload list panics in a debug build: it tries to close the side that
    [insert_polygon] has closed already. *)
Theorem C16_dihedron_refuted :
  forall (VP EP FP : Type) (dE : EP) (dF : FP) (c : cfg) (m : mesh VP EP FP) y0 y1 y2 rest a b d, wf m -> dbg c = true ->
    let ys := y0 :: y1 :: y2 :: rest in let n := length ys in
    fits c m (2 * n + a) (n + b) (2 + d) -> insert_dihedron dE dF c m ys = Panic.
Proof. exact @dihedron_wrong. Qed.
Print Assumptions C16_dihedron_refuted.

Example C16_dihedron_example : fits c0 ex_square (2 * 3 + 0) (3 + 0) (2 + 0) /\ dbg c0 = true /\
  insert_dihedron 0 7 c0 ex_square [1; 2; 3] = Panic.
Proof.
  split; [repeat split; apply Nat.leb_le; vm_compute; reflexivity|]. split; [reflexivity|]. vm_compute; reflexivity.
Qed.

(** In a release build it leaves a boundary, and a face whose half-edge belongs to the other face. *)
Theorem C16_dihedron_release_refuted :
  ~ (forall (ys : list nat) m e, 3 <= length ys -> insert_dihedron 0 7 c_release empty_mesh ys = Ok (m, e) ->
       wf m /\ forall x, lv (abs m) x = true -> fc (abs m) x <> None).
Proof.
  intros H. edestruct (H [1; 2; 3]) as [_ B]; [auto|vm_compute; reflexivity|]. apply (B 0); reflexivity.
Qed.
Print Assumptions C16_dihedron_release_refuted.

(** C17. [fill_hole_apex] closes a boundary loop of any length whose vertices are distinct by a new vertex and one
    triangle per half-edge. *)
Theorem C17_fill_hole_apex :
  forall (VP EP FP : Type) (dE : EP) (dF : FP) (c : cfg) (m : mesh VP EP FP) start t y a b d, wf m ->
    let L := start :: t in
    hole (abs m) L -> NoDup (map (og (abs m)) L) -> fits c m (2 * length L + a) (S b) (length L + d) ->
    exists m' v ps fs, fill_hole_apex dE dF c m start y = Ok (m', v) /\ wf m' /\ fits c m' a b d /\
      length ps = length L /\ apex_built (abs m) (abs m') L v y dF ps fs /\ out_number (abs m') v (length L).
Proof. exact @apex_total. Qed.
Print Assumptions C17_fill_hole_apex.

Example C17_example : wf ex_square /\ hole (abs ex_square) [2; 4; 7; 0] /\ NoDup (map (og (abs ex_square)) [2; 4; 7; 0]) /\
  fits c0 ex_square (2 * 4 + 0) 1 (4 + 0) /\
  exists m', fill_hole_apex 0 7 c0 ex_square 2 99 = Ok (m', 4) /\ num_faces m' = 5 /\ wf m'.
Proof.
  split; [apply wfb_ok; vm_compute; reflexivity|].
  split; [split; [apply loopb_ok; vm_compute; reflexivity|intros x [<-|[<-|[<-|[<-|[]]]]]; reflexivity]|].
  split; [apply nodupb_ok; vm_compute; reflexivity|].
  split; [repeat split; apply Nat.leb_le; vm_compute; reflexivity|].
  eexists. split; [vm_compute; reflexivity|]. split; [vm_compute; reflexivity|apply wfb_ok; vm_compute; reflexivity].
Qed.

(** A boundary loop that visits the first vertex twice is closed too early: here, around two triangles with
    a common corner, with three faces instead of six. *)
Theorem C17_repeated_vertex_refuted :
  exists (m : mesh nat nat nat) m' v, wf m /\ hole (abs m) [0; 2; 4; 6; 8; 10] /\ fits c0 m (2 * 6 + 0) 1 (6 + 0) /\
    fill_hole_apex 0 7 c0 m 0 99 = Ok (m', v) /\ num_faces m = 0 /\ num_faces m' = 3.
Proof.
  exists (built c0 [BIsolated 0 1 10 2; BViaVertex 1 20 3 4; BBetween 2 7 0 8; BViaEdge 4 0 30 5 6; BViaVertex 3 40 5 6; BInsertEdge 8 9 7 9]).
  do 2 eexists. split; [apply wfb_ok; vm_compute; reflexivity|].
  split; [split; [apply loopb_ok; vm_compute; reflexivity|intros x [<-|[<-|[<-|[<-|[<-|[<-|[]]]]]]]; reflexivity]|].
  split; [repeat split; apply Nat.leb_le; vm_compute; reflexivity|].
  split; [vm_compute; reflexivity|]. split; vm_compute; reflexivity.
Qed.
Print Assumptions C17_repeated_vertex_refuted.

(** C18. A ring of quads against the direction of the boundary loop; the returned half-edge ends the new
    loop. *)
Theorem C18_loft_polygon_back :
  forall (VP EP FP : Type) (dE : EP) (dF : FP) (c : cfg) (m : mesh VP EP FP) start t y ys a b d, wf m ->
    let n := length (start :: t) in
    hole (abs m) (start :: t) -> 3 <= n -> length (y :: ys) = n -> fits c m (4 * n + a) (n + b) (n + d) ->
    exists m' ps ts vs fs, loft_polygon_back dE dF c m start 2 2 (y :: ys) = Ok (m', last ts 0) /\ wf m' /\ fits c m' a b d /\
      length ts = n /\ band_built (abs m) (abs m') (t ++ [start]) (y :: rev ys) dF ps ts vs fs.
Proof. exact @loft_back_total. Qed.
Print Assumptions C18_loft_polygon_back.

(** In the direction of the loop; the returned half-edge starts the new loop. *)
Theorem C18_loft_polygon :
  forall (VP EP FP : Type) (dE : EP) (dF : FP) (c : cfg) (m : mesh VP EP FP) start t y ys a b d, wf m ->
    let n := length (start :: t) in
    hole (abs m) (start :: t) -> 3 <= n -> length (y :: ys) = n -> fits c m (4 * n + a) (n + b) (n + d) ->
    exists m' ps ts vs fs, loft_polygon dE dF c m start 2 2 (y :: ys) = Ok (m', hd 0 ts) /\ wf m' /\ fits c m' a b d /\
      length ts = n /\ band_built (abs m) (abs m') (start :: t) (y :: ys) dF ps ts vs fs.
Proof. exact @loft_total. Qed.
Print Assumptions C18_loft_polygon.

(** [extrude] closes the loop by a ring of quads and a cap; every vertex is moved. *)
Theorem C18_extrude :
  forall (VP EP FP : Type) (dE : EP) (dF : FP) (c : cfg) (m : mesh VP EP FP) start t (tr : VP -> VP) a b d, wf m ->
    let n := length (start :: t) in
    hole (abs m) (start :: t) -> 3 <= n -> fits c m (4 * n + a) (n + b) (n + S d) ->
    exists m' ps ts vs fs cap, extrude dE dF c m start tr = Ok (m', last ts 0) /\ wf m' /\ fits c m' a b d /\
      length ts = n /\ extruded (abs m) (abs m') (t ++ [start]) tr dF ps ts vs fs cap.
Proof. exact @extrude_total. Qed.
Print Assumptions C18_extrude.

(** [extrude_face] removes the face and then extrudes its boundary. *)
Theorem C18_extrude_face :
  forall (VP EP FP : Type) (dE : EP) (dF : FP) (c : cfg) (m : mesh VP EP FP) f l x0 cu (tr : VP -> VP) a b d, wf m ->
    face_is (abs m) f (fe (abs m) f :: l) x0 cu ->
    let n := S (length l) in 3 <= n -> fits c m (4 * n + a) (n + b) (n + d) ->
    exists m1 m' ps ts vs fs cap, extrude_face dE dF c m f tr = Ok (m', last ts 0) /\ wf m' /\ fits c m' a b d /\
      length ts = n /\ face_removed (abs m) (abs m1) f /\
      extruded (abs m1) (abs m') (l ++ [fe (abs m) f]) tr dF ps ts vs fs cap.
Proof. exact @extrude_face_total. Qed.
Print Assumptions C18_extrude_face.

Example C18_example : wf ex_square /\ hole (abs ex_square) [2; 4; 7; 0] /\ face_is (abs ex_square) 0 [fe (abs ex_square) 0; 6; 5; 3] 7 false /\
  fits c0 ex_square (4 * 4 + 0) (4 + 0) (4 + 1) /\
  (exists m' e, extrude 0 7 c0 ex_square 2 S = Ok (m', e) /\ num_faces m' = 6 /\ wf m' /\
     map (vp (abs m')) [4; 5; 6; 7] = [Some 21; Some 11; Some 1; Some 31]) /\
  (exists m' e, extrude_face 0 7 c0 ex_square 0 S = Ok (m', e) /\ num_faces m' = 5 /\ wf m').
Proof.
  split; [apply wfb_ok; vm_compute; reflexivity|].
  split; [split; [apply loopb_ok; vm_compute; reflexivity|intros x [<-|[<-|[<-|[<-|[]]]]]; reflexivity]|].
  split; [split; [reflexivity|split; [reflexivity|split; [apply loopb_ok; vm_compute; reflexivity|intros x [<-|[<-|[<-|[<-|[]]]]]; reflexivity]]]|].
  split; [repeat split; apply Nat.leb_le; vm_compute; reflexivity|].
  split; do 2 eexists; (split; [vm_compute; reflexivity|]); (split; [vm_compute; reflexivity|]).
  - split; [apply wfb_ok; vm_compute; reflexivity|vm_compute; reflexivity].
  - apply wfb_ok; vm_compute; reflexivity.
Qed.

(** C19. A ring of triangles in the direction of the boundary loop; no edge of the loop is a self-loop. *)
Theorem C19_loft_tri :
  forall (VP EP FP : Type) (dE : EP) (dF : FP) (c : cfg) (m : mesh VP EP FP) start t y ys a b d, wf m ->
    let n := length (start :: t) in
    hole (abs m) (start :: t) -> (forall e, In e (start :: t) -> og (abs m) e <> target (abs m) e) ->
    3 <= n -> length (y :: ys) = n -> fits c m (6 * n + a) (n + b) (2 * n + d) ->
    exists m' ps ds ts vs fs hs, loft_tri_closed dE dF c m start (y :: ys) = Ok (m', hd 0 ts) /\
      wf m' /\ fits c m' a b d /\ length ts = n /\
      tband_built (abs m) (abs m') false (start :: t) (y :: ys) dF ps ds ts vs fs hs.
Proof. exact @loft_tri_total. Qed.
Print Assumptions C19_loft_tri.

(** Against the direction of the loop. The returned half-edge lies inside the ring. *)
Theorem C19_loft_tri_back :
  forall (VP EP FP : Type) (dE : EP) (dF : FP) (c : cfg) (m : mesh VP EP FP) start t y ys a b d, wf m ->
    let n := length (start :: t) in
    hole (abs m) (start :: t) -> (forall e, In e (start :: t) -> og (abs m) e <> target (abs m) e) ->
    3 <= n -> length (y :: ys) = n -> fits c m (6 * n + a) (n + b) (2 * n + d) ->
    exists m' ps ds ts vs fs hs, loft_tri_back_closed dE dF c m start (y :: ys) = Ok (m', tw (abs m') (hd 0 ps)) /\
      wf m' /\ fits c m' a b d /\ length ts = n /\
      tband_built (abs m) (abs m') true (t ++ [start]) (y :: rev ys) dF ps ds ts vs fs hs.
Proof. exact @loft_tri_back_total. Qed.
Print Assumptions C19_loft_tri_back.

(** [extrude_tri] closes the loop by a ring of triangles and a cap. The vertex above the origin of a half-edge is its moved
    target. *)
Theorem C19_extrude_tri :
  forall (VP EP FP : Type) (dE : EP) (dF : FP) (c : cfg) (m : mesh VP EP FP) start t (tr : VP -> VP) a b d, wf m ->
    let n := length (start :: t) in
    hole (abs m) (start :: t) -> (forall e, In e (start :: t) -> og (abs m) e <> target (abs m) e) ->
    3 <= n -> fits c m (6 * n + a) (n + b) (2 * n + S d) ->
    exists m' xs ps ds ts vs fs hs cap, extrude_tri dE dF c m start tr = Ok (m', hd 0 ts) /\ wf m' /\ fits c m' a b d /\
      length ts = n /\ extruded_tri (abs m) (abs m') (start :: t) xs dF ps ds ts vs fs hs cap /\
      map Some xs = map (fun e => option_map tr (vp (abs m) (target (abs m) e))) (start :: t).
Proof. exact @extrude_tri_total. Qed.
Print Assumptions C19_extrude_tri.

Example C19_example : wf ex_square /\ hole (abs ex_square) [2; 4; 7; 0] /\
  (forall e, In e [2; 4; 7; 0] -> og (abs ex_square) e <> target (abs ex_square) e) /\
  fits c0 ex_square (6 * 4 + 0) (4 + 0) (2 * 4 + 1) /\
  (exists m' e, loft_tri_closed 0 7 c0 ex_square 2 [5; 6; 7; 8] = Ok (m', e) /\ num_faces m' = 9 /\ wf m' /\ fc (abs m') e = None) /\
  (exists m' e, loft_tri_back_closed 0 7 c0 ex_square 2 [5; 6; 7; 8] = Ok (m', e) /\ num_faces m' = 9 /\ wf m' /\ fc (abs m') e <> None) /\
  (exists m' e, extrude_tri 0 7 c0 ex_square 2 S = Ok (m', e) /\ num_faces m' = 10 /\ wf m').
Proof.
  split; [apply wfb_ok; vm_compute; reflexivity|].
  split; [split; [apply loopb_ok; vm_compute; reflexivity|intros x [<-|[<-|[<-|[<-|[]]]]]; reflexivity]|].
  split; [intros x [<-|[<-|[<-|[<-|[]]]]]; vm_compute; discriminate|].
  split; [repeat split; apply Nat.leb_le; vm_compute; reflexivity|].
  split; [|split]; do 2 eexists; (split; [vm_compute; reflexivity|]); (split; [vm_compute; reflexivity|]).
  - split; [apply wfb_ok; vm_compute; reflexivity|vm_compute; reflexivity].
  - split; [apply wfb_ok; vm_compute; reflexivity|vm_compute; discriminate].
  - apply wfb_ok; vm_compute; reflexivity.
Qed.

(** C20. The solids as indexed face sets, for every number of corners, with their numbers. *)
Theorem C20_pyramid :
  forall (VP EP FP : Type) (dE : EP) (dF : FP) (c : cfg) (ys : list VP) x, let n := length ys in 3 <= n ->
    4 * n <= capE c -> S n <= capV c -> S n <= capF c ->
    exists m : mesh VP EP FP, pyramid dE dF c ys x = Ok m /\ wf m /\ solid (abs m) dF (ys ++ [x]) (pyramid_polys n) (2 * n).
Proof. exact @pyramid_solid. Qed.
Print Assumptions C20_pyramid.

Theorem C20_pyramid_numbers :
  forall (VP EP FP : Type) (dF : FP) (m : mesh VP EP FP) (ys : list VP) x, wf m ->
    solid (abs m) dF (ys ++ [x]) (pyramid_polys (length ys)) (2 * length ys) ->
    num_vertices m = S (length ys) /\ num_edges m = 2 * (2 * length ys) /\ num_faces m = S (length ys).
Proof. exact @pyramid_counts. Qed.
Print Assumptions C20_pyramid_numbers.

Theorem C20_frustum :
  forall (VP EP FP : Type) (dE : EP) (dF : FP) (c : cfg) (ys xs : list VP), let n := length ys in 3 <= n -> length xs = n ->
    6 * n <= capE c -> 2 * n <= capV c -> 2 + n <= capF c ->
    exists m : mesh VP EP FP, frustum dE dF c ys xs false = Ok m /\ wf m /\ solid (abs m) dF (ys ++ xs) (frustum_polys n) (3 * n).
Proof. exact @frustum_solid. Qed.
Print Assumptions C20_frustum.

Theorem C20_frustum_numbers :
  forall (VP EP FP : Type) (dF : FP) (m : mesh VP EP FP) (ys xs : list VP), wf m -> length xs = length ys ->
    solid (abs m) dF (ys ++ xs) (frustum_polys (length ys)) (3 * length ys) ->
    num_vertices m = 2 * length ys /\ num_edges m = 2 * (3 * length ys) /\ num_faces m = 2 + length ys.
Proof. exact @frustum_counts. Qed.
Print Assumptions C20_frustum_numbers.

Theorem C20_prism :
  forall (VP EP FP : Type) (dE : EP) (dF : FP) (c : cfg) (ys : list VP) (shift : mesh VP EP FP -> nat -> res (VP -> VP)),
    let n := length ys in 3 <= n -> (forall m f, exists tr, shift m f = Ok tr) ->
    6 * n <= capE c -> 2 * n <= capV c -> 2 + n <= capF c ->
    exists m m0 e f tr, prism dE dF c ys shift = Ok m /\ wf m /\
      insert_polygon dE dF c empty_mesh ys = Ok (m0, e) /\ lvf (abs m0) f = true /\ shift m0 f = Ok tr /\
      solid (abs m) dF (ys ++ map tr ys) (frustum_polys n) (3 * n).
Proof. exact @prism_solid. Qed.
Print Assumptions C20_prism.

Theorem C20_cuboid :
  forall (VP EP FP : Type) (dE : EP) (dF : FP) (c : cfg) (a0 a1 a2 a3 b0 b1 b2 b3 : VP),
    24 <= capE c -> 8 <= capV c -> 6 <= capF c ->
    exists m : mesh VP EP FP, cuboid dE dF c a0 a1 a2 a3 b0 b1 b2 b3 = Ok m /\ wf m /\
      solid (abs m) dF [a0; a1; a2; a3; b0; b1; b2; b3]
        [[0; 3; 2; 1]; [0; 1; 5; 4]; [1; 2; 6; 5]; [2; 3; 7; 6]; [3; 0; 4; 7]; [4; 5; 6; 7]] 12.
Proof. exact @cuboid_solid. Qed.
Print Assumptions C20_cuboid.

Theorem C20_antiprism :
  forall (VP EP FP : Type) (dE : EP) (dF : FP) (c : cfg) (ys xs : list VP), let n := length ys in 3 <= n -> length xs = n ->
    8 * n <= capE c -> 2 * n <= capV c -> 2 + 2 * n <= capF c ->
    exists m : mesh VP EP FP, antiprism_iter dE dF c ys xs = Ok m /\ wf m /\ solid (abs m) dF (ys ++ xs) (antiprism_polys n) (4 * n).
Proof. exact @antiprism_solid. Qed.
Print Assumptions C20_antiprism.

Theorem C20_antiprism_numbers :
  forall (VP EP FP : Type) (dF : FP) (m : mesh VP EP FP) (ys xs : list VP), wf m -> length xs = length ys ->
    solid (abs m) dF (ys ++ xs) (antiprism_polys (length ys)) (4 * length ys) ->
    num_vertices m = 2 * length ys /\ num_edges m = 2 * (4 * length ys) /\ num_faces m = 2 + 2 * length ys.
Proof. exact @antiprism_counts. Qed.
Print Assumptions C20_antiprism_numbers.

Theorem C20_bipyramid :
  forall (VP EP FP : Type) (dE : EP) (dF : FP) (c : cfg) (ys : list VP) top bottom, let n := length ys in 3 <= n ->
    6 * n <= capE c -> 2 + n <= capV c -> 2 * n <= capF c -> S n <= capF c ->
    exists m : mesh VP EP FP, bipyramid dE dF c ys top bottom = Ok m /\ wf m /\
      solid (abs m) dF (ys ++ [top; bottom]) (bipyramid_polys n) (3 * n).
Proof. exact @bipyramid_solid. Qed.
Print Assumptions C20_bipyramid.

Theorem C20_bipyramid_numbers :
  forall (VP EP FP : Type) (dF : FP) (m : mesh VP EP FP) (ys : list VP) x x', wf m ->
    solid (abs m) dF (ys ++ [x; x']) (bipyramid_polys (length ys)) (3 * length ys) ->
    num_vertices m = 2 + length ys /\ num_edges m = 2 * (3 * length ys) /\ num_faces m = 2 * length ys.
Proof. exact @bipyramid_counts. Qed.
Print Assumptions C20_bipyramid_numbers.

(** The code has five corners in each ring. *)
Theorem C20_icosahedron :
  forall (VP EP FP : Type) (dE : EP) (dF : FP) (c : cfg) (xs ys : list VP) top bottom, let n := length xs in 3 <= n -> length ys = n ->
    12 * n <= capE c -> 2 + 2 * n <= capV c -> 4 * n <= capF c ->
    exists m : mesh VP EP FP, icosahedron dE dF c xs ys top bottom = Ok m /\ wf m /\
      solid (abs m) dF (xs ++ [top] ++ ys ++ [bottom]) (icosa_polys n) (6 * n).
Proof. exact @icosa_solid. Qed.
Print Assumptions C20_icosahedron.

Theorem C20_icosahedron_numbers :
  forall (VP EP FP : Type) (dF : FP) (m : mesh VP EP FP) (xs ys : list VP) t b, wf m -> length ys = length xs ->
    solid (abs m) dF (xs ++ [t] ++ ys ++ [b]) (icosa_polys (length xs)) (6 * length xs) ->
    num_vertices m = 2 + 2 * length xs /\ num_edges m = 2 * (6 * length xs) /\ num_faces m = 4 * length xs.
Proof. exact @icosa_counts. Qed.
Print Assumptions C20_icosahedron_numbers.

Theorem C20_uv_sphere :
  forall (VP EP FP : Type) (dE : EP) (dF : FP) (c : cfg) (vp0 : nat -> nat -> VP) n k, 2 <= n -> 3 <= k ->
    2 * ((2 * n - 1) * k) <= capE c -> 2 + (n - 1) * k <= capV c -> n * k <= capF c ->
    exists m : mesh VP EP FP, uv_sphere dE dF c vp0 n k = Ok m /\ wf m /\
      solid (abs m) dF (sphere_points vp0 n k) (sphere_polys n k) ((2 * n - 1) * k).
Proof. exact @sphere_solid. Qed.
Print Assumptions C20_uv_sphere.

Theorem C20_uv_sphere_numbers :
  forall (VP EP FP : Type) (dF : FP) (m : mesh VP EP FP) (vp0 : nat -> nat -> VP) n k, wf m -> 2 <= n ->
    solid (abs m) dF (sphere_points vp0 n k) (sphere_polys n k) ((2 * n - 1) * k) ->
    num_vertices m = 2 + (n - 1) * k /\ num_edges m = 2 * ((2 * n - 1) * k) /\ num_faces m = n * k.
Proof. exact @sphere_counts. Qed.
Print Assumptions C20_uv_sphere_numbers.

Example C20_example :
  pyramid_polys 4 = [[0; 3; 2; 1]; [0; 1; 4]; [1; 2; 4]; [2; 3; 4]; [3; 0; 4]] /\
  antiprism_polys 3 = [[0; 2; 1]; [0; 1; 3]; [1; 2; 4]; [2; 0; 5]; [1; 4; 3]; [2; 5; 4]; [0; 3; 5]; [3; 4; 5]] /\
  sphere_polys 3 3 = [[1; 2; 0]; [2; 3; 0]; [3; 1; 0]; [1; 3; 6; 4]; [3; 2; 5; 6]; [2; 1; 4; 5]; [4; 6; 7]; [6; 5; 7]; [5; 4; 7]] /\
  24 <= capE c0 /\ 8 <= capV c0 /\ 12 <= capF c0 /\
  (exists m : mesh nat nat nat, uv_sphere 0 7 c0 (fun i j => 10 * i + j) 3 3 = Ok m /\ wf m /\ num_faces m = 9) /\
  (exists m : mesh nat nat nat, icosahedron 0 7 c0 [1; 2; 3; 4; 5] [11; 12; 13; 14; 15] 20 21 = Ok m /\ wf m /\ num_faces m = 20) /\
  (exists m : mesh nat nat nat, prism 0 7 c0 [1; 2; 3] (fun _ _ => Ok (Nat.add 10)) = Ok m /\ wf m /\ num_faces m = 5).
Proof.
  do 3 (split; [reflexivity|]). do 3 (split; [apply Nat.leb_le; vm_compute; reflexivity|]).
  split; [|split]; eexists; (split; [vm_compute; reflexivity|]); (split; [apply wfb_ok; vm_compute; reflexivity|vm_compute; reflexivity]).
Qed.

(** C54. [cylinder] and [insert_antiprism] panic for every size; the smooth frustum too. *)
Theorem C54_cylinder_refuted :
  forall (VP EP FP : Type) (dE : EP) (dF : FP) (c : cfg) (f1 f2 : nat -> VP) n, 3 <= n ->
    6 * n <= capE c -> 2 * n <= capV c -> 2 + n <= capF c ->
    @cylinder VP EP FP dE dF c f1 f2 n = Panic.
Proof. exact @cylinder_panics. Qed.
Print Assumptions C54_cylinder_refuted.

Theorem C54_smooth_frustum_refuted :
  forall (VP EP FP : Type) (dE : EP) (dF : FP) (c : cfg) (ys xs : list VP), let n := length ys in 3 <= n -> length xs = n ->
    6 * n <= capE c -> 2 * n <= capV c -> 2 + n <= capF c -> @frustum VP EP FP dE dF c ys xs true = Panic.
Proof. exact @frustum_smooth_panics. Qed.
Print Assumptions C54_smooth_frustum_refuted.

Theorem C54_insert_antiprism_refuted :
  forall (VP EP FP : Type) (dE : EP) (dF : FP) (c : cfg) (m : mesh VP EP FP) (y0 y1 y2 : VP) rest mid shift a b d, wf m ->
    let ys := y0 :: y1 :: y2 :: rest in let n := length ys in
    fits c m (2 * n + a) (n + b) (S d) -> insert_antiprism dE dF c m ys mid shift = Panic.
Proof. exact @antiprism_panics. Qed.
Print Assumptions C54_insert_antiprism_refuted.

Example C54_example : 6 * 8 <= capE c0 /\ 2 * 8 <= capV c0 /\ 2 + 8 <= capF c0 /\ wf ex_square /\ fits c0 ex_square (2 * 3 + 0) (3 + 0) 1 /\
  @cylinder nat nat nat 0 7 c0 (fun i => i) (fun i => 100 + i) 8 = Panic /\
  insert_antiprism 0 7 c0 ex_square [1; 2; 3] Nat.add (fun _ _ => Ok S) = Panic.
Proof.
  do 3 (split; [apply Nat.leb_le; vm_compute; reflexivity|]). split; [apply wfb_ok; vm_compute; reflexivity|].
  split; [repeat split; apply Nat.leb_le; vm_compute; reflexivity|]. split; vm_compute; reflexivity.
Qed.
