(** C75: the export to a Bevy mesh shows the triangulated faces. *)
From Coq Require Import List Arith ZArith NArith.
From Verif Require Import Base DVec Mesh MeshMore Spec MeshSpec MeshProofs MinWeightSpec MinWeightProofs TriSpec TopoSpec TriMeshSpec BufferSpec Tess TriMesh TriMeshEx Bevy BevySpec BevyProofs BevyEx.
Import ListNotations.
Set Implicit Arguments.
Unset Strict Implicit.

(** Without flat normals, for a mesh without deleted vertices: the attributes are exactly the positions and the normals,
    whatever the target contained before; the index buffer lists the corners of the triangulated faces, no number is
    changed by the conversion, and each number stands for the vertex with this id. *)
Theorem C75_export :
  forall (V3 V2 EP FP : Type) (m : mesh (payload V3 V2) EP FP), wf m ->
  forall (w : N) (tris : nat -> res (list tri3)) (normal : nat -> res V3) (r : nat -> bool), face_sound (abs m) r tris ->
  forall blank b, b_list b = true -> b_main b = true -> (w = 1 \/ w = 2 \/ w = 4)%N ->
    d_len (verts m) = d_cap (verts m) -> N.le (N.of_nat (d_cap (verts m))) (N.pow 2 (8 * w)) ->
    (forall f, lvf (abs m) f = true -> exists t, tris f = Ok t) ->
    exists T i ps ns, bevy_set_ex w tris normal blank false m b = Ok (mkBM true true (Some i) [(Position, ps); (Normal, ns)]) /\
      face_by_face (abs m) r (face_ids m) T /\ buffer_ok i /\ index_buffer i = map N.of_nat (flatten T) /\
      length ps = num_vertices m /\ length ns = num_vertices m /\
      (forall v p, vp (abs m) v = Some p -> entry (abs m) ps ns v (p_normal p) v) /\ Forall (fun v => exists p, vp (abs m) v = Some p) (flatten T).
Proof. exact @plain_export. Qed.
Print Assumptions C75_export.

(** With flat normals, deleted vertices or not: every corner of every triangle has its own position and the normal of its
    face. The export succeeds exactly if the number of corners of the faces can be counted with the index type; otherwise it panics. *)
Theorem C75_flat_export :
  forall (V3 V2 EP FP : Type) (m : mesh (payload V3 V2) EP FP), wf m ->
  forall (w : N) (tris : nat -> res (list tri3)) (normal : nat -> res V3) (r : nat -> bool), face_sound (abs m) r tris ->
  forall blank b k, b_list b = true -> b_main b = true -> (w = 1 \/ w = 2 \/ w = 4)%N ->
    (forall f, lvf (abs m) f = true -> (exists n, normal f = Ok n) /\ exists t, tris f = Ok t) ->
    corner_count (abs m) (face_ids m) k ->
    (N.le (N.of_nat k) (N.pow 2 (8 * w)) ->
      exists Ts i ps ns, bevy_set_ex w tris normal blank true m b = Ok (mkBM true true (Some i) [(Position, ps); (Normal, ns)]) /\
        face_by_face (abs m) r (face_ids m) (concat Ts) /\ Forall2 (fun f t => tris f = Ok t) (face_ids m) Ts /\ buffer_ok i /\ length ps = k /\ length ns = k /\
        Forall2 (fun c x => exists n, normal (fst c) = Ok n /\ entry (abs m) ps ns (snd c) n (N.to_nat x)) (corners_of (face_ids m) Ts) (index_buffer i)) /\
    (N.lt (N.pow 2 (8 * w)) (N.of_nat k) -> bevy_set_ex w tris normal blank true m b = Panic).
Proof. exact @flat_export. Qed.
Print Assumptions C75_flat_export.

(** The number of corners exists for every mesh; and the algorithms of C64 do what is asked of [tris]. *)
Theorem C75_counted :
  forall (V3 V2 EP FP : Type) (m : mesh (payload V3 V2) EP FP), wf m -> exists k, corner_count (abs m) (face_ids m) k.
Proof. exact @counted. Qed.
Print Assumptions C75_counted.

Theorem C75_algorithms :
  forall (P S W : Type) (pos2 : nat -> option (nat -> P)) (planar convex_face simple : nat -> bool) (ds : P -> P -> S) le cv inside3 collinear rnd
      (addW : W -> W -> W) ltW zeroW (distance : P -> P -> W) valid_diagonal sweep delaunay (V3 V2 EP FP : Type) (m : mesh (payload V3 V2) EP FP) dbg alg,
    wf m -> weights addW ltW zeroW -> (forall k, sound (sweep k)) -> (forall f, sound (delaunay f)) -> alg <> EarClipping ->
    face_sound (abs m) (fun _ => false)
      (face_triangles pos2 planar convex_face simple ds le cv inside3 collinear rnd addW ltW zeroW distance valid_diagonal sweep delaunay dbg alg m).
Proof. exact @faces_sound. Qed.
Print Assumptions C75_algorithms.

(** A five-sided pyramid exported with 8-bit indices. *)
Example C75_export_example :
  wf ex_bevy /\ face_sound (abs ex_bevy) (fun _ => false) ex_faces /\ d_len (verts ex_bevy) = d_cap (verts ex_bevy) /\
  (forall f, lvf (abs ex_bevy) f = true -> (exists n, ex_normal f = Ok n) /\ exists t, ex_faces f = Ok t) /\
  bevy_set_ex 1 ex_faces ex_normal (ex_pay 0) false ex_bevy (mkBM true true (Some (U32 [7%N])) [(Other 3, [5; 5]); (Normal, [6])]) =
    Ok (mkBM true true (Some (U16 (map N.of_nat [0; 4; 3; 0; 3; 2; 0; 2; 1; 5; 4; 0; 5; 3; 4; 5; 2; 3; 5; 1; 2; 1; 5; 0])))
      [(Position, [0; 10; 20; 30; 40; 50]); (Normal, [1; 11; 21; 31; 41; 51])]).
Proof.
  split; [exact ex_wf|]. split; [exact ex_sound|]. split; [vm_compute; reflexivity|]. split; [exact ex_all|]. vm_compute. reflexivity.
Qed.
Example C75_flat_example :
  corner_count (abs ex_bevy) (face_ids ex_bevy) 20 /\
  bevy_set_ex 4 ex_faces ex_normal (ex_pay 0) true ex_bevy (mkBM true true None []) =
    Ok (mkBM true true (Some (U32 (map N.of_nat [0; 1; 2; 0; 2; 3; 0; 3; 4; 5; 6; 7; 8; 9; 10; 11; 12; 13; 14; 15; 16; 17; 18; 19])))
      [(Position, [0; 40; 30; 20; 10; 50; 40; 0; 50; 30; 40; 50; 20; 30; 50; 10; 20; 10; 50; 0]); (Normal, repeat 100 5 ++ repeat 101 3 ++ repeat 102 3 ++ repeat 103 3 ++ repeat 104 3 ++ repeat 105 3)]).
Proof. split; [exact ex_corners|]. vm_compute. reflexivity. Qed.

(** 66 vertices, but 260 corners: too many for 8-bit indices. *)
Example C75_flat_panic_example :
  wf ex_big /\ num_vertices ex_big = 66 /\ face_sound (abs ex_big) (fun _ => false) ex_fans /\ corner_count (abs ex_big) (face_ids ex_big) 260 /\
  (forall f, lvf (abs ex_big) f = true -> (exists n, ex_normal f = Ok n) /\ exists t, ex_fans f = Ok t) /\
  bevy_set_ex 1 ex_fans ex_normal (ex_pay 0) true ex_big (mkBM true true None []) = Panic.
Proof.
  split; [exact big_wf|]. split; [vm_compute; reflexivity|]. split; [exact big_sound|]. split; [exact big_corners|]. split; [exact big_all|]. vm_compute. reflexivity.
Qed.

(** A mesh whose index type is as wide as usize is never exported, although the conversion is offered for every index type. *)
Theorem C75_wide_indices_refuted :
  forall (V3 V2 EP FP : Type) tris normal blank flat (m : mesh (payload V3 V2) EP FP) b b', bevy_set_ex 8 tris normal blank flat m b <> Ok b'.
Proof. exact @wide. Qed.
Print Assumptions C75_wide_indices_refuted.

(** A target that is not a triangle list, or not kept in the main world, is refused. *)
Theorem C75_other_targets :
  forall (V3 V2 EP FP : Type) w tris normal blank flat (m : mesh (payload V3 V2) EP FP) b,
    b_list b = false \/ b_main b = false -> bevy_set_ex w tris normal blank flat m b = Panic.
Proof. exact @refused. Qed.
Print Assumptions C75_other_targets.
