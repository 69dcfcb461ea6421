(** Properties C14 and C15: dividing an edge and copying a mesh. *)
From Coq Require Import List Arith Bool.
From Verif Require Import Base DVec Mesh Spec MeshSpec MeshMore MeshEx BuildSpec RefineSpec Rep MeshProofs DivideProofs Import ImportProofs RefineEx.
Import ListNotations.

(** C14. If exactly one other half-edge leaves the origin of [e], [insert_vertices_into_edge] divides the
    edge of [e]: it becomes a chain of [length ps + 1] edges through new vertices, both loops and their
    faces are kept, and nothing else changes. *)
Theorem C14_insert_vertices_into_edge :
  forall (VP EP FP : Type) (c : cfg) (m : mesh VP EP FP) e ps a b d,
    wf m -> lv (abs m) e = true -> two_edges (abs m) e -> fits c m (2 * length ps + a) (length ps + b) d ->
    exists m' es vs, insert_vertices_into_edge c m e ps = Ok (m', e) /\ wf m' /\ fits c m' a b d /\
      edge_divided (abs m) (abs m') e es vs ps.
Proof. exact @insert_vertices_divides. Qed.
Print Assumptions C14_insert_vertices_into_edge.

(** For every other origin, inserting at least one vertex leaves an inconsistent mesh, without a panic. *)
Theorem C14_other_origin_refuted :
  forall (VP EP FP : Type) (c : cfg) (m : mesh VP EP FP) e p ps a b d,
    wf m -> lv (abs m) e = true -> ~ two_edges (abs m) e ->
    fits c m (2 * length (p :: ps) + a) (length (p :: ps) + b) d ->
    exists m', insert_vertices_into_edge c m e (p :: ps) = Ok (m', e) /\ ~ wf m'.
Proof. exact @insert_vertices_breaks. Qed.
Print Assumptions C14_other_origin_refuted.

(** The second half-edge of the square, and the same edge from the other side. *)
Example C14_example : wf ex_square /\ lv (abs ex_square) 2 = true /\ two_edges (abs ex_square) 2 /\
  fits c0 ex_square (2 * 3 + 0) (3 + 0) 0 /\
  exists m', insert_vertices_into_edge c0 ex_square 2 [(1, 2, 3); (4, 5, 6); (7, 8, 9)] = Ok (m', 2) /\ wf m'.
Proof.
  split; [apply wfb_ok; vm_compute; reflexivity|]. split; [reflexivity|].
  split.
  { destruct (wf_abs (m := ex_square)) as [R W]; [apply wfb_ok; vm_compute; reflexivity|].
    apply (two_edges_links R W); [reflexivity|]. split; [reflexivity|vm_compute; congruence]. }
  split; [repeat split; apply Nat.leb_le; vm_compute; reflexivity|].
  eexists. split; [vm_compute; reflexivity|apply wfb_ok; vm_compute; reflexivity].
Qed.

(** The end of a path: one half-edge only. *)
Example C14_refuted_example : wf ex_path /\ lv (abs ex_path) 0 = true /\ ~ two_edges (abs ex_path) 0 /\
  fits c0 ex_path (2 * 1 + 0) (1 + 0) 0.
Proof.
  split; [apply wfb_ok; vm_compute; reflexivity|]. split; [reflexivity|]. split.
  { destruct (wf_abs (m := ex_path)) as [R W]; [apply wfb_ok; vm_compute; reflexivity|].
    intros T. apply (two_edges_links R W) in T; [|reflexivity]. apply (proj2 T). reflexivity. }
  repeat split; apply Nat.leb_le; vm_compute; reflexivity.
Qed.

(** C15. If every vertex has an edge and no half-edge is its own successor, [import_mesh] succeeds and the
    result is a consistent copy with ids [0 .. n-1] in the old order. *)
Theorem C15_import_mesh :
  forall (VP EP FP VP' EP' FP' : Type) (fv : VP -> VP') (fh : EP -> EP') (ff : FP -> FP') (c : cfg) (m : mesh VP EP FP),
    wf m -> d_len (edges m) <= capE c -> d_len (verts m) <= capV c -> d_len (faces m) <= capF c ->
    (importable (abs m) -> exists m' rv re rf, import_mesh fv fh ff c m = Ok m' /\ wf m' /\
       copy_of fv fh ff (abs m) (abs m') rv re rf) /\
    (~ importable (abs m) -> import_mesh fv fh ff c m = Panic).
Proof. exact @import_both. Qed.
Print Assumptions C15_import_mesh.

Example C15_example : wf ex_sparse /\ importable (abs ex_sparse) /\
  d_len (edges ex_sparse) <= 8 /\ d_len (verts ex_sparse) <= 4 /\ d_len (faces ex_sparse) <= 1 /\
  lvf (abs ex_sparse) 0 = false /\ fp (abs ex_sparse) 1 = Some (true, 5) /\
  exists m', import_mesh S S S (mkCfg 8 4 1 true) ex_sparse = Ok m' /\ fp (abs m') 0 = Some (false, 6).
Proof.
  split; [apply wfb_ok; vm_compute; reflexivity|]. split; [apply importableb_ok; vm_compute; reflexivity|].
  do 3 (split; [apply Nat.leb_le; vm_compute; reflexivity|]). do 2 (split; [vm_compute; reflexivity|]).
  eexists. split; vm_compute; reflexivity.
Qed.

(** It panics on a consistent mesh with an isolated vertex. *)
Theorem C15_isolated_refuted :
  exists (m : mesh nat nat nat), wf m /\ d_len (edges m) <= 255 /\ d_len (verts m) <= 255 /\ d_len (faces m) <= 255 /\
    import_mesh S S S c0 m = Panic.
Proof. exact import_isolated. Qed.
Print Assumptions C15_isolated_refuted.

(** Curved faces lose their flag. *)
Theorem C15_curved_refuted :
  exists (m : mesh nat nat nat) m', wf m /\ import_mesh (fun x => x) (fun x => x) (fun x => x) c0 m = Ok m' /\
    fp (abs m) 0 = Some (true, 7) /\ fp (abs m') 0 = Some (false, 7).
Proof. exact import_curved. Qed.
Print Assumptions C15_curved_refuted.
