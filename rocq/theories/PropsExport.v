(** Properties C39, C40: the exported vertex buffers. *)
From Coq Require Import List Arith Bool.
From Verif Require Import Base DVec DVecFacts Mesh Tess Buffer ExportSpec ExportProofs.
Import ListNotations.

(** C39. Without deleted vertices the exported buffer holds the payload of vertex v at position v,
    every position belongs to a vertex, and the indices stay as they are. *)
Theorem C39_dense_vertices :
  forall (VP EP FP : Type) (blank : VP) (m : mesh VP EP FP) ix,
    dv_ok (verts m) [] -> d_len (verts m) = d_cap (verts m) ->
    exists out, dense_vertices blank m ix = Ok (out, ix) /\ length out = d_cap (verts m) /\
      (forall v, v < length out -> d_has (verts m) v = true) /\
      forall v x, d_get (verts m) v = Ok x -> nth_error out v = Some (v_pay x).
Proof. exact @dense_ok. Qed.
Print Assumptions C39_dense_vertices.

Example C39_example :
  let m := mkM (@d_new (edge nat)) (mkD [Some (0, mkV None 7); Some (1, mkV None 8)] []) (@d_new (face nat)) in
  dense_vertices 0 m [1; 0; 1] = Ok ([7; 8], [1; 0; 1]).
Proof. reflexivity. Qed.

(** With a deleted vertex the vertices are compacted, but the indices are not renamed: the freshly
    created [Triangulation] starts at the end of the buffer. *)
Theorem C39_sparse_vertices :
  forall (VP EP FP : Type) (blank : VP) (m : mesh VP EP FP) ix, d_len (verts m) <> d_cap (verts m) ->
    dense_vertices blank m ix = Ok (map (fun v => v_pay (snd v)) (d_iter (verts m)), ix).
Proof. exact @sparse_ok. Qed.
Print Assumptions C39_sparse_vertices.

Theorem C39_sparse_remap_refuted :
  exists (m : mesh nat nat nat) out, dv_ok (verts m) [] /\
    dense_vertices 0 m [1; 2] = Ok (out, [1; 2]) /\
    (exists x, d_get (verts m) 1 = Ok x /\ nth_error out 1 <> Some (v_pay x)) /\ length out <= 2.
Proof. exact sparse_wrong. Qed.
Print Assumptions C39_sparse_remap_refuted.

(** C40. If the triangulation of each face only names vertices of that face, the export succeeds; the
    vertices are one block per face, and the indices of face k point into block k at the vertex they named. *)
Theorem C40_flat_normals :
  forall (VP : Type) tf set_normal (fs : list (list (nat * VP))),
    (forall f, In f fs -> exists app, tf f = Ok app /\ incl app (map fst f)) ->
    exists ix, flat_normals tf set_normal fs = Ok (ix, flat_verts set_normal fs) /\ flat_indices tf fs 0 ix.
Proof. exact flat_ok. Qed.
Print Assumptions C40_flat_normals.

Theorem C40_flat_in_range :
  forall (VP : Type) tf set_normal (fs : list (list (nat * VP))) ix, flat_indices tf fs 0 ix ->
    forall y, In y ix -> exists f x p, In f fs /\ In (x, p) f /\ nth_error (flat_verts set_normal fs) y = Some (set_normal f p).
Proof. exact flat_range. Qed.
Print Assumptions C40_flat_in_range.

Example C40_example :
  flat_normals (fun f => match map fst f with [a; b; c] => Ok [a; b; c] | [a; b; c; d] => Ok [a; b; c; a; c; d] | _ => Panic end)
    (fun f p => 100 * length f + p) [[(4, 1); (2, 2); (9, 3)]; [(9, 3); (2, 2); (0, 5); (7, 6)]] =
  Ok ([0; 1; 2; 3; 4; 5; 3; 5; 6], [301; 302; 303; 403; 402; 405; 406]).
Proof. reflexivity. Qed.
