(** Model of the search for a common face of two vertices (src/halfedge/mesh/basics.rs). *)
From Coq Require Import List Arith Bool.
From Verif Require Import Base DVec Mesh MeshMore.
Import ListNotations.
Set Implicit Arguments.
Unset Strict Implicit.

Section SharedFace.
  Context {VP EP FP : Type}.
  Implicit Types (m : mesh VP EP FP) (c : cfg).
  (** basics.rs:184-190: the inner search, over the faces of [v1] (src/halfedge/vertex/basics.rs:76-81; iterators are lazy) *)
  Definition has_face_at c m (v1 f0 : nat) : res bool :=
    let* r := edges_out_find c m v1 (fun e => let* f := g_face m e in Ok (match f with Some f1 => f0 =? f1 | None => false end)) in
    Ok (negb (is_none r)).
  (** basics.rs:180-192 [shared_face] *)
  Definition shared_face c m (v0 v1 : nat) : res (option nat) :=
    let* _ := m_vertex m v0 in
    let* _ := m_vertex m v1 in
    let* r := edges_out_find c m v0 (fun e => let* f := g_face m e in match f with Some f0 => has_face_at c m v1 f0 | None => Ok false end) in
    match r with None => Ok None | Some e => g_face m e end.
End SharedFace.
