(** Replacing curved edges by line segments: src/mesh/mesh/basics.rs, over an arbitrary ring. *)
From Coq Require Import List Arith Bool.
From Verif Require Import Base DVec Mesh MeshMore Alg Transform.
Import ListNotations.
Set Implicit Arguments.
Unset Strict Implicit.

Section Flatten.
  Variables (R : Type) (zero : R).
  Context {FP : Type}.
  Notation vec := (vec R).
  Notation curve := (curve R).
  Notation mesh := (mesh (pnu R) curve FP).
  (** [flat cv start stop] is src/mesh/edge/curved.rs:86-123 [flatten_casteljau] with the given tolerance
      (Alg.v) of the curve [cv] between the positions of the ends of the edge *)
  Variable flat : curve -> vec -> vec -> res (list vec).

  (** [curve_type() != Linear] *)
  Definition is_linear (cv : curve) : bool := match cv with Linear _ => true | _ => false end.

  (** basics.rs:174-189: the body of the loop in [flatten_curved_edges]. [EP::default()] is the linear
      edge (src/mesh/edge/payload.rs); the positions are looked up in the mesh as it is now *)
  Definition flatten_edge (c : cfg) (m : mesh) (e : nat) : res mesh :=
    let* x := m_edge m e in
    if is_linear (e_pay x) then Ok m else
    let* (s, d) := edge_ends m e in
    let* vs := flat (e_pay x) s d in
    match vs with
    | [] => Ok m
    | _ =>
      let* (m, _) := insert_vertices_into_edge c m e (map (fun v => (Linear R, Linear R, u_from_pos zero v)) vs) in
      upd_edge m e (fun x => mkE (e_next x) (e_twin x) (e_prev x) (e_origin x) (e_face x) (Linear R))
    end.
  (** basics.rs:163-192 [flatten_curved_edges] *)
  Definition flatten_curved_edges (c : cfg) (m : mesh) : res mesh :=
    foldM (fun m e => flatten_edge c m e) (edge_ids m) m.
  (** basics.rs:195-203 [has_curved_edges] *)
  Definition has_curved_edges (m : mesh) : bool :=
    existsb (fun p => negb (is_linear (e_pay (snd p)))) (d_iter (edges m)).
End Flatten.
