(** Model of the exchange of the y and z axes (src/halfedge/mesh/builder/vertex.rs) over an arbitrary ring. *)
From Coq Require Import List Arith.
From Verif Require Import Base DVec Mesh Alg Transform.
Set Implicit Arguments.
Unset Strict Implicit.

Section FlipYz.
  Context {R EP FP : Type}.
  (** src/math/vector3d.rs:82-84 [xzy] *)
  Definition xzy (v : vec R) : vec R := fun i => match i with 1 => v 2 | 2 => v 1 | _ => v i end.
  (** default_vertex_payload.rs [set_pos] *)
  Definition u_set_pos (v : vec R) (p : pnu R) : pnu R := mkP v (u_nor p) (u_uv p).
  (** builder/vertex.rs:11-17 [flip_yz] *)
  Definition flip_yz (m : mesh (pnu R) EP FP) : mesh (pnu R) EP FP :=
    mkM (edges m) (d_map (fun x => mkV (v_edge x) (u_set_pos (xzy (u_pos (v_pay x))) (v_pay x))) (verts m)) (faces m).
End FlipYz.
