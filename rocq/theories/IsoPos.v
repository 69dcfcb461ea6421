(** Model of the comparisons of meshes by the positions of the vertices (src/mesh/mesh/basics.rs). [near a b] stands
    for [a.pos().is_about(&b.pos(), eps)] on the payloads of two vertices. *)
From Coq Require Import List Arith.
From Verif Require Import Base DVec Mesh MeshMore Topo.
Set Implicit Arguments.
Unset Strict Implicit.

(** [|a, b| a.pos().is_about(&b.pos(), eps)], called with live vertices only *)
Definition near_at {VP EP FP VP2 EP2 FP2} (near : VP -> VP2 -> bool) (m : mesh VP EP FP) (m2 : mesh VP2 EP2 FP2) (v w : nat) : bool :=
  match d_get (verts m) v, d_get (verts m2) w with
  | Ok a, Ok b => near (v_pay a) (v_pay b)
  | _, _ => false
  end.

(** basics.rs:318-331 [is_isomorphic_by_pos] *)
Definition is_isomorphic_by_pos {VP EP FP VP2 EP2 FP2} (near : VP -> VP2 -> bool) (c : cfg) (m : mesh VP EP FP)
  (m2 : mesh VP2 EP2 FP2) : res difference := is_isomorphic_by c (near_at near m m2) m m2.

(** basics.rs:401-415 [is_trivially_isomorphic_pos] *)
Definition is_trivially_isomorphic_pos {VP EP FP} (near : VP -> VP -> bool) (m m2 : mesh VP EP FP) : res difference :=
  is_trivially_isomorphic_ex (near_at near m m2) (fun _ _ => true) (fun _ _ => true) m m2.

(** basics.rs:448-462 [is_isomorphic_pos]: the same body *)
Definition is_isomorphic_pos {VP EP FP} (near : VP -> VP -> bool) (m m2 : mesh VP EP FP) : res difference :=
  is_trivially_isomorphic_ex (near_at near m m2) (fun _ _ => true) (fun _ _ => true) m m2.
