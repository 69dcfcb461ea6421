(** Turning a flat mesh with curved edges into a mesh in more dimensions:
    src/extensions/nalgebra/mesh2d.rs, src/extensions/bevy/mesh2d.rs. *)
From Coq Require Import List Arith Bool.
From Verif Require Import Base DVec Mesh MeshMore Alg Transform Flatten Import.
Import ListNotations.
Set Implicit Arguments.
Unset Strict Implicit.

Section ToNd.
  Variables (R : Type) (zero : R).
  Context {FP : Type}.
  Notation vec := (vec R).
  (** [flatten_casteljau] with the given tolerance, see Flatten.v *)
  Variable flat : curve R -> vec -> vec -> res (list vec).

  (** src/extensions/nalgebra/math/vec_n.rs:113-120 [from_xy] of [VecN]; the bevy code writes
      [Vec3::new(x, y, 0.0)]. At least two dimensions *)
  Definition from_xy (x y : R) : vec := fun i => match i with O => x | S O => y | _ => zero end.
  (** mesh2d.rs:70, bevy mesh2d.rs:68-70: the closure for the vertices *)
  Definition nd_vertex (p : pnu R) : pnu R := u_from_pos zero (from_xy (u_pos p 0) (u_pos p 1)).
  (** nalgebra mesh2d.rs:67-79 [to_nd], bevy mesh2d.rs:65-80 [to_3d]: the payloads of half-edges and
      faces of the result are empty. The indices of both meshes have the same type *)
  Definition to_nd (c : cfg) (m : mesh (pnu R) (curve R) FP) : res (mesh (pnu R) unit unit) :=
    let* m := flatten_curved_edges zero flat c m in
    import_mesh nd_vertex (fun _ => tt) (fun _ => tt) c m.
End ToNd.
