(** Transforming a mesh: src/mesh/mesh/transform.rs, with the vertex payload of
    src/extensions/nalgebra/default_vertex_payload.rs and the curved edges of src/mesh/edge/payload.rs,
    over an arbitrary ring. *)
From Coq Require Import List Arith Bool.
From Verif Require Import Base DVec Mesh MeshMore Alg.
Import ListNotations.
Set Implicit Arguments.
Unset Strict Implicit.

(** src/util/deletable.rs:48-50 [iter_mut], with [f] applied to every element *)
Definition d_map {A : Type} (f : A -> A) (d : dvec A) : dvec A :=
  mkD (map (option_map (fun p => (fst p, f (snd p)))) (slots d)) (free d).

(** src/mesh/mesh/transform.rs:17-29 [transform], 39-51 [translate], 61-73 [rotate], 83-95 [scale]: the
    given functions are the methods called on the payloads. The mesh payload is not modelled. *)
Definition m_transform {VP EP FP : Type} (fv : VP -> VP) (fh : EP -> EP) (ff : FP -> FP) (m : mesh VP EP FP) : mesh VP EP FP :=
  mkM (d_map (fun x => mkE (e_next x) (e_twin x) (e_prev x) (e_origin x) (e_face x) (fh (e_pay x))) (edges m))
      (d_map (fun x => mkV (v_edge x) (fv (v_pay x))) (verts m))
      (d_map (fun x => mkF (f_edge x) (f_curved x) (ff (f_pay x))) (faces m)).

Section Payloads.
  Variables (R : Type) (zero one : R) (add mul sub : R -> R -> R) (D : nat).
  Notation vec := (vec R).
  Notation apply := (a_apply zero add mul D).
  Notation apply_vec := (a_apply_vec zero add mul D).

  (** src/extensions/nalgebra/default_vertex_payload.rs:9-18 [VertexPayloadPNU] *)
  Record pnu := mkP { u_pos : vec; u_nor : vec; u_uv : vec }.
  (** default_vertex_payload.rs:63-71 [from_pos] *)
  Definition u_from_pos (v : vec) : pnu := mkP v (fun _ => zero) (fun _ => zero).
  (** default_vertex_payload.rs:44-49 [transform] *)
  Definition u_transform (t : affine R) (p : pnu) : pnu := mkP (apply t (u_pos p)) (apply_vec t (u_nor p)) (u_uv p).
  (** default_vertex_payload.rs:37-41 [translate] *)
  Definition u_translate (v : vec) (p : pnu) : pnu := mkP (fun i => add (u_pos p i) (v i)) (u_nor p) (u_uv p).
  (** src/math/transformable.rs:59-61, 64-66: the defaults for [scale] and [rotate];
      src/extensions/nalgebra/math/transform_n.rs:70-75: a rotation is given by its matrix *)
  Definition u_scale (v : vec) (p : pnu) : pnu := u_transform (a_from_scale zero v) p.
  Definition a_from_rotation (r : matrix R) : affine R := mkA r (fun _ => zero).
  Definition u_rotate (r : matrix R) (p : pnu) : pnu := u_transform (a_from_rotation r) p.

  (** src/mesh/edge/payload.rs:97-109 [transform] of [CurvedEdgePayload]; vec_n.rs:148-151 *)
  Definition k_transform (t : affine R) (cv : curve R) : curve R :=
    match cv with
    | Linear _ => Linear R
    | Quadratic c => Quadratic (apply t c)
    | Cubic c1 c2 => Cubic (apply t c1) (apply t c2)
    end.
  (** src/math/transformable.rs:54-56: the default for [translate]; [scale] and [rotate] as above *)
  Definition k_translate (v : vec) (cv : curve R) : curve R := k_transform (a_from_translation zero one v) cv.
  Definition k_scale (v : vec) (cv : curve R) : curve R := k_transform (a_from_scale zero v) cv.
  Definition k_rotate (r : matrix R) (cv : curve R) : curve R := k_transform (a_from_rotation r) cv.

  Context {FP : Type}.
  Implicit Types (m : mesh pnu (curve R) FP).
  (** src/mesh/edge/curved.rs:21-45: [point_at] of the curve of an edge; the positions of its ends are
      looked up in the mesh *)
  Definition edge_ends m (e : nat) : res (vec * vec) :=
    let* o := origin_id m e in let* x := m_vertex m o in
    let* d := target_id m e in let* y := m_vertex m d in
    Ok (u_pos (v_pay x), u_pos (v_pay y)).
  Definition edge_point m (e : nat) (t : R) : res vec :=
    let* x := m_edge m e in
    let* (s, d) := edge_ends m e in
    Ok (point_at one add mul sub (e_pay x) s d t).
  (** the normal of a face: src/mesh/face/face3d.rs:85-106 in a release build *)
  Definition face_points m (f : nat) : res (list vec) :=
    let* vs := face_vertices m f in
    mapM (fun v => let* x := m_vertex m v in Ok (u_pos (v_pay x))) vs.
  Definition face_normal (mhalf : R) m (f : nat) : res vec :=
    let* l := face_points m f in Ok (newell zero add mul sub mhalf l).

  (** the four operations on a whole mesh; face payloads are empty *)
  Definition t_transform (t : affine R) m := m_transform (u_transform t) (k_transform t) id m.
  Definition t_translate (v : vec) m := m_transform (u_translate v) (k_translate v) id m.
  Definition t_scale (v : vec) m := m_transform (u_scale v) (k_scale v) id m.
  Definition t_rotate (r : matrix R) m := m_transform (u_rotate r) (k_rotate r) id m.
End Payloads.
