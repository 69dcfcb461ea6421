(** The methods of the Bevy vertex payloads (src/extensions/bevy/vertex_payload_3d.rs, vertex_payload_2d.rs) over a
    commutative ring. *)
From Coq Require Import List Arith.
From Verif Require Import Base DVec Mesh Alg Transform BevyTrans.
Import ListNotations.
Set Implicit Arguments.
Unset Strict Implicit.

(** src/util/deletable.rs:48-50 [iter_mut] with a method that may panic *)
Definition d_mapM {A : Type} (f : A -> res A) (d : dvec A) : res (dvec A) :=
  let* l := mapM (fun s => match s with Some (i, x) => let* y := f x in Ok (Some (i, y)) | None => Ok None end) (slots d) in
  Ok (mkD l (free d)).

Section BevyPayload.
  Variables (R : Type) (zero one : R) (add mul sub : R -> R -> R).
  Infix "+" := add. Infix "*" := mul. Infix "-" := sub.
  Notation vec := (vec R).
  (** vertex_payload_3d.rs:39-43 [translate] *)
  Definition b3_translate (v : vec) (p : pnu R) : pnu R := mkP (fun i => u_pos p i + v i) (u_nor p) (u_uv p).
  (** vertex_payload_3d.rs:54-59 [rotate] *)
  Definition b3_rotate (q : quat R) (p : pnu R) : pnu R :=
    mkP (q_rot one add mul sub q (u_pos p)) (q_rot one add mul sub q (u_nor p)) (u_uv p).
  (** vertex_payload_3d.rs:62-65 [scale] *)
  Definition b3_scale (s : vec) (p : pnu R) : pnu R := mkP (fun i => u_pos p i * s i) (u_nor p) (u_uv p).
  (** glam [Vec3::lerp], [Vec2::lerp] *)
  Definition g_lerp (a b : vec) (t : R) : vec := fun i => a i * (one - t) + b i * t.
  (** vertex_payload_3d.rs:68-74 [lerp] *)
  Definition b3_lerp (p q : pnu R) (t : R) : pnu R :=
    mkP (g_lerp (u_pos p) (u_pos q) t) (g_lerp (u_nor p) (u_nor q) t) (g_lerp (u_uv p) (u_uv q) t).

  (** vertex_payload_2d.rs:9-16 [BevyVertexPayload2d] *)
  Record pu := mkPU { w_pos : vec; w_uv : vec }.
  (** vertex_payload_2d.rs:35-39 [translate] *)
  Definition b2_translate (v : vec) (p : pu) : pu := mkPU (fun i => w_pos p i + v i) (w_uv p).
  (** vertex_payload_2d.rs:42-46 [transform] *)
  Definition b2_payload (t : affine R) (p : pu) : pu := mkPU (b2_apply zero add mul t (w_pos p)) (w_uv p).
  (** vertex_payload_2d.rs:49-51 [rotate]: [todo!] *)
  Definition b2_rotate (r : R) (p : pu) : res pu := Panic.
  (** vertex_payload_2d.rs:54-57 [scale] *)
  Definition b2_scale (s : vec) (p : pu) : pu := mkPU (fun i => w_pos p i * s i) (w_uv p).
  (** vertex_payload_2d.rs:60-64 [lerp] *)
  Definition b2_lerp (p q : pu) (t : R) : pu := mkPU (g_lerp (w_pos p) (w_pos q) t) (g_lerp (w_uv p) (w_uv q) t).

  (** src/mesh/mesh/transform.rs:61-73 [rotate] of a mesh with these vertices, the vertices come first; [fh] and [ff]
      are the methods of the other payloads *)
  Definition b2_mesh_rotate {EP FP : Type} (fh : EP -> EP) (ff : FP -> FP) (r : R) (m : mesh pu EP FP) : res (mesh pu EP FP) :=
    let* vs := d_mapM (fun x => let* p := b2_rotate r (v_pay x) in Ok (mkV (v_edge x) p)) (verts m) in
    Ok (mkM (edges (m_transform id fh ff m)) vs (faces (m_transform id fh ff m))).
End BevyPayload.
