(** Model of the export to a Bevy mesh (/repo/src/extensions/bevy/mesh3d.rs) and of the flat-normal export of a whole
    mesh (/repo/src/mesh/mesh/triangulate.rs). *)
From Coq Require Import List Arith Bool NArith.
From Verif Require Import Base DVec Mesh MeshMore Tess Buffer.
Import ListNotations.
Set Implicit Arguments.
Unset Strict Implicit.

Section Bevy.
  Context {V3 V2 EP FP : Type}. (** [Vec3], [Vec2] *)
  (** extensions/bevy/vertex_payload_3d.rs:10-19 [BevyVertexPayload3d] *)
  Record payload := mkPay { p_pos : V3; p_normal : V3; p_uv : V2 }.
  (** vertex_payload_3d.rs, [HasNormal::set_normal] *)
  Definition set_normal (n : V3) (p : payload) : payload := mkPay (p_pos p) n (p_uv p).

  (** The parts of [bevy::mesh::Mesh] that are used: topology and usage as the two conditions that are asserted, indices,
      and the attributes (a map, so one value per attribute). *)
  Inductive attribute := Position | Normal | Other (k : nat).
  Inductive indices := U16 (l : list N) | U32 (l : list N).
  Record bmesh := mkBM { b_list : bool; b_main : bool; b_ind : option indices; b_attr : list (attribute * list V3) }.
  Definition attr_eqb (a b : attribute) : bool :=
    match a, b with Position, Position | Normal, Normal => true | Other i, Other j => i =? j | _, _ => false end.
  (** [Mesh::insert_attribute], [Mesh::remove_attribute] of bevy *)
  Definition remove_attribute (a : attribute) (l : list (attribute * list V3)) := filter (fun x => negb (attr_eqb a (fst x))) l.
  Definition insert_attribute (a : attribute) (v : list V3) (l : list (attribute * list V3)) := remove_attribute a l ++ [(a, v)].

  Implicit Types (m : mesh payload EP FP).
  (** [size_of::<T::V>()]: 1, 2, 4 or 8 bytes. *)
  Variable width : N.
  (** mesh3d.rs:54-66 [bevy_indices]; [as] keeps the lower bits *)
  Definition bevy_indices (ix : list nat) : res indices :=
    if N.eqb width 4 then Ok (U32 (map (fun x => N.modulo (N.of_nat x) (2 ^ 32)) ix))
    else if N.eqb width 2 || N.eqb width 1 then Ok (U16 (map (fun x => N.modulo (N.of_nat x) (2 ^ 16)) ix))
    else Panic.
  (** mesh3d.rs:68-77 [bevy_remove_attributes] *)
  Definition bevy_remove_attributes (b : bmesh) : bmesh :=
    mkBM (b_list b) (b_main b) None (fold_left (fun l a => remove_attribute a l) (map fst (b_attr b)) (b_attr b)).

  (** [triangulate_face] on a face of the mesh: the triangles it inserts (TriMesh.v [face_triangles]) *)
  Variable tris : nat -> res (list tri3).
  (** [Face3d::normal(f, mesh).normalize()] *)
  Variable normal : nat -> res V3.
  (** math/index_type.rs:41-89 [IndexType::new]: asserts that the number fits *)
  Definition fits (x : nat) : bool := N.ltb (N.of_nat x) (2 ^ (8 * width)).

  Definition corners (T : list tri3) : list nat := flat_map (fun t => match t with (a, b, c) => [a; b; c] end) T.
  (** mesh/mesh/triangulate.rs:14-32 [triangulate] *)
  Definition triangulate_mesh (blank : payload) m : res (list nat * list payload) :=
    let* T := foldM (fun out f => let* t := tris f in Ok (out ++ t)) (face_ids m) [] in
    let* (vs, ix) := dense_vertices blank m (corners T) in
    Ok (ix, vs).
  (** mesh/mesh/triangulate.rs:36-64 [triangulate_and_generate_flat_normals_post] *)
  Definition flat_corner m (n : V3) (s : hmap nat * list payload) (v : nat) : res (hmap nat * list payload) :=
    let* x := m_vertex m v in
    assert (fits (length (snd s))) (Ok ((v, length (snd s)) :: fst s, snd s ++ [set_normal n (v_pay x)])).
  Definition flat_mesh_face m (st : list nat * list payload) (f : nat) : res (list nat * list payload) :=
    let t := b_new (fst st) in
    let* n := normal f in
    let* ids := face_vertices m f in
    let* r := foldM (flat_corner m n) ids (([] : hmap nat), snd st) in
    let* T := tris f in
    let* t := map_indices (mkB (b_idx t ++ corners T) (b_start t)) (fst r) in
    Ok (b_idx t, snd r).
  Definition flat_mesh m : res (list nat * list payload) := foldM (flat_mesh_face m) (face_ids m) ([], []).

  (** mesh3d.rs:91-131 [bevy_set_ex] *)
  Definition bevy_set_ex (blank : payload) (flat : bool) m (b : bmesh) : res bmesh :=
    assert (b_list b) (assert (b_main b) (
    let b := bevy_remove_attributes b in
    let* (is, vs) := if flat then flat_mesh m else triangulate_mesh blank m in
    let* ix := bevy_indices is in
    let l := insert_attribute Position (map p_pos vs) (b_attr b) in
    let l := insert_attribute Normal (map p_normal vs) l in
    Ok (mkBM (b_list b) (b_main b) (Some ix) l))).
  (** mesh3d.rs:141-156 [to_bevy_ex]; [main]: the usage contains [MAIN_WORLD]. [to_bevy] (mesh3d.rs:134-138) is the case
      [flat = false] with the algorithm [Auto]. *)
  Definition to_bevy_ex (blank : payload) (main flat : bool) m : res bmesh := bevy_set_ex blank flat m (mkBM true main None []).
End Bevy.
Arguments payload : clear implicits.
Arguments bmesh : clear implicits.
