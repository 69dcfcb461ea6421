(** More of the mesh model: sizes, pair iteration, flipping a whole mesh, the consistency checker. *)
From Coq Require Import List Arith Lia Bool.
From Verif Require Import Base DVec Mesh.
Import ListNotations.
Set Implicit Arguments.

(** [iterator.find(P).is_none()] over a collected list, evaluated lazily. *)
Fixpoint none_found {A} (P : A -> res bool) (l : list A) : res bool :=
  match l with
  | [] => Ok true
  | a :: t => let* b := P a in if b then Ok false else none_found P t
  end.

Section MeshMore.
  Context {VP EP FP : Type}.
  Notation mesh := (mesh VP EP FP).
  Implicit Types (c : cfg) (m : mesh).

  (** Ids yielded by [edges()], [vertices()], [faces()], src/halfedge/mesh/basics.rs:82-127 *)
  Definition edge_ids m : list nat := map fst (d_iter (edges m)).
  Definition vertex_ids m : list nat := map fst (d_iter (verts m)).
  Definition face_ids m : list nat := map fst (d_iter (faces m)).

  (** src/halfedge/mesh/basics.rs:51-61 *)
  Definition num_vertices m : nat := d_len (verts m).
  Definition num_edges m : nat := d_len (edges m).
  Definition num_faces m : nat := d_len (faces m).

  (** src/halfedge/mesh/basics.rs:43-45 *)
  Definition is_open m : bool := existsb (fun p => is_none (e_face (snd p))) (d_iter (edges m)).

  (** the loop of [ForwardEdgeIterator::size_hint], src/halfedge/edge/iterator.rs:54-63 *)
  Fixpoint size_hint_loop m (first curr len : nat) (fl : nat) : res nat :=
    match fl with
    | 0 => Diverge
    | S k =>
        let* n := g_next m curr in
        if n =? first then Ok len else size_hint_loop m first n (S len) k
    end.

  (** [ForwardEdgeIterator] as a value: [is_first], [first], [current]
      (src/halfedge/edge/iterator.rs:18-36) *)
  Record fwd_iter := mkIt { it_is_first : bool; it_first : nat; it_current : nat }.
  Definition it_new (e : nat) := mkIt true e e.
  (** src/halfedge/edge/iterator.rs:40-52 *)
  Definition it_next m (it : fwd_iter) : res (option nat * fwd_iter) :=
    if it_is_first it then Ok (Some (it_current it), mkIt false (it_first it) (it_current it))
    else
      let* n := g_next m (it_current it) in
      if n =? it_first it then Ok (None, it) else Ok (Some n, mkIt false (it_first it) n).
  Definition it_size_hint m (it : fwd_iter) : res nat :=
    size_hint_loop m (it_first it) (it_current it) 1 (fuel m).

  (** src/halfedge/face/mod.rs:58-70 [num_edges], [num_vertices], [num_triangles] ([usize]
      subtraction panics on underflow in debug builds only, wraps in release) *)
  Definition face_num_edges m (f : nat) : res nat :=
    let* x := m_face m f in
    let* _ := m_edge m (f_edge x) in
    it_size_hint m (it_new (f_edge x)).
  Definition face_num_triangles m (f : nat) : res nat :=
    let* n := face_num_edges m f in
    if n <? 2 then Panic else Ok ((n - 2) * 3).

  (** src/halfedge/face/mod.rs:89-92 [edges] and 80-86 [vertices] (ids of the targets) *)
  Definition face_edges m (f : nat) : res (list nat) :=
    let* x := m_face m f in edges_face m (f_edge x).
  Definition face_vertices m (f : nat) : res (list nat) :=
    let* l := face_edges m f in mapM (g_target m) l.

  (** src/mesh/vertex/basics.rs:53-55 *)
  Definition degree c m v : res nat := let* l := edges_out c m v in Ok (length l).
  (** src/halfedge/edge/basics.rs:28-30 *)
  Definition is_boundary m e : res bool :=
    let* b := is_boundary_self m e in
    if b then Ok true else let* t := g_twin m e in is_boundary_self m t.
  (** src/halfedge/vertex/basics.rs:28-30 *)
  Definition v_is_boundary c m v : res bool :=
    let* r := edges_out_find c m v (is_boundary m) in Ok (negb (is_none r)).
  (** src/halfedge/vertex/basics.rs:69-72 [vertices], ids *)
  Definition v_neighbors c m v : res (list nat) :=
    let* l := edges_out c m v in mapM (g_target m) l.

  (** src/mesh/mesh/halfedge.rs:12-24 [twin_edges] *)
  Definition twin_edges m : res (list (nat * nat)) :=
    mapM (fun p => let* _ := m_edge m (e_twin (snd p)) in Ok (fst p, e_twin (snd p)))
         (filter (fun p => negb (e_twin (snd p) <? fst p)) (d_iter (edges m))).

  (** src/mesh/mesh/halfedge.rs:45-53 [flip] *)
  Definition flip_all m : res mesh :=
    let* l := twin_edges m in foldM (fun m e => flip_edge m e) (map fst l) m.

  (** [e.face(mesh)], src/halfedge/edge/halfedge.rs:95-101: looks the face up *)
  Definition g_face m e : res (option nat) :=
    let* f := face_id m e in
    match f with None => Ok None | Some i => let* _ := m_face m i in Ok (Some i) end.

  (** src/halfedge/mesh/check.rs:10-62 *)
  Definition check_edge_invariants m : res bool :=
    let* a := none_found (fun e => let* t := g_twin m e in let* u := twin_id m t in
                                   Ok (negb (u =? e))) (edge_ids m) in
    if negb a then Ok false else
    let* b := none_found (fun e => let* n := g_next m e in let* p := g_prev m n in
                if negb (p =? e) then Ok true
                else let* q := g_prev m e in let* r := next_id m q in Ok (negb (r =? e)))
              (edge_ids m) in
    if negb b then Ok false else
    let* d := none_found (fun e => let* f1 := g_face m e in let* n := g_next m e in
                let* f2 := g_face m n in Ok (negb (oeqb f1 f2)))
              (edge_ids m) in
    if negb d then Ok false else
    none_found (fun e => let* n := g_next m e in let* o := origin_id m n in
                let* t := g_twin m e in let* o2 := origin_id m t in
                if negb (o =? o2) then Ok true
                else let* tg := target_id m e in let* t2 := g_twin m e in
                     let* o3 := origin_id m t2 in Ok (negb (tg =? o3)))
               (edge_ids m).

  (** src/halfedge/mesh/check.rs:64-81 *)
  Definition check_vertex_invariants m : res bool :=
    none_found (fun v => let* oe := v_edge_get m v in
                match oe with
                | Some e => let* o := origin_id m e in Ok (negb (o =? v))
                | None => Ok false
                end) (vertex_ids m).

  (** src/halfedge/mesh/check.rs:83-107 *)
  Definition check_edges_are_loops m : res bool :=
    let* a := none_found (fun e => let* n := g_next m e in let* o := origin_id m e in
                let* b := same_face m n o in Ok (negb b)) (edge_ids m) in
    if negb a then Ok false else
    none_found (fun e => let* p := g_prev m e in let* t := target_id m e in
                let* b := same_face_back m p t in Ok (negb b)) (edge_ids m).

  (** src/halfedge/mesh/check.rs:109-120 *)
  Definition check_faces_nondegenerate m : res bool :=
    none_found (fun f => let* l := face_edges m f in Ok (length l <? 3)) (face_ids m).

  (** src/halfedge/mesh/check.rs:123-131 *)
  Definition check_edges_have_face m : res bool :=
    none_found (fun e => let* b := is_boundary_self m e in
                if b then let* t := g_twin m e in is_boundary_self m t else Ok false) (edge_ids m).

  (** src/halfedge/mesh/check.rs:133-143 *)
  Definition check_face_invariants m : res bool :=
    none_found (fun f => let* x := m_face m f in let* y := m_edge m (f_edge x) in
                Ok (negb (oeqb (e_face y) (Some f)))) (face_ids m).

  (** src/halfedge/mesh/check.rs:148-160; [Ok true] is [Ok(())], [Ok false] is [Err(_)] *)
  Definition check m : res bool :=
    let* a := check_edge_invariants m in if negb a then Ok false else
    let* a := check_face_invariants m in if negb a then Ok false else
    let* a := check_vertex_invariants m in if negb a then Ok false else
    let* a := check_edges_are_loops m in if negb a then Ok false else
    let* a := check_faces_nondegenerate m in if negb a then Ok false else
    check_edges_have_face m.
End MeshMore.
