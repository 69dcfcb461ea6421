(** Model of whole-mesh queries: breadth-first search, network matrices, comparison of meshes. *)
From Coq Require Import List Arith ZArith Bool.
From Verif Require Import Base DVec Mesh MeshMore.
Import ListNotations.
Set Implicit Arguments.
Unset Strict Implicit.

(** [HashMap::get] on an association list, newest entry first *)
Fixpoint assoc {A} (k : nat) (l : list (nat * A)) : option A :=
  match l with
  | [] => None
  | (i, a) :: r => if k =? i then Some a else assoc k r
  end.
(** [HashSet::contains] *)
Definition mem (x : nat) (l : list nat) : bool := existsb (Nat.eqb x) l.

(** src/mesh/mesh/basics.rs:13-26 [equal_up_to_rotation]; the ids are compared with [==].
    [a.iter().cycle().skip(i).take(a.len())] yields [a[(i + k) % a.len()]] for k in [0..a.len()]. *)
Definition idx (l : list nat) (i : nat) : res nat := unwrap (nth_error l i).
Fixpoint list_eqb (a b : list nat) : bool :=
  match a, b with
  | [], [] => true
  | x :: a, y :: b => (x =? y) && list_eqb a b
  | _, _ => false
  end.
Fixpoint rot_search (a b : list nat) (is : list nat) : res bool :=
  match is with
  | [] => Ok false
  | i :: is =>
      let* x := idx a i in
      let* y := idx b 0 in
      if negb (x =? y) then rot_search a b is
      else
        let* r := mapM (fun k => idx a ((i + k) mod length a)) (seq 0 (length a)) in
        if list_eqb r b then Ok true else rot_search a b is
  end.
Definition equal_up_to_rotation (a b : list nat) : res bool :=
  if negb (length a =? length b) then Ok false else rot_search a b (seq 0 (length a)).

Section Topo.
  Context {VP EP FP : Type}.
  Notation mesh := (mesh VP EP FP).
  Implicit Types (c : cfg) (m : mesh).

  (** src/mesh/mesh/topology.rs:37-43: following the predecessors *)
  Fixpoint follow (fuel : nat) (pred : list (nat * option nat)) (step : option nat) : res (list nat) :=
    match step with
    | None => Ok []
    | Some v =>
        match fuel with
        | 0 => Diverge
        | S k => let* p := unwrap (assoc v pred) in let* r := follow k pred p in Ok (v :: r)
        end
    end.

  (** src/mesh/mesh/topology.rs:28-45, the loop over the neighbours of [current]; the state is
      (queue, visited, predecessor), front of the queue first. [inr path] is [return Some(path)].
      The neighbour iterator is collected before the loop. *)
  Definition bfs_st := (list nat * list nat * list (nat * option nat))%type.
  Fixpoint bfs_visit (v0 current : nat) (ns : list nat) (s : bfs_st) : res (bfs_st + list nat) :=
    match ns with
    | [] => Ok (inl s)
    | n :: ns =>
        let '(queue, visited, pred) := s in
        if mem n visited then bfs_visit v0 current ns s
        else
          let visited := n :: visited in
          let pred := (n, Some current) :: pred in
          let queue := queue ++ [n] in
          if n =? v0 then let* p := follow (length pred) pred (Some v0) in Ok (inr p)
          else bfs_visit v0 current ns (queue, visited, pred)
    end.

  (** src/mesh/mesh/topology.rs:27-46 *)
  Fixpoint bfs_loop (fuel : nat) c m (v0 : nat) (s : bfs_st) : res (option (list nat)) :=
    match fuel with
    | 0 => Diverge
    | S k =>
        let '(queue, visited, pred) := s in
        match queue with
        | [] => Ok None
        | current :: queue =>
            let* ns := v_neighbors c m current in
            let* r := bfs_visit v0 current ns (queue, visited, pred) in
            match r with
            | inr p => Ok (Some p)
            | inl s => bfs_loop k c m v0 s
            end
        end
    end.

  (** src/mesh/mesh/topology.rs:11-48 *)
  Definition shortest_path c m (v0 v1 : nat) : res (option (list nat)) :=
    if v0 =? v1 then Ok (Some [v0])
    else bfs_loop (S (d_cap (verts m))) c m v0 ([v1], [v1], [(v1, None)]).

  (** ** src/mesh/mesh/netsci.rs. Scalars are integers (only 0, 1 and counts occur). A matrix is a
      function of row and column; an index outside [n] x [n] panics. *)
  Definition matrix := nat -> nat -> Z.
  Definition zeros : matrix := fun _ _ => 0%Z.
  Definition mset (n : nat) (a : matrix) (i j : nat) (x : Z) : res matrix :=
    assert ((i <? n) && (j <? n)) (Ok (fun i' j' => if (i' =? i) && (j' =? j) then x else a i' j')).

  (** src/mesh/mesh/basics.rs:103-112 *)
  Definition has_consecutive_vertex_ids m : bool :=
    list_eqb (vertex_ids m) (seq 0 (length (vertex_ids m))).

  (** [e.origin(mesh).id()], src/halfedge/edge/basics.rs:16-18 *)
  Definition g_origin m e : res nat := let* v := origin_id m e in let* _ := m_vertex m v in Ok v.

  (** netsci.rs:13-28; [self.edges()] yields every half-edge *)
  Definition adjacency_matrix m : res matrix :=
    assert (has_consecutive_vertex_ids m)
    (let n := num_vertices m in
     foldM (fun a e =>
       let* i := g_origin m e in
       let* j := g_target m e in
       let* a := mset n a i j 1%Z in
       mset n a j i 1%Z) (edge_ids m) zeros).

  (** netsci.rs:53-76; the degrees are visited in the order of the ids *)
  Definition degree_matrix c m : res matrix :=
    let n := num_vertices m in
    let* ds := mapM (fun v => let* d := degree c m v in Ok (v, d)) (vertex_ids m) in
    foldM (fun a (p : nat * nat) => mset n a (fst p) (fst p) (Z.of_nat (snd p))) ds zeros.

  (** netsci.rs:79-81 *)
  Definition laplacian c m : res matrix :=
    let* d := degree_matrix c m in
    let* a := adjacency_matrix m in
    Ok (fun i j => (d i j - a i j)%Z).

  (** src/halfedge/edge/basics.rs:59-72 *)
  Definition edge_face_ids m e : res (list nat) :=
    let* f1 := face_id m e in
    let* t := g_twin m e in
    let* f2 := face_id m t in
    Ok ((match f1 with Some f => [f] | None => [] end) ++ (match f2 with Some f => [f] | None => [] end)).
End Topo.

(** src/mesh/mesh/iso.rs:8-41 [MeshEquivalenceDifference] *)
Inductive difference :=
| Equivalent | DifferentNumberOfVertices | DifferentNumberOfEdges | DifferentNumberOfFaces
| DifferentVertices (v w : nat) | DifferentEdges (e e' : nat) | DifferentFaces (f f' : nat)
| NoCorrespondingVertex | NoCorrespondingEdge (e : nat) | NoCorrespondingFace (f : nat).

(** Loops that may return early: [inr d] is [return d]. *)
Fixpoint foldE {A S} (f : S -> A -> res (S + difference)) (l : list A) (s : S) : res (S + difference) :=
  match l with
  | [] => Ok (inl s)
  | a :: t => let* r := f s a in match r with inl s' => foldE f t s' | inr d => Ok (inr d) end
  end.

Section Iso.
  Context {VP EP FP VP2 EP2 FP2 : Type}.
  (** [compare_vertex], [compare_edge], [compare_face], on ids of the two meshes *)
  Variables (cmpv cmpe cmpf : nat -> nat -> bool).

  (** basics.rs:281-292, the search among the faces of the corresponding edge *)
  Fixpoint match_face (vs : list nat) (f : nat) (others : list (nat * list nat)) (fi : list (nat * nat))
    : res (list (nat * nat) + difference) :=
    match others with
    | [] => Ok (inl fi)
    | (g, gs) :: others =>
        let* b := equal_up_to_rotation vs gs in
        if b then
          if cmpf f g then Ok (inl ((f, g) :: fi)) else Ok (inr (DifferentFaces f g))
        else match_face vs f others fi
    end.

  (** basics.rs:270-297 *)
  Definition iso_face (m : mesh VP EP FP) (iso : list (nat * nat)) (others : list (nat * list nat))
      (fi : list (nat * nat)) (f : nat) : res (list (nat * nat) + difference) :=
    match assoc f fi with
    | Some _ => Ok (inl fi)
    | None =>
        let* vs0 := face_vertices m f in
        let* vs := mapM (fun v => unwrap (assoc v iso)) vs0 in
        let* r := match_face vs f others fi in
        match r with
        | inr d => Ok (inr d)
        | inl fi => match assoc f fi with Some _ => Ok (inl fi) | None => Ok (inr (NoCorrespondingFace f)) end
        end
    end.

  (** basics.rs:249-298, one outgoing edge [e] of [v]; the state is (edge_iso, face_iso) *)
  Definition iso_edge (c : cfg) (m : mesh VP EP FP) (m2 : mesh VP2 EP2 FP2) (iso : list (nat * nat)) (w : nat)
      (st : list (nat * nat) * list (nat * nat)) (e : nat)
    : res ((list (nat * nat) * list (nat * nat)) + difference) :=
    let (ei, fi) := st in
    match assoc e ei with
    | Some _ => Ok (inl st)
    | None =>
        let* t := g_target m e in
        let* t2 := unwrap (assoc t iso) in
        let* s := shared_edge c m2 w t2 in
        match s with
        | None => Ok (inr (NoCorrespondingEdge e))
        | Some e2 =>
            let ei := (e, e2) :: ei in
            if negb (cmpe e e2) then Ok (inr (DifferentEdges e e2)) else
            let* fs2 := edge_face_ids m2 e2 in
            let* others := mapM (fun f => let* vs := face_vertices m2 f in Ok (f, vs)) fs2 in
            let* fs := edge_face_ids m e in
            let* r := foldE (fun fi f => iso_face m iso others fi f) fs fi in
            match r with inl fi => Ok (inl (ei, fi)) | inr d => Ok (inr d) end
        end
    end.

  (** basics.rs:242-299, one vertex *)
  Definition iso_vertex (c : cfg) (m : mesh VP EP FP) (m2 : mesh VP2 EP2 FP2) (iso : list (nat * nat))
      (st : list (nat * nat) * list (nat * nat)) (v : nat)
    : res ((list (nat * nat) * list (nat * nat)) + difference) :=
    let* w := unwrap (assoc v iso) in
    let* _ := m_vertex m2 w in
    if negb (cmpv v w) then Ok (inr (DifferentVertices v w)) else
    let* es := edges_out c m v in
    foldE (fun st e => iso_edge c m m2 iso w st e) es st.

  (** basics.rs:214-301 [is_isomorphic] *)
  Definition is_isomorphic (c : cfg) (m : mesh VP EP FP) (m2 : mesh VP2 EP2 FP2) (iso : list (nat * nat)) : res difference :=
    if negb (num_vertices m =? num_vertices m2) then Ok DifferentNumberOfVertices else
    if negb (num_edges m =? num_edges m2) then Ok DifferentNumberOfEdges else
    if negb (num_faces m =? num_faces m2) then Ok DifferentNumberOfFaces else
    let* r := foldE (fun st v => iso_vertex c m m2 iso st v) (vertex_ids m) ([], []) in
    match r with inl _ => Ok Equivalent | inr d => Ok d end.
End Iso.

Section Iso2.
  Context {VP EP FP VP2 EP2 FP2 : Type}.
  (** basics.rs:421-443 [find_payload_isomorphism]; [same v w] is the similarity of the vertices with
      these ids. [None] is [Err]. The state is (res, used). *)
  Fixpoint payload_iso (same : nat -> nat -> bool) (ws vs : list nat) (iso : list (nat * nat)) (used : list nat)
    : option (list (nat * nat)) :=
    match vs with
    | [] => Some iso
    | v :: vs =>
        match find (same v) ws with
        | None => None
        | Some w =>
            match assoc v iso with
            | Some _ => None
            | None => if mem w used then None else payload_iso same ws vs ((v, w) :: iso) (w :: used)
            end
        end
    end.
  Definition find_payload_isomorphism (same : nat -> nat -> bool) (m : mesh VP EP FP) (m2 : mesh VP2 EP2 FP2)
    : option (list (nat * nat)) := payload_iso same (vertex_ids m2) (vertex_ids m) [] [].

  (** basics.rs:305-314 [is_isomorphic_by] *)
  Definition is_isomorphic_by (c : cfg) (same : nat -> nat -> bool) (m : mesh VP EP FP) (m2 : mesh VP2 EP2 FP2)
    : res difference :=
    match find_payload_isomorphism same m m2 with
    | None => Ok NoCorrespondingVertex
    | Some iso => is_isomorphic (fun _ _ => true) (fun _ _ => true) (fun _ _ => true) c m m2 iso
    end.
End Iso2.

Section Trivial.
  Context {VP EP FP : Type}.
  Implicit Types m : mesh VP EP FP.
  Variables (cmpv cmpe cmpf : nat -> nat -> bool).

  (** A lazily evaluated disjunction of conditions: the first that holds ends the search. *)
  Definition orelse (x : res bool) (y : res bool) : res bool := let* b := x in if b then Ok true else y.

  (** basics.rs:357-362. [other_v.id()] is read from the slot. *)
  Definition tri_vertex m m2 (s : unit) (v : nat) : res (unit + difference) :=
    let* w := d_id (verts m2) v in
    if negb (v =? w) || negb (cmpv v w) then Ok (inr (DifferentVertices v w)) else Ok (inl tt).

  (** basics.rs:364-373. [other_e] is an edge of [m2], but its origin and target are looked up in
      [m] (the source passes [self]): the origin id stored in [other_e] and the origin, in [m], of
      the id stored in [other_e.next]. *)
  Definition tri_edge m m2 (s : unit) (e : nat) : res (unit + difference) :=
    let* k := d_id (edges m2) e in
    let* x2 := m_edge m2 e in
    let* b := orelse (Ok (negb (e =? k)))
      (orelse (let* o := g_origin m e in let* _ := m_vertex m (e_origin x2) in Ok (negb (o =? e_origin x2)))
      (orelse (let* t := g_target m e in
               let* t2 := (let* v := origin_id m (e_next x2) in let* _ := m_vertex m v in Ok v) in
               Ok (negb (t =? t2)))
              (Ok (negb (cmpe e k))))) in
    if b then Ok (inr (DifferentEdges e k)) else Ok (inl tt).

  (** basics.rs:375-387; the edges of [other_f] are traversed in [m] *)
  Definition tri_face m m2 (s : unit) (f : nat) : res (unit + difference) :=
    let* k := d_id (faces m2) f in
    let* x2 := m_face m2 f in
    let e2 := f_edge x2 in
    let* b := orelse (Ok (negb (f =? k)))
      (orelse (let* n := face_num_edges m f in
               let* n2 := (let* _ := m_edge m e2 in it_size_hint m (it_new e2)) in
               Ok (negb (n =? n2)))
      (orelse (let* l := face_edges m f in let* l2 := edges_face m e2 in
               let* q := equal_up_to_rotation l l2 in Ok (negb q))
              (Ok (negb (cmpf f k))))) in
    if b then Ok (inr (DifferentFaces f k)) else Ok (inl tt).

  (** basics.rs:336-390 [is_trivially_isomorphic_ex] *)
  Definition is_trivially_isomorphic_ex m m2 : res difference :=
    if negb (num_vertices m =? num_vertices m2) then Ok DifferentNumberOfVertices else
    if negb (num_edges m =? num_edges m2) then Ok DifferentNumberOfEdges else
    if negb (num_faces m =? num_faces m2) then Ok DifferentNumberOfFaces else
    let* r := foldE (tri_vertex m m2) (vertex_ids m) tt in
    match r with inr d => Ok d | inl _ =>
    let* r := foldE (tri_edge m m2) (edge_ids m) tt in
    match r with inr d => Ok d | inl _ =>
    let* r := foldE (tri_face m m2) (face_ids m) tt in
    match r with inr d => Ok d | inl _ => Ok Equivalent end end end.
End Trivial.

(** basics.rs:393-395 [is_trivially_isomorphic] *)
Definition is_trivially_isomorphic {VP EP FP} (m m2 : mesh VP EP FP) : res difference :=
  is_trivially_isomorphic_ex (fun _ _ => true) (fun _ _ => true) (fun _ _ => true) m m2.
