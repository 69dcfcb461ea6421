(** Model of the half-edge mesh: data, traversal, queries and low-level builder operations. *)
From Coq Require Import List Arith Lia Bool.
From Verif Require Import Base DVec.
Import ListNotations.
Set Implicit Arguments.

(** Index capacities (sentinel values [IndexType::max()]) of the three index types and whether
    [debug_assert!] is compiled in. *)
Record cfg := mkCfg { capE : nat; capV : nat; capF : nat; dbg : bool }.

(** [debug_assert!(x)]: the condition is evaluated (and may itself panic) only in debug builds. *)
Definition dassert {A} (c : cfg) (x : res bool) (k : res A) : res A :=
  if dbg c then let* b := x in assert b k else k.

(** src/halfedge/edge/mod.rs:19-48. The id field lives in the arena slot. [e_face = None] is the
    sentinel. *)
Record edge (EP : Type) := mkE {
  e_next : nat; e_twin : nat; e_prev : nat; e_origin : nat; e_face : option nat; e_pay : EP }.
Arguments mkE {EP} _ _ _ _ _ _.

(** src/halfedge/vertex/mod.rs:15-31; [v_edge = None] is the sentinel (isolated vertex). *)
Record vertex (VP : Type) := mkV { v_edge : option nat; v_pay : VP }.
Arguments mkV {VP} _ _.

(** src/halfedge/face/mod.rs fields of [HalfEdgeFaceImpl] *)
Record face (FP : Type) := mkF { f_edge : nat; f_curved : bool; f_pay : FP }.
Arguments mkF {FP} _ _ _.

(** src/halfedge/mesh/mod.rs: [HalfEdgeMeshImpl]; the mesh payload is not modelled. *)
Record mesh (VP EP FP : Type) := mkM {
  edges : dvec (edge EP); verts : dvec (vertex VP); faces : dvec (face FP) }.
Arguments mkM {VP EP FP} _ _ _.

Definition empty_mesh {VP EP FP} : mesh VP EP FP := mkM (@d_new _) (@d_new _) (@d_new _).

(** Optional ids compared with [==] on sentinel-valued fields. *)
Definition oeqb (a b : option nat) : bool :=
  match a, b with
  | Some x, Some y => x =? y
  | None, None => true
  | _, _ => false
  end.
Definition is_none {A} (o : option A) : bool := match o with None => true | Some _ => false end.

(** Iterators that follow [step] from [first] until [first] comes up again. Used for
    [ForwardEdgeIterator], [BackwardEdgeIterator] (src/halfedge/edge/iterator.rs:17-106) and
    [IncidentToVertexIterator] (src/halfedge/vertex/iterator.rs:7-62): the first call of [next()]
    yields [first]; each further call performs [step] on the last element and stops when it gives
    [first]. [iter_rest] collects what comes after [cur]. *)
Fixpoint iter_rest (step : nat -> res nat) (first cur fuel : nat) : res (list nat) :=
  match fuel with
  | 0 => Diverge
  | S k =>
      let* n := step cur in
      if n =? first then Ok []
      else let* l := iter_rest step first n k in Ok (n :: l)
  end.

(** [iterator.collect()] *)
Definition iter_collect (step : nat -> res nat) (first fuel : nat) : res (list nat) :=
  let* l := iter_rest step first first fuel in Ok (first :: l).

(** [iterator.find(P)], lazy *)
Fixpoint iter_find (step : nat -> res nat) (P : nat -> res bool) (first cur fuel : nat)
  : res (option nat) :=
  let* b := P cur in
  if b then Ok (Some cur)
  else match fuel with
       | 0 => Diverge
       | S k =>
           let* n := step cur in
           if n =? first then Ok None else iter_find step P first n k
       end.

(** Sequencing over a list: a [for] loop / collected [map]. *)
Fixpoint mapM {A B} (f : A -> res B) (l : list A) : res (list B) :=
  match l with
  | [] => Ok []
  | a :: t => let* b := f a in let* bs := mapM f t in Ok (b :: bs)
  end.

Fixpoint foldM {A S} (f : S -> A -> res S) (l : list A) (s : S) : res S :=
  match l with
  | [] => Ok s
  | a :: t => let* s' := f s a in foldM f t s'
  end.

Section Mesh.
  Context {VP EP FP : Type}.
  Notation mesh := (mesh VP EP FP).
  Notation edge := (edge EP).
  Notation vertex := (vertex VP).
  Notation face := (face FP).
  Implicit Types (c : cfg) (m : mesh).

  (** src/halfedge/mesh/basics.rs:17-29 *)
  Definition m_edge m (e : nat) : res edge := d_get (edges m) e.
  Definition m_vertex m (v : nat) : res vertex := d_get (verts m) v.
  Definition m_face m (f : nat) : res face := d_get (faces m) f.

  (** [mesh.edge_mut(e).field = ..] and friends, src/halfedge/mesh/basics.rs:31-41 *)
  Definition upd_edge m (e : nat) (f : edge -> edge) : res mesh :=
    let* d := d_update (edges m) e f in Ok (mkM d (verts m) (faces m)).
  Definition upd_vertex m (v : nat) (f : vertex -> vertex) : res mesh :=
    let* d := d_update (verts m) v f in Ok (mkM (edges m) d (faces m)).
  Definition upd_face m (i : nat) (f : face -> face) : res mesh :=
    let* d := d_update (faces m) i f in Ok (mkM (edges m) (verts m) d).

  (** Field setters, src/halfedge/edge/halfedge.rs:34-48 *)
  Definition w_next (n : nat) (x : edge) := mkE n (e_twin x) (e_prev x) (e_origin x) (e_face x) (e_pay x).
  Definition w_twin (n : nat) (x : edge) := mkE (e_next x) n (e_prev x) (e_origin x) (e_face x) (e_pay x).
  Definition w_prev (n : nat) (x : edge) := mkE (e_next x) (e_twin x) n (e_origin x) (e_face x) (e_pay x).
  Definition w_origin (n : nat) (x : edge) := mkE (e_next x) (e_twin x) (e_prev x) n (e_face x) (e_pay x).
  Definition w_face (f : option nat) (x : edge) := mkE (e_next x) (e_twin x) (e_prev x) (e_origin x) f (e_pay x).
  Definition set_next m e n := upd_edge m e (w_next n).
  Definition set_twin m e n := upd_edge m e (w_twin n).
  Definition set_prev m e n := upd_edge m e (w_prev n).
  Definition set_origin m e v := upd_edge m e (w_origin v).
  (** src/halfedge/vertex/mod.rs [set_edge] *)
  Definition set_vedge m v (e : option nat) := upd_vertex m v (fun x => mkV e (v_pay x)).
  (** src/halfedge/face/mod.rs:45-47 *)
  Definition set_fedge m f (e : nat) := upd_face m f (fun x => mkF e (f_curved x) (f_pay x)).
  (** src/halfedge/edge/halfedge.rs:24-27 [set_face] (debug-asserts that there was no face) *)
  Definition set_face c m e (f : option nat) : res mesh :=
    let* x := m_edge m e in
    dassert c (Ok (is_none (e_face x))) (upd_edge m e (w_face f)).
  (** src/halfedge/edge/halfedge.rs:29-32 [delete_face] *)
  Definition delete_face c m e : res mesh :=
    let* x := m_edge m e in
    dassert c (Ok (negb (is_none (e_face x)))) (upd_edge m e (w_face None)).

  (** Getters that clone the neighbouring edge, src/halfedge/edge/halfedge.rs:50-92. Since
      [mesh.edge(i).id() == i] (theorem on arenas), ids stand for the cloned edges. *)
  Definition g_next m e : res nat := let* x := m_edge m e in let* _ := m_edge m (e_next x) in Ok (e_next x).
  Definition g_prev m e : res nat := let* x := m_edge m e in let* _ := m_edge m (e_prev x) in Ok (e_prev x).
  Definition g_twin m e : res nat := let* x := m_edge m e in let* _ := m_edge m (e_twin x) in Ok (e_twin x).
  (** [..._id()] variants that do not touch the neighbour, lines 57-87, 104 *)
  Definition next_id m e : res nat := let* x := m_edge m e in Ok (e_next x).
  Definition prev_id m e : res nat := let* x := m_edge m e in Ok (e_prev x).
  Definition twin_id m e : res nat := let* x := m_edge m e in Ok (e_twin x).
  Definition origin_id m e : res nat := let* x := m_edge m e in Ok (e_origin x).
  Definition face_id m e : res (option nat) := let* x := m_edge m e in Ok (e_face x).
  Definition is_boundary_self m e : res bool := let* x := m_edge m e in Ok (is_none (e_face x)).
  (** [target_id], lines 90-92 *)
  Definition target_id m e : res nat := let* n := g_next m e in origin_id m n.
  (** [target(mesh).id()], src/halfedge/edge/basics.rs:22-24: also looks the vertex up *)
  Definition g_target m e : res nat := let* v := target_id m e in let* _ := m_vertex m v in Ok v.

  (** Enough steps for any loop through live edges to close. *)
  Definition fuel m : nat := S (length (slots (edges m))).

  (** [ForwardEdgeIterator] / [BackwardEdgeIterator] from edge [e],
      src/halfedge/edge/iterator.rs:37-106 *)
  Definition edges_face m e : res (list nat) :=
    let* _ := m_edge m e in iter_collect (g_next m) e (fuel m).
  Definition edges_face_back m e : res (list nat) :=
    let* _ := m_edge m e in iter_collect (g_prev m) e (fuel m).

  (** One step of [IncidentToVertexIterator::next], src/halfedge/vertex/iterator.rs:40-61 *)
  Definition wheel_step c m (first cur : nat) : res nat :=
    let* t := g_twin m cur in
    let* n := g_next m t in
    dassert c (let* o := origin_id m n in let* o0 := origin_id m first in Ok (o =? o0)) (Ok n).

  (** src/halfedge/vertex/basics.rs:58-65 [edge] *)
  Definition v_edge_get m v : res (option nat) :=
    let* x := m_vertex m v in
    match v_edge x with
    | None => Ok None
    | Some e => let* _ := m_edge m e in Ok (Some e)
    end.

  (** src/halfedge/vertex/basics.rs:84-90 [edges_out] *)
  Definition edges_out c m v : res (list nat) :=
    let* oe := v_edge_get m v in
    match oe with
    | None => Ok []
    | Some e => iter_collect (wheel_step c m e) e (fuel m)
    end.

  (** src/halfedge/vertex/basics.rs:93-100 [edges_in] *)
  Definition edges_in c m v : res (list nat) :=
    let* l := edges_out c m v in mapM (g_twin m) l.

  (** [edges_out(..).find(P)] and [edges_in(..).find(P)] *)
  Definition edges_out_find c m v (P : nat -> res bool) : res (option nat) :=
    let* oe := v_edge_get m v in
    match oe with
    | None => Ok None
    | Some e => iter_find (wheel_step c m e) P e e (fuel m)
    end.
  Definition edges_in_find c m v (P : nat -> res bool) : res (option nat) :=
    let* r := edges_out_find c m v (fun e => let* t := g_twin m e in P t) in
    match r with
    | None => Ok None
    | Some e => let* t := g_twin m e in Ok (Some t)
    end.

  (** src/halfedge/edge/halfedge.rs:123-131 *)
  Definition same_face m e v : res bool :=
    let* _ := m_edge m e in
    let* r := iter_find (g_next m) (fun x => let* o := origin_id m x in Ok (o =? v)) e e (fuel m) in
    Ok (negb (is_none r)).
  Definition same_face_back m e v : res bool :=
    let* _ := m_edge m e in
    let* r := iter_find (g_prev m) (fun x => let* o := origin_id m x in Ok (o =? v)) e e (fuel m) in
    Ok (negb (is_none r)).

  (** src/halfedge/mesh/basics.rs:164-172 [shared_edge] *)
  Definition shared_edge c m v w : res (option nat) :=
    edges_out_find c m v (fun e => let* t := target_id m e in Ok (t =? w)).

  (** src/halfedge/vertex/basics.rs:41-48 *)
  Definition has_only_one_edge m v : res bool :=
    let* oe := v_edge_get m v in
    match oe with
    | None => Ok false
    | Some e => let* x := m_edge m e in Ok (e_prev x =? e_twin x)
    end.

  (** [filter(is_boundary_self)] over collected ids *)
  Definition boundary_of m (l : list nat) : res (list nat) :=
    let* bs := mapM (is_boundary_self m) l in
    Ok (map fst (filter snd (combine l bs))).

  Definition exactly_one {A} (l : list A) : bool := length l =? 1.

  (** src/mesh/vertex/halfedge.rs:14-35 [outgoing_boundary_edge].
      [exactly_one] is modelled on the fully collected list. *)
  Definition outgoing_boundary_edge c m v : res (option nat) :=
    dassert c (let* l := edges_out c m v in
               if length l =? 0 then Ok true
               else let* b := boundary_of m l in Ok (exactly_one b))
      (edges_out_find c m v (is_boundary_self m)).

  (** src/mesh/vertex/halfedge.rs:38-55 [ingoing_boundary_edge] *)
  Definition ingoing_boundary_edge c m v : res (option nat) :=
    dassert c (let* l := edges_in c m v in let* b := boundary_of m l in Ok (exactly_one b))
      (edges_in_find c m v (is_boundary_self m)).

  (** src/halfedge/edge/halfedge.rs:9-22 [HalfEdge::new] and src/halfedge/edge/mod.rs:93-99
      [set_id] as executed by [insert_halfedge_no_update_no_check]
      (src/halfedge/mesh/builder/halfedge.rs:224-245). *)
  Definition insert_halfedge c m (e origin : nat) (fc : option nat) (prev : option nat)
    (twin : nat) (next : option nat) (ep : EP) : res mesh :=
    let n := match next with Some n => n | None => twin end in
    let p := match prev with Some p => p | None => twin end in
    assert (negb (n =? capE c)) (assert (negb (p =? capE c)) (assert (negb (twin =? capE c))
      (let* d := match nth_error (slots (edges m)) e with
                 | Some None =>
                     assert (negb (n =? e)) (assert (negb (p =? e))
                       (d_set (capE c) (edges m) e (mkE n twin p origin fc ep)))
                 | _ => Panic
                 end in
       Ok (mkM d (verts m) (faces m))))).

  Definition alloc_edge c m : res (mesh * nat) :=
    let* (d, e) := d_alloc (capE c) (edges m) in Ok (mkM d (verts m) (faces m), e).
  Definition alloc_vertex c m : res (mesh * nat) :=
    let* (d, v) := d_alloc (capV c) (verts m) in Ok (mkM (edges m) d (faces m), v).
  Definition set_vertex c m v (x : vertex) : res mesh :=
    let* d := d_set (capV c) (verts m) v x in Ok (mkM (edges m) d (faces m)).

  (** src/halfedge/mesh/builder/semi.rs:109-121 [insert_edge_no_update_no_check] *)
  Definition insert_pair c m (next1 prev1 : option nat) (o1 : nat) (f1 : option nat) (ep1 : EP)
    (next2 prev2 : option nat) (o2 : nat) (f2 : option nat) (ep2 : EP) : res (mesh * nat * nat) :=
    let* (m1, e1) := alloc_edge c m in
    let* (m2, e2) := alloc_edge c m1 in
    let* m3 := insert_halfedge c m2 e1 o1 f1 prev1 e2 next1 ep1 in
    let* m4 := insert_halfedge c m3 e2 o2 f2 prev2 e1 next2 ep2 in
    Ok (m4, e1, e2).

  (** src/halfedge/mesh/builder/builder.rs:154-158 *)
  Definition add_vertex c m (vp : VP) : res (mesh * nat) :=
    let* (m1, v) := alloc_vertex c m in
    let* m2 := set_vertex c m1 v (mkV None vp) in
    Ok (m2, v).

  (** src/halfedge/mesh/builder/halfedge.rs:17-41 *)
  Definition add_vertex_via_edge c m (input output : nat) (vp : VP) (ep1 ep2 : EP)
    : res (mesh * nat * nat * nat) :=
    let* v := origin_id m output in
    dassert c (let* t := target_id m input in Ok (t =? v))
      (let* (m1, new) := alloc_vertex c m in
       let* (m2, e1, e2) :=
         insert_pair c m1 None (Some input) v None ep1 (Some output) None new None ep2 in
       let* m3 := set_vertex c m2 new (mkV (Some e2) vp) in
       let* m4 := set_next m3 input e1 in
       let* m5 := set_prev m4 output e2 in
       Ok (m5, new, e1, e2)).

  (** src/halfedge/mesh/builder/halfedge.rs:43-75 *)
  Definition add_vertex_via_vertex c m (v : nat) (vp : VP) (ep1 ep2 : EP)
    : res (mesh * nat * nat * nat) :=
    let* one := has_only_one_edge m v in
    let* (input, output) :=
      if one then
        let* oe := v_edge_get m v in
        let* e := unwrap oe in
        let* t := twin_id m e in Ok (t, e)
      else
        let* r := edges_out_find c m v (is_boundary_self m) in
        match r with
        | None => Panic
        | Some b =>
            dassert c (let* l := edges_out c m v in let* bs := boundary_of m l in
                       Ok (length bs =? 1))
              (let* p := prev_id m b in Ok (p, b))
        end in
    dassert c (is_boundary_self m input)
      (dassert c (is_boundary_self m output)
         (add_vertex_via_edge c m input output vp ep1 ep2)).

  (** src/halfedge/mesh/builder/halfedge.rs:77-100 *)
  Definition add_isolated_edge c m (a : VP) (epa : EP) (b : VP) (epb : EP)
    : res (mesh * nat * nat) :=
    let* (m1, v0) := alloc_vertex c m in
    let* (m2, v1) := alloc_vertex c m1 in
    let* (m3, e0, e1) := insert_pair c m2 None None v0 None epa None None v1 None epb in
    let* m4 := set_vertex c m3 v0 (mkV (Some e0) a) in
    let* m5 := set_vertex c m4 v1 (mkV (Some e1) b) in
    Ok (m5, v0, v1).

  (** the closure [inserter], src/halfedge/mesh/builder/halfedge.rs:145-158 *)
  Definition inserter c m (inwards : bool) (origin : nat) : res (option nat) :=
    let* x := m_vertex m origin in
    match v_edge x with
    | None => Ok None
    | Some _ =>
        let* r := if inwards then ingoing_boundary_edge c m origin
                  else outgoing_boundary_edge c m origin in
        let* e := unwrap r in Ok (Some e)
    end.

  (** src/halfedge/mesh/builder/halfedge.rs:102-191 *)
  Definition insert_edge_between c m (o0 : nat) (ep0 : EP) (o1 : nat) (ep1 : EP)
    : res (mesh * nat * nat) :=
    dassert c (Ok (d_has (verts m) o0))
    (dassert c (Ok (d_has (verts m) o1))
    (dassert c (let* s := shared_edge c m o0 o1 in Ok (is_none s))
    (dassert c (let* s := shared_edge c m o1 o0 in Ok (is_none s))
      (let* next0 := inserter c m false o1 in
       let* prev0 := inserter c m true o0 in
       let* next1 := inserter c m false o0 in
       let* prev1 := inserter c m true o1 in
       let* (m1, e0, e1) := insert_pair c m next0 prev0 o0 None ep0 next1 prev1 o1 None ep1 in
       let* m2 := match next0 with Some n => set_prev m1 n e0 | None => set_vedge m1 o1 (Some e1) end in
       let* m3 := match prev0 with Some p => set_next m2 p e0 | None => Ok m2 end in
       let* m4 := match next1 with Some n => set_prev m3 n e1 | None => set_vedge m3 o0 (Some e0) end in
       let* m5 := match prev1 with Some p => set_next m4 p e1 | None => Ok m4 end in
       Ok (m5, e0, e1))))).

  (** src/halfedge/mesh/builder/semi.rs:40-106 [insert_edge_no_update] (as called with [Some] ids) *)
  Definition insert_edge_no_update c m (next1 prev1 o1 : nat) (ep1 : EP) (next2 prev2 o2 : nat)
    (ep2 : EP) : res (mesh * nat * nat) :=
    dassert c (Ok (d_has (verts m) o1))
    (dassert c (Ok (d_has (verts m) o2))
    (dassert c (let* n := next_id m prev1 in Ok (n =? next2))
    (dassert c (let* n := next_id m prev2 in Ok (n =? next1))
    (dassert c (let* o := origin_id m next2 in
                if o =? o1 then let* t := target_id m prev1 in Ok (o1 =? t) else Ok false)
    (dassert c (let* o := origin_id m next1 in
                if o =? o2 then let* t := target_id m prev2 in Ok (o2 =? t) else Ok false)
    (dassert c (let* s := shared_edge c m o1 o2 in Ok (is_none s))
    (dassert c (let* s := shared_edge c m o2 o1 in Ok (is_none s))
      (insert_pair c m (Some next1) (Some prev1) o1 None ep1 (Some next2) (Some prev2) o2 None ep2)))))))).

  (** the relinking shared by [insert_edge] and [insert_edge_no_check] *)
  Definition relink m (inside outside oi oo e1 e2 : nat) : res mesh :=
    let* m1 := set_prev m oi e1 in
    let* m2 := set_prev m1 oo e2 in
    let* m3 := set_next m2 inside e1 in
    set_next m3 outside e2.

  (** src/halfedge/mesh/builder/halfedge.rs:193-221 *)
  Definition insert_edge c m (inside : nat) (ep1 : EP) (outside : nat) (ep2 : EP)
    : res (mesh * nat * nat) :=
    let* _ := m_edge m inside in
    let* _ := m_edge m outside in
    let* v := g_target m inside in
    let* w := g_target m outside in
    dassert c (same_face_back m inside w)
    (dassert c (same_face_back m outside v)
      (let* oi := g_next m outside in
       let* oo := g_next m inside in
       let* (m1, e1, e2) := insert_edge_no_update c m oi inside v ep1 oo outside w ep2 in
       let* m2 := relink m1 inside outside oi oo e1 e2 in
       dassert c (let* p := g_prev m2 e1 in let* n := next_id m2 p in Ok (n =? e1))
       (dassert c (let* p := g_next m2 e1 in let* n := prev_id m2 p in Ok (n =? e1))
       (dassert c (let* p := g_prev m2 e2 in let* n := next_id m2 p in Ok (n =? e2))
       (dassert c (let* p := g_next m2 e2 in let* n := prev_id m2 p in Ok (n =? e2))
         (Ok (m2, e1, e2))))))).

  (** src/halfedge/mesh/builder/semi.rs:12-38 *)
  Definition insert_edge_no_check c m (inside : nat) (ep1 : EP) (outside : nat) (ep2 : EP)
    : res (mesh * nat * nat) :=
    let* _ := m_edge m inside in
    let* _ := m_edge m outside in
    let* v := g_target m inside in
    let* w := g_target m outside in
    let* oi := g_next m outside in
    let* oo := g_next m inside in
    let* (m1, e1, e2) :=
      insert_pair c m (Some oi) (Some inside) v None ep1 (Some oo) (Some outside) w None ep2 in
    let* m2 := relink m1 inside outside oi oo e1 e2 in
    Ok (m2, e1, e2).

  (** [edges_face_mut(..).for_each(|e| e.set_face(f))], src/halfedge/edge/iterator.rs:108-153 *)
  Fixpoint set_face_loop c m (f first cur : nat) (fl : nat) : res mesh :=
    let* m1 := set_face c m cur (Some f) in
    match fl with
    | 0 => Diverge
    | S k =>
        let* n := g_next m1 cur in
        if n =? first then Ok m1 else set_face_loop c m1 f first n k
    end.

  (** [faces.push(HalfEdgeFaceImpl::new(e, curved, fp))], src/halfedge/face/mod.rs:131-139 *)
  Definition push_face c m (e : nat) (curved : bool) (fp : FP) : res (mesh * nat) :=
    assert (negb (e =? capE c))
      (let* (d, f) := d_push (capF c) (faces m) (mkF e curved fp) in
       Ok (mkM (edges m) (verts m) d, f)).

  (** src/halfedge/mesh/builder/builder.rs:88-95 *)
  Definition close_hole c m (e : nat) (fp : FP) (curved : bool) : res (mesh * nat) :=
    let* (m1, f) := push_face c m e curved fp in
    let* _ := m_edge m1 e in
    let* m2 := set_face_loop c m1 f e e (fuel m1) in
    Ok (m2, f).

  (** src/halfedge/mesh/builder/halfedge.rs:247-267 *)
  Definition close_face c m (inside : nat) (ep1 : EP) (outside : nat) (ep2 : EP) (fp : FP)
    (curved : bool) : res (mesh * nat * nat * nat) :=
    let* (m1, e1, e2) := insert_edge c m inside ep1 outside ep2 in
    let* (m2, f) := close_hole c m1 inside fp curved in
    Ok (m2, f, e1, e2).

  (** src/halfedge/mesh/builder/halfedge.rs:269-302 *)
  Definition close_face_vertices c m (prev : nat) (ep1 : EP) (from : nat) (ep2 : EP) (to : nat)
    (fp : FP) (curved : bool) : res (mesh * nat * nat * nat) :=
    let* s := shared_edge c m prev from in
    let* inside := unwrap s in
    let good e :=
      let* b := is_boundary_self m e in
      if b then let* o := origin_id m inside in same_face m e o else Ok false in
    dassert c (let* l := edges_in c m to in
               let* bs := mapM good l in
               Ok (exactly_one (filter (fun b => b) bs)))
      (let* r := edges_in_find c m to good in
       let* outside := unwrap r in
       close_face c m inside ep1 outside ep2 fp curved).

  (** src/halfedge/mesh/builder/builder.rs:74-86; [FaceBasics::edges] starts at
      [mesh.edge(face.edge)] *)
  Definition remove_face c m (f : nat) : res (mesh * FP) :=
    let* x := m_face m f in
    let* l := edges_face m (f_edge x) in
    let* m1 := foldM (fun m e => delete_face c m e) l m in
    let* d := d_delete (faces m1) f in
    Ok (mkM (edges m1) (verts m1) d, f_pay x).

  (** the loop body of [insert_vertices_into_edge], src/halfedge/mesh/builder/builder.rs:131-143 *)
  Definition ive_step c (e : nat) (f1 f2 : option nat)
    (s : mesh * nat * nat * nat * bool) (p : EP * EP * VP)
    : res (mesh * nat * nat * nat * bool) :=
    let '(m, current, current_twin, last_v, first) := s in
    let '(ep1, ep2, vp) := p in
    let* t := twin_id m current in
    let* (m1, v, e1, e2) := add_vertex_via_edge c m current t vp ep1 ep2 in
    let* m2 := set_face c m1 e1 f1 in
    let* m3 := set_face c m2 e2 f2 in
    let* m4 := if first then let* o := origin_id m3 e in set_vedge m3 o (Some e1) else Ok m3 in
    Ok (m4, e1, e2, v, false).

  (** src/halfedge/mesh/builder/builder.rs:119-152 *)
  Definition insert_vertices_into_edge c m (e : nat) (ps : list (EP * EP * VP)) : res (mesh * nat) :=
    let* tw := twin_id m e in
    let* current := prev_id m e in
    let* current_twin := next_id m tw in
    let* f1 := face_id m e in
    let* f2 := face_id m tw in
    let* last_v := origin_id m e in
    let* (m1, current, current_twin, last_v, _) :=
      foldM (ive_step c e f1 f2) ps (m, current, current_twin, last_v, true) in
    let* m2 := set_next m1 current e in
    let* m3 := set_prev m2 e current in
    let* m4 := set_prev m3 current_twin tw in
    let* m5 := set_next m4 tw current_twin in
    let* m6 := set_origin m5 e last_v in
    Ok (m6, e).

  (** src/halfedge/edge/halfedge.rs:133-172 [HalfEdge::flip] *)
  Definition flip_edge m (e : nat) : res mesh :=
    let* origin := origin_id m e in
    let* target := target_id m e in
    let* x := m_edge m e in
    let tw := e_twin x in
    let* y := m_edge m tw in
    let* m1 := upd_edge m e (fun z => mkE (e_next y) (e_twin z) (e_prev y) target (e_face y) (e_pay z)) in
    let* m2 := set_prev m1 (e_next y) e in
    let* m3 := set_next m2 (e_prev y) e in
    let* m4 := upd_edge m3 tw (fun z => mkE (e_next x) (e_twin z) (e_prev x) origin (e_face x) (e_pay z)) in
    let* m5 := set_prev m4 (e_next x) tw in
    let* m6 := set_next m5 (e_prev x) tw in
    let* m7 := set_vedge m6 origin (Some tw) in
    let* m8 := set_vedge m7 target (Some e) in
    let* m9 := match e_face x with Some f => set_fedge m8 f tw | None => Ok m8 end in
    match e_face y with Some f => set_fedge m9 f e | None => Ok m9 end.

  Section Defaults.
    (** [T::EP::default()], [T::FP::default()] *)
    Variable (dE : EP) (dF : FP).

    (** the loop of [insert_path], src/halfedge/mesh/builder/builder.rs:174-179 *)
    Definition path_step c (s : mesh * nat * nat) (pos : VP) : res (mesh * nat * nat) :=
      let '(m, input, output) := s in
      let* (m1, _, _, _) := add_vertex_via_edge c m input output pos dE dE in
      let* n := g_next m1 input in
      let* t := twin_id m1 n in
      Ok (m1, n, t).

    (** src/halfedge/mesh/builder/builder.rs:161-182. [first] is a clone taken before the loop. *)
    Definition insert_path c m (vps : list VP) : res (mesh * nat * nat) :=
      match vps with
      | p0 :: p1 :: rest =>
          let* (m1, v0, v) := add_isolated_edge c m p0 dE p1 dE in
          let* s := shared_edge c m1 v0 v in
          let* first := unwrap s in
          let* ft := twin_id m1 first in
          let* (m2, input, _) := foldM (path_step c) rest (m1, first, ft) in
          Ok (m2, ft, input)
      | _ => Panic
      end.

    (** src/halfedge/mesh/builder/builder.rs:191-198 *)
    Definition insert_loop c m (vps : list VP) : res (mesh * nat) :=
      let* (m1, first, last) := insert_path c m vps in
      let* (m2, _, _) := insert_edge c m1 first dE last dE in
      Ok (m2, first).

    (** src/halfedge/primitives/mod.rs:16-21 *)
    Definition insert_polygon c m (vps : list VP) : res (mesh * nat) :=
      let* (m1, first) := insert_loop c m vps in
      let* (m2, _) := close_hole c m1 first dF false in
      let* t := twin_id m2 first in
      Ok (m2, t).

    (** src/halfedge/primitives/mod.rs:23-27 *)
    Definition insert_dihedron c m (vps : list VP) : res (mesh * nat) :=
      let* (m1, first) := insert_polygon c m vps in
      let* t := twin_id m1 first in
      let* (m2, _) := close_hole c m1 t dF false in
      Ok (m2, first).
  End Defaults.
End Mesh.
