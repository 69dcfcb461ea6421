(** Model of the composite builder operations: apex, lofts, extrusions and the solids made from
    them (src/operations/loft.rs, src/operations/extrude.rs, src/primitives/prismatoid.rs,
    src/primitives/sphere.rs).

    Iterators of payloads are lists. Vertex positions are payloads; the transformation applied by
    an extrusion is a function on payloads. The transformation of [insert_prism] is computed from
    the normal of a face: a parameter that may panic (the planarity check of a debug build). *)
From Coq Require Import List Arith Bool.
From Verif Require Import Base DVec Mesh.
Import ListNotations.
Set Implicit Arguments.
Unset Strict Implicit.

Section Solid.
  Context {VP EP FP : Type}.
  Notation mesh := (mesh VP EP FP).
  Implicit Types (m : mesh).
  (** [T::EP::default()], [T::FP::default()] *)
  Variable (dE : EP) (dF : FP).

  (** [add_vertex_via_edge_default], src/halfedge/mesh/builder/builder.rs:61-72 *)
  Definition via c m (i o : nat) (y : VP) : res (mesh * nat * nat * nat) :=
    add_vertex_via_edge c m i o y dE dE.
  (** [close_face_default], src/halfedge/mesh/builder/halfedge.rs:304-322, with [curved = false] *)
  Definition cface c m (i o : nat) : res mesh :=
    let* (m1, _, _, _) := close_face c m i dE o dE dF false in Ok m1.
  (** [close_hole(e, Default::default(), false)] *)
  Definition chole c m (e : nat) : res mesh :=
    let* (m1, _) := close_hole c m e dF false in Ok m1.

  (** The loop of [fill_hole_apex], src/operations/extrude.rs:133-140. Every round but the last
      makes a face, so [capF c] rounds always suffice. *)
  Fixpoint apex_loop c m (origin input fl : nat) : res (mesh * nat) :=
    match fl with
    | O => Diverge
    | S fl =>
        let* o := origin_id m input in
        if o =? origin then Ok (m, input)
        else
          let* i := prev_id m input in
          let* n := g_next m i in
          let* nn := next_id m n in
          let* m1 := cface c m nn i in
          apex_loop c m1 origin i fl
    end.
  (** src/operations/extrude.rs:127-143 *)
  Definition fill_hole_apex c m (start : nat) (apex : VP) : res (mesh * nat) :=
    let* origin := origin_id m start in
    let* input := prev_id m start in
    let* (m1, v, _, _) := via c m input start apex in
    let* (m2, i) := apex_loop c m1 origin input (S (capF c)) in
    let* m3 := chole c m2 i in
    Ok (m3, v).

  (** The [while] loop of [loft_tri_back], src/operations/loft.rs:47-67; [vps] is [pos] followed by
      the rest of the iterator. *)
  Fixpoint tri_back_loop c m (shift : bool) (vps : list VP) (first : bool) (input ret : nat)
    : res (mesh * nat) :=
    match vps with
    | [] => Ok (m, ret)
    | p :: rest =>
        let* output := next_id m input in
        let* (m1, _, _, _) := via c m input output p in
        let* input_next := next_id m1 input in
        let* i := prev_id m1 input in
        let* (m2, ret) :=
          if first then let* r := prev_id m1 output in Ok (m1, r)
          else let* m2 := cface c m1 output input_next in Ok (m2, ret) in
        let* m3 := if (match rest with [] => shift | _ => true end)
                   then cface c m2 input_next i else Ok m2 in
        tri_back_loop c m3 shift rest false i ret
    end.
  (** src/operations/loft.rs:22-70 *)
  Definition loft_tri_back c m (start : nat) (shift : bool) (vps : list VP) : res (mesh * nat) :=
    match shift, vps with
    | true, p :: rest =>
        let* output := next_id m start in
        let* (m1, _, _, _) := via c m start output p in
        let* ret := prev_id m1 output in
        tri_back_loop c m1 shift rest false start ret
    | _, _ => tri_back_loop c m shift vps true start start
    end.
  (** src/operations/loft.rs:72-78 *)
  Definition loft_tri_back_closed c m (start : nat) (vps : list VP) : res (mesh * nat) :=
    let* (m1, e) := loft_tri_back c m start false vps in
    let* outside := prev_id m1 e in
    let* n := g_next m1 e in
    let* nn := next_id m1 n in
    let* m2 := cface c m1 nn e in
    let* n2 := next_id m2 e in
    let* m3 := cface c m2 n2 outside in
    Ok (m3, e).

  (** The [while] loop of [loft_tri], src/operations/loft.rs:110-140 *)
  Fixpoint tri_loop c m (shift : bool) (vps : list VP) (first : bool) (output ret : nat)
    : res (mesh * nat) :=
    match vps with
    | [] => Ok (m, ret)
    | p :: rest =>
        let* input := prev_id m output in
        let* (m1, _, _, _) := via c m input output p in
        let* (m2, ret) :=
          if first then let* r := prev_id m1 output in Ok (m1, r)
          else
            let* n := next_id m1 input in
            let* q := prev_id m1 input in
            let* m2 := cface c m1 n q in Ok (m2, ret) in
        let* new_output := next_id m2 output in
        let* m3 := if (match rest with [] => shift | _ => true end)
                   then
                     let* q := g_prev m2 output in
                     let* qq := prev_id m2 q in
                     cface c m2 output qq
                   else Ok m2 in
        tri_loop c m3 shift rest false new_output ret
    end.
  (** src/operations/loft.rs:91-143 *)
  Definition loft_tri c m (start : nat) (shift : bool) (vps : list VP) : res (mesh * nat) :=
    match shift, vps with
    | true, p :: rest =>
        let* input := prev_id m start in
        let* (m1, _, _, _) := via c m input start p in
        let* ret := prev_id m1 start in
        tri_loop c m1 shift rest false start ret
    | _, _ => tri_loop c m shift vps true start start
    end.
  (** src/operations/loft.rs:147-154 *)
  Definition loft_tri_closed c m (start : nat) (vps : list VP) : res (mesh * nat) :=
    let* (m1, e) := loft_tri c m start false vps in
    let* t := g_twin m1 e in
    let* inside := prev_id m1 t in
    let* q := g_prev m1 inside in
    let* outside := prev_id m1 q in
    let* m2 := cface c m1 inside outside in
    let* t2 := twin_id m2 e in
    let* m3 := cface c m2 t2 outside in
    let* n := g_next m3 outside in
    let* r := next_id m3 n in
    Ok (m3, r).

  (** [for _ in 2..n] of [loft_polygon_back], src/operations/loft.rs:195-208: insert [k] vertices
      one after the other; [inr]: the iterator is exhausted, the caller returns. *)
  Fixpoint pb_chain c m (k start inside ret : nat) (vps : list VP)
    : res ((mesh * nat * nat * list VP) + (mesh * nat)) :=
    match k with
    | O => Ok (inl (m, inside, ret, vps))
    | S k =>
        match vps with
        | [] => Ok (inr (m, ret))
        | p :: rest =>
            let* o := next_id m inside in
            let* (m1, _, e1, _) := via c m inside o p in
            let* ret := if ret =? start then twin_id m1 e1 else Ok ret in
            pb_chain c m1 k start e1 ret rest
        end
    end.
  (** [for _ in 2..m], lines 210-212 *)
  Fixpoint back_steps m (k input : nat) : res nat :=
    match k with
    | O => Ok input
    | S k => let* i := prev_id m input in back_steps m k i
    end.
  (** The [loop] of [loft_polygon_back], src/operations/loft.rs:191-229. Every round but the last
      uses up a payload. *)
  Fixpoint pb_loop c m (n k start sv input ret : nat) (vps : list VP) (fl : nat) : res (mesh * nat) :=
    match fl with
    | O => Diverge
    | S fl =>
        let* input := prev_id m input in
        let* nx1 := g_next m input in
        let* inside := next_id m nx1 in
        let* s := pb_chain c m (n - 2) start inside ret vps in
        match s with
        | inr r => Ok r
        | inl (m, inside, ret, vps) =>
            let* input := back_steps m (k - 2) input in
            match vps with
            | [] =>
                let* t := target_id m input in
                if sv =? t then
                  let* q := prev_id m input in
                  let* m1 := cface c m inside q in Ok (m1, ret)
                else Ok (m, ret)
            | p :: rest =>
                let* o := next_id m input in
                let* (m1, _, _, _) := via c m input o p in
                let* o1 := next_id m1 input in
                let* m2 := cface c m1 inside o1 in
                let* ret := if ret =? start then let* q := g_next m2 inside in twin_id m2 q else Ok ret in
                pb_loop c m2 n k start sv input ret rest fl
            end
        end
    end.
  (** src/operations/loft.rs:168-230; [k] is the number [m] of boundary vertices per face *)
  Definition loft_polygon_back c m (start n k : nat) (vps : list VP) : res (mesh * nat) :=
    assert (2 <=? n) (assert (2 <=? k) (
      let* sv := target_id m start in
      match vps with
      | [] => pb_loop c m n k start sv start start [] 1
      | p :: rest =>
          let* o := next_id m start in
          let* (m1, _, _, _) := via c m start o p in
          pb_loop c m1 n k start sv start start rest (S (length rest))
      end)).

  (** The [loop] of [loft_polygon], src/operations/loft.rs:263-313, with its provisional
      assertions [n == 2] and [m == 2], after which the two [for] loops are empty. *)
  Fixpoint pf_loop c m (n k start sv input ret : nat) (vps : list VP) : res (mesh * nat) :=
    let* input := next_id m input in
    assert (n =? 2) (
      let* q := g_prev m input in
      let* inside := prev_id m q in
      assert (k =? 2) (
        match vps with
        | [] =>
            let* o := origin_id m input in
            if sv =? o then
              let* q := prev_id m inside in
              let* m1 := cface c m input q in Ok (m1, ret)
            else Ok (m, ret)
        | p :: rest =>
            let* q := prev_id m input in
            let* (m1, _, _, _) := via c m q input p in
            let* q1 := g_prev m1 input in
            let* t := twin_id m1 q1 in
            let* q2 := prev_id m1 inside in
            let* m2 := cface c m1 t q2 in
            let* ret := if ret =? start then let* q := g_prev m2 inside in twin_id m2 q else Ok ret in
            pf_loop c m2 n k start sv input ret rest
        end)).
  (** src/operations/loft.rs:240-314 *)
  Definition loft_polygon c m (start n k : nat) (vps : list VP) : res (mesh * nat) :=
    assert (2 <=? n) (assert (2 <=? k) (
      let* sv := origin_id m start in
      match vps with
      | [] => pf_loop c m n k start sv start start []
      | p :: rest =>
          let* q := prev_id m start in
          let* (m1, _, _, _) := via c m q start p in
          pf_loop c m1 n k start sv start start rest
      end)).

  (** [e.origin(self).payload().transformed(&transform)] for the half-edges [l] *)
  Definition moved m (tr : VP -> VP) (l : list nat) : res (list VP) :=
    mapM (fun e => let* v := origin_id m e in let* x := m_vertex m v in Ok (tr (v_pay x))) l.

  (** src/operations/extrude.rs:40-54 *)
  Definition extrude c m (e : nat) (tr : VP -> VP) : res (mesh * nat) :=
    let* b := is_boundary_self m e in
    assert b (
      let* n := next_id m e in
      let* l := edges_face_back m n in
      let* vps := moved m tr l in
      let* (m1, start) := loft_polygon_back c m e 2 2 vps in
      let* m2 := chole c m1 start in
      Ok (m2, start)).
  (** src/operations/extrude.rs:57-65 *)
  Definition extrude_face c m (f : nat) (tr : VP -> VP) : res (mesh * nat) :=
    let* x := m_face m f in
    let* (m1, _) := remove_face c m f in
    extrude c m1 (f_edge x) tr.
  (** src/operations/extrude.rs:82-96 *)
  Definition extrude_tri c m (e : nat) (tr : VP -> VP) : res (mesh * nat) :=
    let* b := is_boundary_self m e in
    assert b (
      let* n := next_id m e in
      let* l := edges_face m n in
      let* vps := moved m tr l in
      let* (m1, start) := loft_tri_closed c m e vps in
      let* m2 := chole c m1 start in
      Ok (m2, start)).
  (** src/operations/extrude.rs:68-76 *)
  Definition extrude_tri_face c m (f : nat) (tr : VP -> VP) : res (mesh * nat) :=
    let* x := m_face m f in
    let* (m1, _) := remove_face c m f in
    extrude_tri c m1 (f_edge x) tr.
  (** [.circular_tuple_windows().map(|(a, b)| a.lerped(b, HALF))] followed by [rotate_right(1)],
      src/operations/extrude.rs:110-121: the midpoint of last and first comes first *)
  Fixpoint mids (mid : VP -> VP -> VP) (l : list VP) : list VP :=
    match l with
    | a :: (b :: _) as t => mid a b :: mids mid t
    | _ => []
    end.
  Definition mid_ring (mid : VP -> VP -> VP) (l : list VP) : list VP :=
    match l with
    | [] => []
    | a :: t => mid (last t a) a :: mids mid l
    end.
  (** src/operations/extrude.rs:102-126; [mid] is [lerped(.., HALF)] *)
  Definition extrude_tri2 c m (e : nat) (mid : VP -> VP -> VP) (tr : VP -> VP) : res (mesh * nat) :=
    let* b := is_boundary_self m e in
    assert b (
      let* n := next_id m e in
      let* l := edges_face m n in
      let* vps := moved m tr l in
      let* (m1, start) := loft_tri_closed c m e (mid_ring mid vps) in
      let* m2 := chole c m1 start in
      Ok (m2, start)).
  (** src/operations/extrude.rs:22-34 *)
  Definition extrude_boundary c m (tr : VP -> VP) : res mesh :=
    foldM (fun m f =>
      let* x := m_face m f in
      let* e := twin_id m (f_edge x) in
      let* b := is_boundary_self m e in
      if b then let* (m1, _) := extrude c m e tr in Ok m1 else Ok m) (map fst (d_iter (faces m))) m.

  (** src/primitives/prismatoid.rs:53-60; [shift m f] is the translation along the normal of the
      face [f] *)
  Definition insert_prism c m (vps : list VP) (shift : mesh -> nat -> res (VP -> VP)) : res (mesh * nat) :=
    let* (m1, first) := insert_polygon dE dF c m vps in
    let* t := g_twin m1 first in
    let* o := face_id m1 t in
    let* f := unwrap o in
    let* _ := m_face m1 f in
    let* tr := shift m1 f in
    extrude c m1 first tr.
  (** src/primitives/prismatoid.rs:75-87 *)
  Definition insert_antiprism c m (vps : list VP) (mid : VP -> VP -> VP)
    (shift : mesh -> nat -> res (VP -> VP)) : res (mesh * nat) :=
    let* (m1, first) := insert_polygon dE dF c m vps in
    let* o := face_id m1 first in
    let* f := unwrap o in
    let* _ := m_face m1 f in
    let* tr := shift m1 f in
    let* t := twin_id m1 first in
    extrude_tri2 c m1 t mid tr.
  (** src/primitives/prismatoid.rs:98-107 *)
  Definition insert_antiprism_iter c m (vps vps2 : list VP) : res (mesh * nat) :=
    let* (m1, first) := insert_polygon dE dF c m vps in
    let* (m2, e) := loft_tri_closed c m1 first vps2 in
    let* m3 := chole c m2 e in
    Ok (m3, e).
  (** src/primitives/prismatoid.rs:120-124 *)
  Definition insert_pyramid c m (base : list VP) (apex : VP) : res (mesh * nat) :=
    let* (m1, first) := insert_polygon dE dF c m base in
    let* (m2, _) := fill_hole_apex c m1 first apex in
    let* t := twin_id m2 first in
    Ok (m2, t).
  (** src/primitives/prismatoid.rs:134-146 *)
  Definition insert_frustum c m (base top : list VP) (smooth : bool) : res (mesh * nat) :=
    let* (m1, first) := insert_polygon dE dF c m base in
    let* (m2, e) := loft_polygon c m1 first 2 2 top in
    let* m3 := chole c m2 e in
    assert (negb smooth) (Ok (m3, e)).

  (** [prism], [antiprism], [antiprism_iter], [pyramid], [frustum], src/primitives/prismatoid.rs:63-67,
      90-94, 110-117, 127-131, 149-157 *)
  Definition fresh_mesh (r : res (mesh * nat)) : res mesh := let* (m, _) := r in Ok m.
  Definition prism c vps shift : res mesh := fresh_mesh (insert_prism c empty_mesh vps shift).
  Definition antiprism c vps mid shift : res mesh := fresh_mesh (insert_antiprism c empty_mesh vps mid shift).
  Definition antiprism_iter c vps vps2 : res mesh := fresh_mesh (insert_antiprism_iter c empty_mesh vps vps2).
  Definition pyramid c base apex : res mesh := fresh_mesh (insert_pyramid c empty_mesh base apex).
  Definition frustum c base top smooth : res mesh := fresh_mesh (insert_frustum c empty_mesh base top smooth).

  (** [circle_iter], src/primitives/prismatoid.rs:21-36: the [i]-th payload is [f i] *)
  Definition circle_iter (f : nat -> VP) (n : nat) : list VP := map f (seq 0 n).
  (** src/primitives/prismatoid.rs:243-254 *)
  Definition regular_frustum c (f1 f2 : nat -> VP) (n : nat) (smooth : bool) : res mesh :=
    frustum c (circle_iter f1 n) (circle_iter f2 n) smooth.
  Definition cylinder c (f1 f2 : nat -> VP) (n : nat) : res mesh := regular_frustum c f1 f2 n true.

  (** src/primitives/prismatoid.rs:160-184 *)
  Definition cuboid c (a0 a1 a2 a3 b0 b1 b2 b3 : VP) : res mesh :=
    let* (m1, e) := insert_polygon dE dF c empty_mesh [a0; a1; a2; a3] in
    let* (m2, t) := loft_polygon c m1 e 2 2 [b0; b1; b2; b3] in
    chole c m2 t.

  (** src/primitives/prismatoid.rs:229-240 with a base of any number of vertices (the code has
      four) *)
  Definition bipyramid c (base : list VP) (top bottom : VP) : res mesh :=
    let* (m1, e) := insert_pyramid c empty_mesh base top in
    let* o := face_id m1 e in
    let* f := unwrap o in
    let* (m2, _) := remove_face c m1 f in
    let* (m3, _) := fill_hole_apex c m2 e bottom in
    Ok m3.
  Definition regular_octahedron c (f : nat -> VP) (top bottom : VP) : res mesh :=
    bipyramid c (circle_iter f 4) top bottom.

  (** src/primitives/sphere.rs:33-69; [vp i j] is [make_vp(i, j)] *)
  Definition ring (vp : nat -> nat -> VP) (k i : nat) : list VP := map (vp i) (seq 0 k).
  Definition uv_sphere c (vp : nat -> nat -> VP) (n k : nat) : res mesh :=
    assert (2 <=? n) (assert (3 <=? k) (
      let* (m0, prev) := insert_loop dE c empty_mesh (ring vp k 1) in
      let* t := twin_id m0 prev in
      let* (m1, _) := fill_hole_apex c m0 t (vp 0 0) in
      let* (m2, prev) := foldM (fun s i => let '(m, prev) := s in
         loft_polygon_back c m prev 2 2 (ring vp k (i + 1))) (seq 1 (n - 2)) (m1, prev) in
      let* (m3, _) := fill_hole_apex c m2 prev (vp n 0) in
      Ok m3)).

  (** src/primitives/sphere.rs:128-160 *)
  Definition icosahedron c (a b : list VP) (top bottom : VP) : res mesh :=
    let* (m0, start) := insert_loop dE c empty_mesh a in
    let* (m1, _) := fill_hole_apex c m0 start top in
    let* t := twin_id m1 start in
    let* (m2, e) := loft_tri_closed c m1 t b in
    let* (m3, _) := fill_hole_apex c m2 e bottom in
    Ok m3.
End Solid.
