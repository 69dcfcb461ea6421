(** Model of [loop_subdivision] and [subdivision_frequency]. *)
From Coq Require Import List Arith Bool.
From Verif Require Import Base DVec Mesh.
Import ListNotations.
Set Implicit Arguments.

Section Subdivision.
  Context {VP EP FP : Type}.
  Notation mesh := (mesh VP EP FP).
  Implicit Types (c : cfg) (m : mesh).
  (** [T::EP::default()] *)
  Variable dE : EP.
  (** [VertexInterpolator::call], src/mesh/vertex/interpolator.rs:9-12; the three pairs of weight and
      vertex are given as a list *)
  Variable interp : mesh -> list (nat * nat) -> res VP.

  (** src/halfedge/mesh/builder/semi.rs:123-150 [subdivide_unsafe] *)
  Definition subdivide_unsafe c m (e : nat) (vp : VP) (ep : EP) : res (mesh * nat) :=
    let* x := m_edge m e in
    let* (m1, v) := alloc_vertex c m in
    let* (m2, n) := alloc_edge c m1 in
    let* m3 := insert_halfedge c m2 n v (e_face x) (Some e) (e_twin x) (Some (e_next x)) ep in
    let* m4 := set_vertex c m3 v (mkV (Some n) vp) in
    let* m5 := set_prev m4 (e_next x) n in
    let* m6 := set_next m5 e n in
    Ok (m6, n).

  (** semi.rs:157-173, the loop that looks for [other_new]. [other_old] is the twin of [e], [org] is
      [first_other_new_origin]. *)
  Fixpoint fixup_search m (e other_old org cur fl : nat) : res (option nat) :=
    match fl with
    | 0 => Diverge
    | S k =>
        let* t := twin_id m cur in
        if t =? e then Ok (Some cur) else
        let* t := g_twin m cur in
        let* n := g_next m t in
        let* o := origin_id m n in
        if negb (o =? org) then Ok None else
        let* p := prev_id m n in
        if p =? other_old then Ok None else
        fixup_search m e other_old org n k
    end.

  (** semi.rs:152-194 [subdivide_unsafe_try_fixup] *)
  Definition try_fixup c m (e : nat) (ep : EP) : res (mesh * option nat) :=
    let* x := m_edge m e in
    let* other_old := g_twin m e in
    let* cur := g_next m other_old in
    let* org := origin_id m cur in
    let* r := fixup_search m e other_old org cur (fuel m) in
    match r with
    | None => Ok (m, None)
    | Some other_new =>
        let* (m1, n) := alloc_edge c m in
        let* o := origin_id m1 other_new in
        let* m2 := insert_halfedge c m1 n o (e_face x) (Some e) other_old (Some (e_next x)) ep in
        let* m3 := set_twin m2 e other_new in
        let* m4 := set_twin m3 other_old n in
        let* m5 := set_prev m4 (e_next x) n in
        let* m6 := set_next m5 e n in
        Ok (m6, Some n)
    end.

  (** the weight of vertex [v] for the (cloned) edge [x], src/operations/subdivision.rs:73-99 *)
  Definition weight m (x : edge EP) (v : nat) : res (nat * nat) :=
    if v =? e_origin x then Ok (1, v) else
    let* n := m_edge m (e_next x) in
    Ok ((if v =? e_origin n then 1 else 0), v).

  (** src/operations/subdivision.rs:65-102, the body of [for i in 0..3]; [ex] is the cloned edge with
      its id, [vs] the three origins *)
  Definition split_edge c (vs : list nat) m (ex : nat * edge EP) : res mesh :=
    let* (m1, r) := try_fixup c m (fst ex) dE in
    match r with
    | Some _ => Ok m1
    | None =>
        let* ws := mapM (weight m1 (snd ex)) vs in
        let* vp := interp m1 ws in
        let* (m2, _) := subdivide_unsafe c m1 (fst ex) vp dE in
        Ok m2
    end.

  (** src/operations/subdivision.rs:110-118, the body of [for e in &edges] *)
  Definition cut_corner c (fp : FP) m (e : nat) : res mesh :=
    let* p := g_prev m e in
    let* pp := prev_id m p in
    let* (m1, _, _) := insert_edge_no_check c m e dE pp dE in
    let* (m2, _) := close_hole c m1 e fp false in
    Ok m2.

  (** src/operations/subdivision.rs:58-121, the body of [for face in &fs] *)
  Definition subdivide_face c m (f : nat) : res mesh :=
    let* x := m_face m f in
    let* l := edges_face m (f_edge x) in
    let* xs := mapM (m_edge m) l in
    assert (length l =? 3)
    (let* m1 := foldM (split_edge c (map (@e_origin _) xs)) (combine l xs) m in
     let* (m2, fp) := remove_face c m1 f in
     let* m3 := foldM (cut_corner c fp) l m2 in
     let* n := g_next m3 (hd 0 l) in
     let* t := twin_id m3 n in
     let* (m4, _) := close_hole c m3 t fp false in
     Ok m4).

  (** src/operations/subdivision.rs:53-125 [loop_subdivision] *)
  Definition loop_subdivision c m : res mesh :=
    foldM (subdivide_face c) (map fst (d_iter (faces m))) m.

  (** src/operations/subdivision.rs:8-39 [SubdivisionDescription] *)
  Record description := mkSD { sd_b : nat; sd_c : nat }.
  Definition sd_new (b c : nat) : res description := assert (1 <=? b) (Ok (mkSD b c)).
  Definition triangulation_number (d : description) : nat := sd_b d * sd_b d + sd_b d * sd_c d + sd_c d * sd_c d.

  (** src/operations/subdivision.rs:147-155 [while b > 1] *)
  Fixpoint frequency_loop c m (b fl : nat) : res mesh :=
    if 1 <? b then
      match fl with
      | 0 => Diverge
      | S k =>
          let* m1 := loop_subdivision c m in
          if b =? 1 then Ok m1 else
          assert (b mod 2 =? 0) (frequency_loop c m1 (b / 2) k)
      end
    else Ok m.

  (** src/operations/subdivision.rs:130-161 [subdivision_frequency] *)
  Definition subdivision_frequency c m (d : description) : res mesh :=
    assert (sd_c d =? 0)
    (assert (Nat.land (sd_b d) (sd_b d - 1) =? 0)
    (let* m1 := frequency_loop c m (sd_b d) (sd_b d) in
     dassert c (Ok (d_len (faces m1) =? d_len (faces m) * triangulation_number d)) (Ok m1))).
End Subdivision.
