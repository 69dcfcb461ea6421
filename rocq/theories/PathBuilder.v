(** The path builder of src/mesh/mesh/path_builder.rs and the import of an SVG path built on it
    (src/extensions/svg/svg.rs).

    Simplifications: the builder borrows the mesh, so the two are passed side by side. The stored
    transform is always the default one (its setters are private and unused), so the payload of a
    new vertex is taken as it is and a position is identified with the payload [from_pos] makes of
    it. [same] is the comparison [vertex.pos() == v]. *)
From Coq Require Import List Arith Bool.
From Verif Require Import Base DVec Mesh.
Import ListNotations.
Set Implicit Arguments.
Unset Strict Implicit.

(** src/mesh/mesh/path_builder.rs:12-30 [PathBuilder] without [mesh] and [transform];
    [None] for a vertex is [IndexType::max()] *)
Record pathb := mkPB {
  p_closed : bool;
  p_face : bool;
  p_sv : option nat;
  p_cv : option nat;
  p_se : option (nat * nat);
  p_ce : option (nat * nat)
}.

(** The segments of a path: src/extensions/svg/svg.rs:55-78. [SCurve] is [QuadTo] or [CubicTo]; its
    function is what [set_curve_type] does to the payload of the edge. *)
Inductive seg {VP EP : Type} :=
| SMove (p : VP)
| SLine (p : VP)
| SCurve (k : EP -> EP) (p : VP)
| SClose.
Arguments seg : clear implicits.

Section PathBuilder.
  Context {VP EP FP : Type}.
  Notation mesh := (mesh VP EP FP).
  Implicit Types (c : cfg) (m : mesh) (b : pathb).
  Variable (dE : EP) (dF : FP) (same : VP -> VP -> bool).

  (** path_builder.rs:37-50 [new] *)
  Definition p_new : pathb := mkPB false false None None None None.

  (** path_builder.rs:145-166 [start_at_edge] *)
  Definition p_start_at_edge m (e : nat) : res pathb :=
    let* pe := prev_id m e in
    let* v := target_id m e in
    Ok (mkPB false false (Some v) (Some v) (Some (e, pe)) (Some (e, pe))).

  (** path_builder.rs:73-93 [start_at] *)
  Definition p_start_at m (v : nat) : res pathb :=
    let* oe := v_edge_get m v in
    match oe with
    | Some e => let* pe := prev_id m e in p_start_at_edge m pe
    | None => Ok (mkPB false false (Some v) (Some v) None None)
    end.

  (** path_builder.rs:62-70 [start_ex] *)
  Definition p_start c m (vp : VP) : res (mesh * pathb) :=
    let* (m1, v) := add_vertex c m vp in
    let* b := p_start_at m1 v in
    Ok (m1, b).

  (** path_builder.rs:317-331 [move_to_new] *)
  Definition p_move c m b (vp : VP) : res (mesh * pathb) :=
    assert (is_none (p_sv b))
    (assert (is_none (p_se b))
    (assert (is_none (p_cv b))
      (let* (m1, v) := add_vertex c m vp in
       Ok (m1, mkPB false (p_face b) (Some v) (Some v) (p_se b) (p_ce b))))).

  (** path_builder.rs:391-424 [line_to_ex] *)
  Definition p_line_to c m b (v : nat) (ep0 ep1 : EP) : res (mesh * pathb) :=
    assert (negb (p_closed b))
      (let closed := oeqb (p_sv b) (Some v) in
       match p_ce b with
       | Some _ =>
           let* o := unwrap (p_cv b) in
           let* (m1, e0, e1) := insert_edge_between c m o ep0 v ep1 in
           Ok (m1, mkPB closed (p_face b) (p_sv b) (Some v) (p_se b) (Some (e0, e1)))
       | None =>
           assert (is_none (p_se b))
           (assert (oeqb (p_sv b) (p_cv b))
             (let* o := unwrap (p_cv b) in
              let* (m1, e0, e1) := insert_edge_between c m o ep0 v ep1 in
              Ok (m1, mkPB closed (p_face b) (p_sv b) (Some v) (Some (e1, e0)) (Some (e0, e1)))))
       end).

  (** path_builder.rs:335-344 [line_ex]; with default payloads :282-292 [line] *)
  Definition p_line c m b (vp : VP) (ep0 ep1 : EP) : res (mesh * pathb) :=
    let* (m1, v) := add_vertex c m vp in
    p_line_to c m1 b v ep0 ep1.

  (** path_builder.rs:428-442, 446-466 [quad_to], [cubic_to] *)
  Definition p_curve_to c m b (k : EP -> EP) (v : nat) : res (mesh * pathb) :=
    let* (m1, b1) := p_line_to c m b v dE dE in
    let* (e, _) := unwrap (p_ce b1) in
    let* m2 := upd_edge m1 e
      (fun x => mkE (e_next x) (e_twin x) (e_prev x) (e_origin x) (e_face x) (k (e_pay x))) in
    Ok (m2, b1).

  (** path_builder.rs:208-262 [close]. Returns [None] for [IndexType::max()]. *)
  Definition p_close c m b (fp : FP) : res (mesh * pathb * option nat) :=
    if p_closed b then
      let* (s, _) := unwrap (p_se b) in
      let* (m1, f) := close_hole c m s fp false in
      Ok (m1, mkPB (p_closed b) true (p_sv b) (p_cv b) (p_se b) (p_ce b), Some f)
    else
      let b1 := mkPB true true (p_sv b) (p_cv b) (p_se b) (p_ce b) in
      match p_ce b with
      | None => assert (is_none (p_se b)) (assert (oeqb (p_sv b) (p_cv b)) (Ok (m, b1, None)))
      | Some (ci, co) =>
          match p_se b with
          | None => Panic
          | Some (si, _) =>
              let* l := edges_face m ci in
              let* e := unwrap (find (fun e => (e =? co) || (e =? si)) l) in
              let* (m1, b2) :=
                if e =? co then
                  let* sv := unwrap (p_sv b) in p_line_to c m b1 sv dE dE
                else Ok (m, b1) in
              let* (m2, f) := close_hole c m1 si fp false in
              Ok (m2, b2, Some f)
          end
      end.

  (** path_builder.rs:265-279 [add_vertex_autoclose] *)
  Definition p_autoclose c m b (vp : VP) : res (mesh * nat) :=
    assert (negb (p_closed b))
      (let* sv := unwrap (p_sv b) in
       let* x := m_vertex m sv in
       if same (v_pay x) vp then Ok (m, sv) else add_vertex c m vp).

  (** svg.rs:54-79, one round of the loop *)
  Definition import_seg c (s : mesh * pathb * bool) (x : seg VP EP) : res (mesh * pathb * bool) :=
    let '(m, b, first) := s in
    match x with
    | SMove p => assert first (let* (m1, b1) := p_move c m b p in Ok (m1, b1, false))
    | SLine p =>
        let* (m1, v) := p_autoclose c m b p in
        let* (m2, b2) := p_line_to c m1 b v dE dE in Ok (m2, b2, false)
    | SCurve k p =>
        let* (m1, v) := p_autoclose c m b p in
        let* (m2, b2) := p_curve_to c m1 b k v in Ok (m2, b2, false)
    | SClose => let* (m1, b1, _) := p_close c m b dF in Ok (m1, b1, false)
    end.

  (** svg.rs:34-84 [import_path] of a visible path *)
  Definition import_path c m (segs : list (seg VP EP)) : res mesh :=
    let* (m1, b1, _) := foldM (import_seg c) segs (m, p_new, true) in
    assert (negb (p_face b1) || p_closed b1)
      (if p_face b1 then Ok m1
       else let* (m2, _, _) := p_close c m1 b1 dF in Ok m2).
End PathBuilder.
