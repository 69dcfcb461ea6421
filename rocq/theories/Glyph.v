(** Drawing the outlines of glyphs: src/mesh/mesh/fonts.rs, over an arbitrary ring.

    The font file is given by what the font library returns for it: the outline of a glyph, its advance, the
    kerning of two glyphs and the scale factor. *)
From Coq Require Import List Arith Bool.
From Verif Require Import Base DVec Mesh Alg Transform.
Import ListNotations.
Set Implicit Arguments.
Unset Strict Implicit.

(** [ab_glyph::OutlineCurve] *)
Inductive outline {R : Type} :=
| OLine (p0 p1 : vec R)
| OQuad (p0 p1 p2 : vec R)
| OCubic (p0 p1 p2 p3 : vec R).
Arguments outline : clear implicits.

Section Glyph.
  Variables (R : Type) (zero : R) (add mul : R -> R -> R).
  Context {FP : Type}.
  Notation vec := (vec R).
  Notation mesh := (mesh (pnu R) (curve R) FP).
  Implicit Types (m : mesh).
  Variable dF : FP.
  (** [==] of two points *)
  Variable same : vec -> vec -> bool.

  (** fonts.rs:105-109: the variables of the loop; [None] for a vertex is [IndexType::max()] *)
  Record pen := mkPen {
    n_first : option vec;
    n_cur : option vec;
    n_cv : option nat;
    n_sv : option nat;
    n_pv : option nat
  }.
  Definition pen_up : pen := mkPen None None None None None.

  (** fonts.rs:112-131 *)
  Definition split (o : outline R) : vec * vec * option vec * option vec :=
    match o with
    | OLine p0 p1 => (p0, p1, None, None)
    | OQuad p0 p1 p2 => (p0, p2, Some p1, None)
    | OCubic p0 p1 p2 p3 => (p0, p3, Some p1, Some p2)
    end.

  (** fonts.rs:141 and [p * scale + trans] *)
  Definition place (scale x : R) (p : vec) : vec :=
    fun i => add (mul (p i) scale) (match i with 0 => x | _ => zero end).

  (** fonts.rs:176-186 *)
  Definition g_curve (pl : vec -> vec) m (e : nat) (c0 c1 : option vec) : res mesh :=
    let set k := upd_edge m e (fun x => mkE (e_next x) (e_twin x) (e_prev x) (e_origin x) (e_face x) k) in
    match c1 with
    | Some c1 => let* c0 := unwrap c0 in set (Cubic (pl c0) (pl c1))
    | None => match c0 with Some c0 => set (Quadratic (pl c0)) | None => Ok m end
    end.

  (** fonts.rs:111-187, the body of the loop; [pl] is [|p| p * scale + trans] *)
  Definition g_segment (c : cfg) (pl : vec -> vec) (s : mesh * pen) (o : outline R) : res (mesh * pen) :=
    let '(m, n) := s in
    let '(p0, p1, c0, c1) := split o in
    if same p0 p1 && is_none c0 && is_none c1 then Ok (m, n) else
    let* (m1, n1, e) :=
      match n_cur n with
      | Some _ =>
          let* first := unwrap (n_first n) in
          let* cv := unwrap (n_cv n) in
          if same first p1 then
            let* pv := unwrap (n_pv n) in
            let* sv := unwrap (n_sv n) in
            let* (m1, _, _, e) := close_face_vertices c m pv (Linear R) cv (Linear R) sv dF false in
            Ok (m1, pen_up, e)
          else
            let* (m1, v, e, _) := add_vertex_via_vertex c m cv (u_from_pos zero (pl p1)) (Linear R) (Linear R) in
            Ok (m1, mkPen (n_first n) (Some p1) (Some v) (n_sv n) (n_cv n), e)
      | None =>
          let* (m1, v0, v1) :=
            add_isolated_edge c m (u_from_pos zero (pl p0)) (Linear R) (u_from_pos zero (pl p1)) (Linear R) in
          let* r := shared_edge c m1 v0 v1 in
          let* e := unwrap r in
          Ok (m1, mkPen (Some p0) (Some p1) (Some v1) (Some v0) (Some v0), e)
      end in
    let* m2 := g_curve pl m1 e c0 c1 in
    Ok (m2, n1).

  (** fonts.rs:77-188 [draw_glyph_outlines] *)
  Definition draw_glyph (c : cfg) (scale x : R) m (ol : option (list (outline R))) : res mesh :=
    match ol with
    | None => Ok m
    | Some l => let* (m1, _) := foldM (g_segment c (place scale x)) l (m, pen_up) in Ok m1
    end.

  Section Text.
    Context {G : Type}.
    Variables (glyph : G -> option (list (outline R))) (kern : G -> G -> R) (advance : G -> R).

    (** fonts.rs:54-73, the body of the loop over the characters *)
    Definition text_step (c : cfg) (scale : R) (s : mesh * R * option G) (g : G) : res (mesh * R * option G) :=
      let '(m, x, last) := s in
      let x1 := match last with Some l => add x (kern l g) | None => x end in
      let* m1 := draw_glyph c scale x1 m (glyph g) in
      Ok (m1, add x1 (advance g), Some g).

    (** fonts.rs:42-74 [layout_text] *)
    Definition layout_text (c : cfg) (scale : R) m (text : list G) : res mesh :=
      let* (m1, _, _) := foldM (text_step c scale) text (m, zero, None) in Ok m1.
  End Text.
End Glyph.
