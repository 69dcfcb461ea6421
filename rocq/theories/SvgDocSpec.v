(** Specification vocabulary for SVG documents: what is drawn, in the order of the document. *)
From Coq Require Import List Arith Bool.
From Verif Require Import Base DVec Mesh Spec MeshSpec BuildSpec PathBuilder PathBSpec SvgDoc.
Import ListNotations.
Set Implicit Arguments.
Unset Strict Implicit.

Section SvgDocSpec.
  Context {VP EP FP : Type}.
  Notation graph := (graph VP EP FP).
  Variable (dE : EP) (dF : FP) (same : VP -> VP -> bool).

  (** A closed outline: it starts at a point, runs through the strokes and returns with the last one. *)
  Record outline := mkOutline { o_start : VP; o_strokes : list (@stroke VP EP); o_last : @stroke VP EP; o_close : bool }.
  Definition o_segs (r : outline) : list (seg VP EP) :=
    SMove (o_start r) :: map s_seg (o_strokes r ++ [o_last r]) ++ (if o_close r then [SClose] else []).
  Definition o_ok (r : outline) : Prop :=
    2 <= length (o_strokes r) /\ Forall (fun x => same (o_start r) (snd x) = false) (o_strokes r) /\
    same (o_start r) (snd (o_last r)) = true.
  Definition o_size (r : outline) : nat := S (length (o_strokes r)).

  (** The visible outlines of the nodes in the order of the document. *)
  Inductive draws : list (node VP EP) -> list outline -> Prop :=
  | draws_nil : draws [] []
  | draws_group t cs ds rs ss : draws cs rs -> draws ds ss -> draws (NGroup t cs :: ds) (rs ++ ss)
  | draws_path t r ds rs : draws ds rs -> draws (NPath true t (o_segs r) :: ds) (r :: rs)
  | draws_hidden t segs ds rs : draws ds rs -> draws (NPath false t segs :: ds) rs.

  (** The outlines become polygons, one after the other. *)
  Inductive polygons : graph -> list outline -> list nat -> graph -> Prop :=
  | polygons_nil g : polygons g [] [] g
  | polygons_cons g g1 g2 r rs f fs es vs :
      ring_built g g1 es vs (o_start r :: map snd (o_strokes r)) [f] -> hole g1 es ->
      face_is g1 f (rev (map (tw g1) es)) dF false ->
      pays g1 es (map (s_pay dE) (o_strokes r ++ [o_last r])) ->
      pays g1 (map (tw g1) es) (repeat dE (length es)) ->
      polygons g1 rs fs g2 -> polygons g (r :: rs) (f :: fs) g2.

  (** A text or an image somewhere in the document. *)
  Inductive has_text : list (node VP EP) -> Prop :=
  | text_here ds : has_text (NText :: ds)
  | image_here ds : has_text (NImage :: ds)
  | text_group t cs ds : has_text cs -> has_text (NGroup t cs :: ds)
  | text_later d ds : has_text ds -> has_text (d :: ds).

  (** The same document up to the transformations. *)
  Inductive same_but_moved : list (node VP EP) -> list (node VP EP) -> Prop :=
  | moved_nil : same_but_moved [] []
  | moved_group t u cs cs' ds ds' : same_but_moved cs cs' -> same_but_moved ds ds' ->
      same_but_moved (NGroup t cs :: ds) (NGroup u cs' :: ds')
  | moved_path v t u segs ds ds' : same_but_moved ds ds' -> same_but_moved (NPath v t segs :: ds) (NPath v u segs :: ds')
  | moved_text ds ds' : same_but_moved ds ds' -> same_but_moved (NText :: ds) (NText :: ds')
  | moved_image ds ds' : same_but_moved ds ds' -> same_but_moved (NImage :: ds) (NImage :: ds').

  (** The first point of a document in canvas coordinates: the transformations of the groups around it apply. *)
  Inductive starts_at : list (node VP EP) -> VP -> Prop :=
  | starts_path t p segs ds : starts_at (NPath true t (SMove p :: segs) :: ds) (t p)
  | starts_group t cs ds p : starts_at cs p -> starts_at (NGroup t cs :: ds) p.
End SvgDocSpec.
