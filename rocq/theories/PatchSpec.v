(** Specification vocabulary for drawing on an existing boundary with the path builder. *)
From Coq Require Import List Arith Bool.
From Verif Require Import Base DVec Mesh Spec MeshSpec BuildSpec PathBuilder PathBSpec.
Import ListNotations.
Set Implicit Arguments.
Unset Strict Implicit.

Section PatchSpec.
  Context {VP EP FP : Type}.
  Notation graph := (graph VP EP FP).
  Notation mesh := (mesh VP EP FP).
  Implicit Types (g : graph) (m : mesh).

  (** The half-edge [e] is the only one of the boundary that leads to its target. *)
  Definition sole g (e : nat) : Prop :=
    lv g e = true /\ fc g e = None /\
    forall x, lv g x = true -> fc g x = None -> target g x = target g e -> x = e.

  (** A client: start at a half-edge and draw lines to new vertices. *)
  Definition draw_from (c : cfg) m (e : nat) (ls : list (VP * EP * EP)) : res (mesh * pathb) :=
    let* b := p_start_at_edge m e in
    foldM (fun s x => let '(m, b) := s in p_line c m b (l_end x) (l_there x) (l_back x)) ls (m, b).
  (** The same, then one line to the existing vertex [w], then [close]. *)
  Definition draw_patch dE (c : cfg) m (e : nat) (ls : list (VP * EP * EP)) (w : nat) (x0 x1 : EP) (fp : FP)
    : res (mesh * pathb * option nat) :=
    let* (m1, b1) := draw_from c m e ls in
    let* (m2, b2) := p_line_to c m1 b1 w x0 x1 in
    p_close dE c m2 b2 fp.

  (** Starting at the vertex [v] instead of a half-edge. *)
  Definition draw_patch_at dE (c : cfg) m (v : nat) (ls : list (VP * EP * EP)) (w : nat) (x0 x1 : EP) (fp : FP)
    : res (mesh * pathb * option nat) :=
    let* b := p_start_at m v in
    let* (m1, b1) := foldM (fun s x => let '(m, b) := s in p_line c m b (l_end x) (l_there x) (l_back x)) ls (m, b) in
    let* (m2, b2) := p_line_to c m1 b1 w x0 x1 in
    p_close dE c m2 b2 fp.

  (** A path [es] of new half-edges through the new vertices [vs] with the payloads [ys] hangs on the boundary
      loop [e :: A] at the target of [e]. *)
  Record trail_built g g' (e : nat) (A es vs : list nat) (ys : list VP) (p0 p1 : list EP) : Prop := {
    tb_grown : grown g g' (e :: A) (es ++ map (tw g') es) vs [];
    tb_leads : leads_through g' es (target g e :: vs);
    tb_vp : map (vp g') vs = map Some ys;
    tb_pay0 : pays g' es p0;
    tb_pay1 : pays g' (map (tw g') es) p1;
    tb_hole : hole g' (e :: es ++ rev (map (tw g') es) ++ A)
  }.

  (** The boundary loop [e :: A ++ o :: B] is divided by a path [es] from the target of [e] to the target of [o]
      through the new vertices [vs]; the part behind [o] is filled by the new face [f]. *)
  Record patch_built g g' (e : nat) (A : list nat) (o : nat) (B es vs : list nat) (f : nat) (ys : list VP)
    (p0 p1 : list EP) (fp : FP) : Prop := {
    ph_grown : grown g g' (e :: A ++ o :: B) (es ++ map (tw g') es) vs [f];
    ph_leads : leads_through g' es (target g e :: vs ++ [target g o]);
    ph_vp : map (vp g') vs = map Some ys;
    ph_pay0 : pays g' es p0;
    ph_pay1 : pays g' (map (tw g') es) p1;
    ph_face : face_is g' f (e :: es ++ B) fp false;
    ph_first : fe g' f = e;
    ph_hole : hole g' (rev (map (tw g') es) ++ A ++ [o])
  }.
End PatchSpec.
