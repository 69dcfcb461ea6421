(** Specification vocabulary for the path builder: what a client draws. *)
From Coq Require Import List Arith Bool.
From Verif Require Import Base DVec Mesh Spec MeshSpec BuildSpec PathBuilder.
Import ListNotations.
Set Implicit Arguments.
Unset Strict Implicit.

Section PathBSpec.
  Context {VP EP FP : Type}.
  Notation graph := (graph VP EP FP).
  Notation mesh := (mesh VP EP FP).
  Implicit Types (g : graph) (m : mesh).

  (** The payloads of the half-edges [es] are [ps]. *)
  Definition pays g (es : list nat) (ps : list EP) : Prop := map (ep g) es = map Some ps.

  (** A client: start at a new vertex and draw lines to new vertices. A line is given by the payload
      of its end point and of its two half-edges (there and back). *)
  Definition line : Type := VP * EP * EP.
  Definition l_end (x : line) := fst (fst x).
  Definition l_there (x : line) := snd (fst x).
  Definition l_back (x : line) := snd x.
  Definition draw (c : cfg) m (y0 : VP) (ls : list line) : res (mesh * pathb) :=
    let* (m1, b1) := p_start c m y0 in
    foldM (fun s x => let '(m, b) := s in p_line c m b (l_end x) (l_there x) (l_back x)) ls (m1, b1).

  (** The same, back to the start with one more line, then [close]. *)
  Definition draw_closed dE (c : cfg) m (y0 : VP) (ls : list line) (x0 x1 : EP) (fp : FP)
    : res (mesh * pathb * option nat) :=
    let* (m1, b1) := draw c m y0 ls in
    let* v := unwrap (p_sv b1) in
    let* (m2, b2) := p_line_to c m1 b1 v x0 x1 in
    p_close dE c m2 b2 fp.

  (** What the builder knows after drawing the half-edges [es] through the vertices [vs]. *)
  Definition knows g (b : pathb) (es vs : list nat) : Prop :=
    p_closed b = false /\ p_face b = false /\ p_sv b = Some (hd 0 vs) /\ p_cv b = Some (last vs 0) /\
    p_se b = Some (tw g (hd 0 es), hd 0 es) /\ p_ce b = Some (last es 0, tw g (last es 0)).

  (** A line or a curve of an SVG path. *)
  Definition stroke : Type := option (EP -> EP) * VP.
  Definition s_seg (x : stroke) : seg VP EP :=
    match fst x with Some k => SCurve k (snd x) | None => SLine (snd x) end.
  Definition s_pay (dE : EP) (x : stroke) : EP := match fst x with Some k => k dE | None => dE end.
End PathBSpec.
