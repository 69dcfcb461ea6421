(** Specification vocabulary for drawn glyph outlines. *)
From Coq Require Import List Arith QArith Bool.
From Verif Require Import Base DVec Mesh Spec MeshSpec BuildSpec PathBSpec Alg Transform Glyph.
Import ListNotations.
Set Implicit Arguments.
Unset Strict Implicit.
Local Open Scope nat_scope.

Section GlyphSpec.
  Variables (R : Type) (zero : R) (add mul : R -> R -> R).
  Context {FP : Type}.
  Notation vec := (vec R).
  Notation curve := (curve R).
  Notation graph := (graph (pnu R) curve FP).
  Implicit Types (g : graph).

  (** The ends of a segment and its shape. *)
  Definition o_start (o : outline R) : vec := match o with OLine p _ => p | OQuad p _ _ => p | OCubic p _ _ _ => p end.
  Definition o_stop (o : outline R) : vec := match o with OLine _ p => p | OQuad _ _ p => p | OCubic _ _ _ p => p end.
  Definition o_curve (o : outline R) : curve :=
    match o with OLine _ _ => Linear R | OQuad _ c _ => Quadratic c | OCubic _ c0 c1 _ => Cubic c0 c1 end.
  Definition moved (pl : vec -> vec) (k : curve) : curve :=
    match k with Linear _ => Linear R | Quadratic c => Quadratic (pl c) | Cubic c0 c1 => Cubic (pl c0) (pl c1) end.

  (** A segment that is not a line from a point to itself. *)
  Definition real (same : vec -> vec -> bool) (o : outline R) : bool :=
    match o with OLine p q => negb (same p q) | _ => true end.

  (** Every segment starts where the one before it ends. *)
  Fixpoint linked (l : list (outline R)) : Prop :=
    match l with
    | x :: (y :: _) as t => o_start y = o_stop x /\ linked t
    | _ => True
    end.

  (** A closed outline of at least three segments: the last segment is the first one that ends where the outline
      starts. *)
  Definition contour (same : vec -> vec -> bool) (l : list (outline R)) : Prop :=
    exists x mid z, l = x :: mid ++ [z] /\ mid <> [] /\ linked l /\
      Forall (fun y => same (o_start x) (o_stop y) = false) mid /\ same (o_start x) (o_stop z) = true.

  (** The vertices [vs] and the half-edges [es] of the mesh draw the closed outline [l ++ [z]] around the face [f]. *)
  Record outlined g (dF : FP) (pl : vec -> vec) (l : list (outline R)) (z : outline R) (es vs : list nat) (f : nat) : Prop := {
    ol_leads : leads_through g es (vs ++ firstn 1 vs);
    ol_pos : map (vp g) vs = map (fun o => Some (u_from_pos zero (pl (o_start o)))) (l ++ [z]);
    ol_face : face_is g f es dF false;
    ol_back : hole g (rev (map (tw g) es));
    (** the curve of a segment is stored in the half-edge along it, that of the last one in the half-edge against it *)
    ol_there : pays g es (map (fun o => moved pl (o_curve o)) l ++ [Linear R]);
    ol_against : pays g (map (tw g) es) (repeat (Linear R) (length l) ++ [moved pl (o_curve z)])
  }.
  (** The same for [l] as a whole; [t] has the half-edges, the vertices and the face. *)
  Definition outlines g dF (p : (vec -> vec) * list (outline R)) (t : list nat * list nat * nat) : Prop :=
    exists l z, snd p = l ++ [z] /\ outlined g dF (fst p) l z (fst (fst t)) (snd (fst t)) (snd t).

  (** [g'] is [g] with the closed outlines [cs] added. *)
  Definition outlines_added g g' dF (cs : list ((vec -> vec) * list (outline R))) : Prop :=
    exists ts, Forall2 (outlines g' dF) cs ts /\
      grown g g' [] (flat_map (fun t => fst (fst t) ++ map (tw g') (fst (fst t))) ts)
        (flat_map (fun t => snd (fst t)) ts) (map snd ts).

  (** Text: the glyphs of [text] in order; the glyph [k] is drawn at [pen_at text k]. *)
  Section Text.
    Context {G : Type}.
    Variables (kern : G -> G -> R) (advance : G -> R).
    Fixpoint pen_at (text : list G) (k : nat) : R :=
      match k with
      | 0 => zero
      | S j => match nth_error text j, nth_error text k with
               | Some a, Some b => add (add (pen_at text j) (advance a)) (kern a b)
               | _, _ => zero
               end
      end.
    (** [cs] has the closed outlines that the segments of a glyph make up. *)
    Definition glyph_made (same : vec -> vec -> bool) (gl : option (list (outline R))) (cs : list (list (outline R))) : Prop :=
      match gl with
      | None => cs = []
      | Some ol => filter (real same) ol = concat cs /\ Forall (contour same) cs
      end.
    (** The closed outlines of a text, each with the map that moves it to the place of its glyph; [pl x] moves to [x]. *)
    Definition drawing (pl : R -> vec -> vec) (cs : G -> list (list (outline R))) (text : list G) :
        list ((vec -> vec) * list (outline R)) :=
      flat_map (fun ka => map (fun l => (pl (pen_at text (fst ka)), l)) (cs (snd ka))) (combine (seq 0 (length text)) text).
  End Text.
End GlyphSpec.

(** The points of a segment, for [t] from 0 to 1. *)
Definition o_point (o : outline Q) (t : Q) : vec Q := point_at 1%Q Qplus Qmult Qminus (o_curve o) (o_start o) (o_stop o) t.
