(** Specification vocabulary for operations that add many half-edges, vertices and faces at once.
    Only speaks about the stored fields and about loops. *)
From Coq Require Import List Arith Bool.
From Verif Require Import Base DVec Mesh Spec MeshSpec.
Import ListNotations.
Set Implicit Arguments.
Unset Strict Implicit.

Section BuildSpec.
  Context {VP EP FP : Type}.
  Notation graph := (graph VP EP FP).
  Implicit Types (g : graph).

  (** [l] lists exactly the ids that became alive. *)
  Definition added (live live' : nat -> bool) (l : list nat) : Prop :=
    NoDup l /\ (forall x, In x l -> live x = false) /\
    (forall x, live' x = true <-> live x = true \/ In x l).

  (** [g'] is [g] with the half-edges [NE], the vertices [NV] and the faces [NF] added. Old
      half-edges keep twin, origin and payload, old vertices and faces keep everything. Loops that
      avoid [L] are not touched. *)
  Record grown g g' (L NE NV NF : list nat) : Prop := {
    gr_e : added (lv g) (lv g') NE;
    gr_v : added (lvv g) (lvv g') NV;
    gr_f : added (lvf g) (lvf g') NF;
    gr_old_e : forall e, lv g e = true -> tw g' e = tw g e /\ og g' e = og g e /\ ep g' e = ep g e;
    gr_old_v : forall v, lvv g v = true -> ve g' v = ve g v /\ vp g' v = vp g v;
    gr_old_f : forall f, lvf g f = true -> fe g' f = fe g f /\ fp g' f = fp g f;
    gr_loops : forall l, loop g l -> (forall x, In x l -> ~ In x L) ->
      loop g' l /\ forall x, In x l -> fc g' x = fc g x
  }.

  (** A boundary loop. *)
  Definition hole g (l : list nat) : Prop := loop g l /\ forall x, In x l -> fc g x = None.

  (** The face [f] with the given payload has the boundary [l] (starting anywhere). *)
  Definition face_is g (f : nat) (l : list nat) (y : FP) (curved : bool) : Prop :=
    lvf g f = true /\ fp g f = Some (curved, y) /\ loop g l /\ forall x, In x l -> fc g x = Some f.

  (** The target of a half-edge is the origin of its twin. *)
  Definition target g e : nat := og g (tw g e).

  (** [e] leads from [v] to [w]. *)
  Definition leads g e (v w : nat) : Prop := lv g e = true /\ og g e = v /\ target g e = w.

  (** [f0 .. fk] lead through the vertices [v0 .. v(k+1)] one after the other. *)
  Fixpoint leads_through g (es vs : list nat) : Prop :=
    match es, vs with
    | [], [_] => True
    | e :: es, v :: (w :: _) as t => leads g e v w /\ leads_through g es t
    | _, _ => False
    end.

  (** A path [es] through the new vertices [vs] with the payloads [ys]: its half-edges and their
      twins are the only new ones and form one boundary loop. *)
  Record path_built g g' (es vs : list nat) (ys : list VP) : Prop := {
    pb_grown : grown g g' [] (es ++ map (tw g') es) vs [];
    pb_leads : leads_through g' es vs;
    pb_pay : map (vp g') vs = map Some ys;
    pb_hole : hole g' (es ++ rev (map (tw g') es))
  }.

  (** A ring [es] through the new vertices [vs] and back to the first one; [NF] are new faces. *)
  Record ring_built g g' (es vs : list nat) (ys : list VP) (NF : list nat) : Prop := {
    rb_grown : grown g g' [] (es ++ map (tw g') es) vs NF;
    rb_leads : leads_through g' es (vs ++ firstn 1 vs);
    rb_pay : map (vp g') vs = map Some ys
  }.

  (** A fan of triangles over the half-edges [es]: [e] has the spoke [p] from its origin to [v], the
      next spoke is [q], and the face [f] is [e, q, twin p]. *)
  Fixpoint fan g (v : nat) (y : FP) (es ps fs : list nat) : Prop :=
    match es, ps, fs with
    | [], [_], [] => True
    | e :: es, p :: (q :: _) as t, f :: fs =>
        leads g p (og g e) v /\ face_is g f [e; q; tw g p] y false /\ fan g v y es t fs
    | _, _, _ => False
    end.

  (** The boundary loop [L] is closed by the new vertex [v] with payload [x]: spokes [ps], faces [fs]. *)
  Record apex_built g g' (L : list nat) (v : nat) (x : VP) (y : FP) (ps fs : list nat) : Prop := {
    ab_grown : grown g g' L (ps ++ map (tw g') ps) [v] fs;
    ab_fan : fan g' v y L (ps ++ firstn 1 ps) fs;
    ab_pay : vp g' v = Some x
  }.

  (** A strip of quads over the half-edges [es]: [e] has the upright [p] from its origin to the origin
      of the rim half-edge [t], the next upright is [q], and the face [f] is
      [e, q, twin t, twin p]. *)
  Fixpoint band g (y : FP) (es ps ts fs : list nat) : Prop :=
    match es, ps, ts, fs with
    | [], [_], [], [] => True
    | e :: es, p :: (q :: _) as r, t :: ts, f :: fs =>
        leads g p (og g e) (og g t) /\ face_is g f [e; q; tw g t; tw g p] y false /\ band g y es r ts fs
    | _, _, _, _ => False
    end.

  (** The boundary loop [L] is continued by a ring of quads [fs] to the new boundary loop [ts] through
      the new vertices [vs] with the payloads [xs]. *)
  Record band_built g g' (L : list nat) (xs : list VP) (y : FP) (ps ts vs fs : list nat) : Prop := {
    bb_grown : grown g g' L ((ps ++ ts) ++ map (tw g') (ps ++ ts)) vs fs;
    bb_band : band g' y L (ps ++ firstn 1 ps) ts fs;
    bb_rim : leads_through g' ts (vs ++ firstn 1 vs);
    bb_hole : hole g' ts;
    bb_pay : map (vp g') vs = map Some xs
  }.

  (** A strip of triangles over the half-edges [es]: a strip of quads (uprights [ps], rim [ts]) in
      which every quad is split by a diagonal [d]. With [back] the diagonal goes from the origin of
      [e] to the target of [t], otherwise from the target of [e] to the origin of [t]. *)
  Fixpoint tband g (back : bool) (y : FP) (es ps ds ts fs hs : list nat) : Prop :=
    match es, ps, ds, ts, fs, hs with
    | [], [_], [], [], [], [] => True
    | e :: es, p :: (q :: _) as r, d :: ds, t :: ts, f :: fs, h :: hs =>
        leads g p (og g e) (og g t) /\
        (if back then
           leads g d (og g e) (target g t) /\
           face_is g f [e; q; tw g d] y false /\ face_is g h [d; tw g t; tw g p] y false
         else
           leads g d (target g e) (og g t) /\
           face_is g f [e; d; tw g p] y false /\ face_is g h [q; tw g t; tw g d] y false) /\
        tband g back y es r ds ts fs hs
    | _, _, _, _, _, _ => False
    end.

  (** The boundary loop [L] is continued by a ring of triangles to the new boundary loop [ts]
      through the new vertices [vs] with the payloads [xs]. *)
  Record tband_built g g' (back : bool) (L : list nat) (xs : list VP) (y : FP)
    (ps ds ts vs fs hs : list nat) : Prop := {
    tb_grown : grown g g' L ((ps ++ ds ++ ts) ++ map (tw g') (ps ++ ds ++ ts)) vs (fs ++ hs);
    tb_band : tband g' back y L (ps ++ firstn 1 ps) ds ts fs hs;
    tb_rim : leads_through g' ts (vs ++ firstn 1 vs);
    tb_hole : hole g' ts;
    tb_pay : map (vp g') vs = map Some xs
  }.
End BuildSpec.
