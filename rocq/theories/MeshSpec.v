(** Specification of the effect of the builder operations, in terms of the stored fields
    ([abs m]) and of boundary loops. Does not mention how the operations work. *)
From Coq Require Import List Arith Bool.
From Verif Require Import Base DVec Mesh Spec.
Import ListNotations.
Set Implicit Arguments.
Unset Strict Implicit.

Section MeshSpec.
  Context {VP EP FP : Type}.
  Notation graph := (graph VP EP FP).
  Notation mesh := (mesh VP EP FP).
  Implicit Types (g : graph) (m : mesh).

  (** There are ids left for [a] more half-edges, [b] vertices and [d] faces. *)
  Definition fits (c : cfg) m (a b d : nat) : Prop :=
    (d_cap (edges m) <= capE c /\ length (d_iter (edges m)) + a <= capE c) /\
    (d_cap (verts m) <= capV c /\ length (d_iter (verts m)) + b <= capV c) /\
    (d_cap (faces m) <= capF c /\ length (d_iter (faces m)) + d <= capF c).

  (** A boundary loop, as a list starting anywhere on it. *)
  Definition loop g (l : list nat) : Prop :=
    (forall x, In x l -> lv g x = true) /\ is_cycle (nx g) l.

  (** Everything about a half-edge except its position in a loop is unchanged. *)
  Definition keep_label g g' e : Prop :=
    lv g' e = lv g e /\
    (lv g e = true -> tw g' e = tw g e /\ og g' e = og g e /\ fc g' e = fc g e /\ ep g' e = ep g e).
  (** Its position is unchanged. *)
  Definition keep_links g g' e : Prop :=
    lv g e = true -> nx g' e = nx g e /\ pv g' e = pv g e.
  Definition keep_vertex g g' v : Prop :=
    lvv g' v = lvv g v /\ (lvv g v = true -> ve g' v = ve g v /\ vp g' v = vp g v).
  Definition keep_face g g' f : Prop :=
    lvf g' f = lvf g f /\ (lvf g f = true -> fe g' f = fe g f /\ fp g' f = fp g f).

  (** A new twin pair without faces: [e1] starts at [a], [e2] starts at [b]. *)
  Record new_pair g g' (e1 e2 a b : nat) (y1 y2 : EP) : Prop := {
    np_fresh : lv g e1 = false /\ lv g e2 = false /\ e1 <> e2;
    np_live : lv g' e1 = true /\ lv g' e2 = true;
    np_twin : tw g' e1 = e2 /\ tw g' e2 = e1;
    np_origin : og g' e1 = a /\ og g' e2 = b;
    np_face : fc g' e1 = None /\ fc g' e2 = None;
    np_pay : ep g' e1 = Some y1 /\ ep g' e2 = Some y2;
    np_others : forall e, e <> e1 -> e <> e2 -> keep_label g g' e
  }.

  (** A new vertex hangs on the corner between [input] and its successor. *)
  Record vertex_added g g' (input v e1 e2 : nat) (y : VP) (y1 y2 : EP) : Prop := {
    va_pair : new_pair g g' e1 e2 (og g (tw g input)) v y1 y2;
    va_vertex : lvv g v = false /\ lvv g' v = true /\ ve g' v = Some e2 /\ vp g' v = Some y;
    va_vertices : forall w, w <> v -> keep_vertex g g' w;
    va_faces : forall f, keep_face g g' f;
    va_loop : forall t, loop g (input :: t) -> loop g' (input :: e1 :: e2 :: t);
    va_loops : forall l, loop g l -> ~ In input l -> loop g' l
  }.

  (** Two new vertices joined by a new edge, apart from everything else. *)
  Record isolated_added g g' (v0 v1 e0 e1 : nat) (ya : VP) (y0 : EP) (yb : VP) (y1 : EP) : Prop := {
    ia_pair : new_pair g g' e0 e1 v0 v1 y0 y1;
    ia_fresh : lvv g v0 = false /\ lvv g v1 = false /\ v0 <> v1;
    ia_v0 : lvv g' v0 = true /\ ve g' v0 = Some e0 /\ vp g' v0 = Some ya;
    ia_v1 : lvv g' v1 = true /\ ve g' v1 = Some e1 /\ vp g' v1 = Some yb;
    ia_vertices : forall w, w <> v0 -> w <> v1 -> keep_vertex g g' w;
    ia_faces : forall f, keep_face g g' f;
    ia_loop : loop g' [e0; e1];
    ia_loops : forall l, loop g l -> loop g' l
  }.

  (** A new edge between the targets of [i] and [o]: splits their common loop or joins their two
      loops. *)
  Record edge_inserted g g' (i o e1 e2 : nat) (y1 y2 : EP) : Prop := {
    ei_pair : new_pair g g' e1 e2 (og g (tw g i)) (og g (tw g o)) y1 y2;
    ei_vertices : forall v, keep_vertex g g' v;
    ei_faces : forall f, keep_face g g' f;
    ei_split : forall s1 s2, loop g (i :: s1 ++ o :: s2) ->
      loop g' (i :: e1 :: s2) /\ loop g' (o :: e2 :: s1);
    ei_join : forall s1 s2, loop g (i :: s1) -> loop g (o :: s2) -> ~ In o (i :: s1) ->
      loop g' (i :: e1 :: s2 ++ o :: e2 :: s1);
    ei_loops : forall l, loop g l -> ~ In i l -> ~ In o l -> loop g' l
  }.

  (** The loop of [e] became the boundary of the new face [f]; nothing else changed. *)
  Record face_added g g' (e f : nat) (y : FP) (curved : bool) : Prop := {
    fa_fresh : lvf g f = false;
    fa_face : lvf g' f = true /\ fe g' f = e /\ fp g' f = Some (curved, y);
    fa_label : forall t x, loop g (e :: t) -> In x (e :: t) -> fc g' x = Some f;
    fa_label_only : forall x, lv g x = true -> fc g' x = Some f -> forall t, loop g (e :: t) -> In x (e :: t);
    fa_other_label : forall t x, loop g (e :: t) -> lv g x = true -> ~ In x (e :: t) -> fc g' x = fc g x;
    fa_edges : forall x, lv g' x = lv g x /\
      (lv g x = true -> nx g' x = nx g x /\ pv g' x = pv g x /\ tw g' x = tw g x /\
                        og g' x = og g x /\ ep g' x = ep g x);
    fa_vertices : forall v, keep_vertex g g' v;
    fa_faces : forall f', f' <> f -> keep_face g g' f'
  }.

  (** The face [f] is gone and its loop is a boundary; nothing else changed. *)
  Record face_removed g g' (f : nat) : Prop := {
    fr_face : lvf g f = true /\ lvf g' f = false;
    fr_label : forall x, lv g x = true -> fc g' x = if oeqb (fc g x) (Some f) then None else fc g x;
    fr_edges : forall x, lv g' x = lv g x /\
      (lv g x = true -> nx g' x = nx g x /\ pv g' x = pv g x /\ tw g' x = tw g x /\
                        og g' x = og g x /\ ep g' x = ep g x);
    fr_vertices : forall v, keep_vertex g g' v;
    fr_faces : forall f', f' <> f -> keep_face g g' f'
  }.

  (** [v] and [w] got connected by a new edge: [e0] from [v] to [w], [e1] back. [None] for an
      endpoint means it was isolated, [Some i] means that [i] is the boundary half-edge into it
      after which the new edge was attached. *)
  Record connected g g' (v w : nat) (ci co : option nat) (e0 e1 : nat) (y0 y1 : EP) : Prop := {
    cn_pair : new_pair g g' e0 e1 v w y0 y1;
    cn_faces : forall f, keep_face g g' f;
    cn_vertices : forall u, u <> v -> u <> w -> keep_vertex g g' u;
    cn_pay : forall u, lvv g' u = lvv g u /\ (lvv g u = true -> vp g' u = vp g u);
    cn_v : lvv g v = true /\ ve g' v = match ve g v with None => Some e0 | Some x => Some x end;
    cn_w : lvv g w = true /\ ve g' w = match ve g w with None => Some e1 | Some x => Some x end;
    cn_in : match ci with
            | Some i => lv g i = true /\ og g (tw g i) = v /\ fc g i = None
            | None => ve g v = None
            end;
    cn_out : match co with
             | Some o => lv g o = true /\ og g (tw g o) = w /\ fc g o = None
             | None => ve g w = None
             end;
    cn_loop : match ci, co with
              | None, None => loop g' [e0; e1]
              | Some i, None => forall t, loop g (i :: t) -> loop g' (i :: e0 :: e1 :: t)
              | None, Some o => forall t, loop g (o :: t) -> loop g' (o :: e1 :: e0 :: t)
              | Some i, Some o => i <> o /\
                  (forall s1 s2, loop g (i :: s1 ++ o :: s2) -> loop g' (i :: e0 :: s2) /\ loop g' (o :: e1 :: s1)) /\
                  (forall s1 s2, loop g (i :: s1) -> loop g (o :: s2) -> ~ In o (i :: s1) ->
                     loop g' (i :: e0 :: s2 ++ o :: e1 :: s1))
              end;
    cn_loops : forall l, loop g l -> (forall i, ci = Some i -> ~ In i l) ->
      (forall o, co = Some o -> ~ In o l) -> loop g' l
  }.

  (** A vertex to which an edge can be attached: isolated, or with exactly one boundary corner. *)
  Definition attachable g v : Prop :=
    lvv g v = true /\
    (ve g v = None \/
     exists e, lv g e = true /\ og g e = v /\ fc g e = None /\
       forall x, lv g x = true -> og g x = v -> fc g x = None -> x = e).

  (** Nothing readable changed. *)
  Definition unchanged g g' : Prop :=
    (forall e, keep_label g g' e /\ keep_links g g' e) /\ (forall v, keep_vertex g g' v) /\
    (forall f, keep_face g g' f).

  (** What the checker documents: twins are mutual, next and prev are mutually inverse, a loop
      carries one (live) face, half-edges end where their twin starts, representatives belong to
      their vertex or face, faces have at least three half-edges, every edge has a face on one
      side. *)
  Record doc_inv g : Prop := {
    di_twin : forall e, lv g e = true -> lv g (tw g e) = true /\ tw g (tw g e) = e;
    di_links : forall e, lv g e = true ->
      lv g (nx g e) = true /\ lv g (pv g e) = true /\ pv g (nx g e) = e /\ nx g (pv g e) = e;
    di_face : forall e, lv g e = true -> fc g (nx g e) = fc g e /\
      forall f, fc g e = Some f -> lvf g f = true;
    di_target : forall e, lv g e = true -> og g (nx g e) = og g (tw g e);
    di_vertex : forall v e, lvv g v = true -> ve g v = Some e -> lv g e = true /\ og g e = v;
    di_frep : forall f, lvf g f = true -> lv g (fe g f) = true /\ fc g (fe g f) = Some f;
    di_size : forall f l, lvf g f = true -> loop g (fe g f :: l) -> 3 <= length (fe g f :: l);
    di_sides : forall e, lv g e = true -> fc g e <> None \/ fc g (tw g e) <> None
  }.

  (** Exchange two ids. *)
  Definition swap (e t x : nat) : nat := if x =? e then t else if x =? t then e else x.

  (** The half-edges are renamed by the involution [s]; twins and payloads stay with the ids. *)
  Record renamed (s : nat -> nat) g g' : Prop := {
    rn_edges : forall x, lv g' x = lv g x /\
      (lv g x = true -> tw g' x = tw g x /\ ep g' x = ep g x /\ og g' x = og g (s x) /\ fc g' x = fc g (s x));
    rn_links : forall x, lv g x = true -> nx g' x = s (nx g (s x)) /\ pv g' x = s (pv g (s x));
    rn_loops : forall l, loop g l -> loop g' (map s l);
    rn_vertices : forall v, lvv g' v = lvv g v /\ (lvv g v = true -> vp g' v = vp g v);
    rn_faces : forall f, lvf g' f = lvf g f /\ (lvf g f = true -> fp g' f = fp g f)
  }.

  (** The builder calls of a client. *)
  Inductive bop :=
  | BVertex (y : VP)                                         (* add_vertex *)
  | BIsolated (ya : VP) (y1 : EP) (yb : VP) (y2 : EP)        (* add_isolated_edge *)
  | BViaEdge (i o : nat) (y : VP) (y1 y2 : EP)               (* add_vertex_via_edge *)
  | BViaVertex (v : nat) (y : VP) (y1 y2 : EP)               (* add_vertex_via_vertex *)
  | BBetween (v : nat) (y0 : EP) (w : nat) (y1 : EP)         (* insert_edge_between *)
  | BInsertEdge (i : nat) (y1 : EP) (o : nat) (y2 : EP)      (* insert_edge *)
  | BCloseHole (e : nat) (y : FP) (curved : bool)            (* close_hole *)
  | BCloseFace (i : nat) (y1 : EP) (o : nat) (y2 : EP) (y : FP) (curved : bool)
  | BCloseFaceVertices (prev : nat) (y1 : EP) (from : nat) (y2 : EP) (to : nat) (y : FP) (curved : bool)
  | BRemoveFace (f : nat)                                    (* remove_face *)
  | BFlip (e : nat).                                         (* flip_edge *)

  Definition bstep (c : cfg) m (o : bop) : res mesh :=
    match o with
    | BVertex y => let* (m', _) := add_vertex c m y in Ok m'
    | BIsolated ya y1 yb y2 => let* (m', _, _) := add_isolated_edge c m ya y1 yb y2 in Ok m'
    | BViaEdge i o y y1 y2 => let* (m', _, _, _) := add_vertex_via_edge c m i o y y1 y2 in Ok m'
    | BViaVertex v y y1 y2 => let* (m', _, _, _) := add_vertex_via_vertex c m v y y1 y2 in Ok m'
    | BBetween v y0 w y1 => let* (m', _, _) := insert_edge_between c m v y0 w y1 in Ok m'
    | BInsertEdge i y1 o y2 => let* (m', _, _) := insert_edge c m i y1 o y2 in Ok m'
    | BCloseHole e y cu => let* (m', _) := close_hole c m e y cu in Ok m'
    | BCloseFace i y1 o y2 y cu => let* (m', _, _, _) := close_face c m i y1 o y2 y cu in Ok m'
    | BCloseFaceVertices p y1 from y2 to y cu =>
        let* (m', _, _, _) := close_face_vertices c m p y1 from y2 to y cu in Ok m'
    | BRemoveFace f => let* (m', _) := remove_face c m f in Ok m'
    | BFlip e => flip_edge m e
    end.

  Fixpoint brun (c : cfg) m (os : list bop) : res mesh :=
    match os with
    | [] => Ok m
    | o :: os => let* m1 := bstep c m o in brun c m1 os
    end.

  (** What the caller has to ensure, because a debug build does not check it. *)
  Definition bpre g (o : bop) : Prop :=
    match o with
    | BViaEdge i o _ _ _ => lv g i = true -> nx g i = o /\ fc g i = None
    | BBetween v _ w _ => v <> w
    | BInsertEdge i _ o _ => fc g i = None /\ fc g o = None
    | BFlip e => lv g e = true ->
        nx g e <> e /\ nx g e <> tw g e /\ nx g (tw g e) <> e /\ nx g (tw g e) <> tw g e
    | _ => True
    end.
  Fixpoint bpre_run (c : cfg) m (os : list bop) : Prop :=
    match os with
    | [] => True
    | o :: os => bpre (abs m) o /\ forall m1, bstep c m o = Ok m1 -> bpre_run c m1 os
    end.

  (** Meshes a client can build in a debug build. *)
  Definition reachable m : Prop :=
    exists c os, dbg c = true /\ bpre_run c empty_mesh os /\ brun c empty_mesh os = Ok m.
End MeshSpec.
Arguments bop : clear implicits.
