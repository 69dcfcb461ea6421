(** What one step of Loop's triangle subdivision should do. *)
From Coq Require Import List Arith Bool.
From Verif Require Import Base DVec Mesh Spec.
Import ListNotations.
Set Implicit Arguments.
Unset Strict Implicit.

Section SubdivSpec.
  Context {VP EP FP : Type}.
  Notation graph := (graph VP EP FP).
  Implicit Types (g : graph).

  (** A closed triangle mesh: no boundary, three half-edges in every loop, and no half-edge that
      returns to its own origin. *)
  Record triangles g : Prop := {
    tm_closed : forall e, lv g e = true -> fc g e <> None;
    tm_three : forall e, lv g e = true -> nx g (nx g (nx g e)) = e /\ nx g e <> e;
    tm_apart : forall e, lv g e = true -> og g (tw g e) <> og g e }.

  (** [h] is on a loop through exactly the vertices [x], [y], [z], starting at [x]. *)
  Definition triangle g (h x y z : nat) : Prop :=
    lv g h = true /\ nx g (nx g (nx g h)) = h /\
    og g h = x /\ og g (nx g h) = y /\ og g (nx g (nx g h)) = z.

  (** The face of [h] in [g'] has the payload of the face of [e] in [g], and is not curved. *)
  Definition inherits g (e : nat) (g' : graph) (h : nat) : Prop :=
    exists f f' cu y, fc g e = Some f /\ fp g f = Some (cu, y) /\ fc g' h = Some f' /\ fp g' f' = Some (false, y).

  (** The payload for the middle of [e]: [phi] applied to the three corners of the face of [e], with
      weight one for the ends of [e] and zero for the opposite corner. *)
  Definition mid_payload (phi : list (nat * VP) -> VP) g (e : nat) : option VP :=
    match fc g e with
    | None => None
    | Some f =>
        let x := fe g f in let y := nx g x in let z := nx g y in
        let w u := if (og g u =? og g e) || (og g u =? og g (nx g e)) then 1 else 0 in
        match vp g (og g x), vp g (og g y), vp g (og g z) with
        | Some p, Some q, Some r => Some (phi [(w x, p); (w y, q); (w z, r)])
        | _, _, _ => None
        end
    end.

  (** [g'] is [g] with a new vertex [mid e] on every edge, and every triangle cut into three corner
      triangles and a central one. *)
  Record subdivided (mid : nat -> nat) g (g' : graph) : Prop := {
    sd_fresh : forall e, lv g e = true -> lvv g (mid e) = false;
    sd_twin : forall e, lv g e = true -> mid (tw g e) = mid e;
    sd_inj : forall e e', lv g e = true -> lv g e' = true -> mid e = mid e' -> e' = e \/ e' = tw g e;
    sd_vertices : forall v, lvv g' v = true <-> lvv g v = true \/ exists e, lv g e = true /\ v = mid e;
    sd_keep : forall v, lvv g v = true -> vp g' v = vp g v;
    sd_corner : forall e, lv g e = true ->
      exists h, triangle g' h (og g e) (mid e) (mid (pv g e)) /\ inherits g e g' h;
    sd_centre : forall e, lv g e = true ->
      exists h, triangle g' h (mid e) (mid (nx g e)) (mid (pv g e)) /\ inherits g e g' h;
    sd_only : forall h, lv g' h = true -> exists e k, lv g e = true /\ (k = h \/ k = nx g' h \/ k = nx g' (nx g' h)) /\
      (triangle g' k (og g e) (mid e) (mid (pv g e)) \/ triangle g' k (mid e) (mid (nx g e)) (mid (pv g e))) }.

  (** The new vertices have the interpolated payloads; of the two faces at an edge, one is used. *)
  Definition middles (phi : list (nat * VP) -> VP) (mid : nat -> nat) g (g' : graph) : Prop :=
    forall e, lv g e = true -> exists e', (e' = e \/ e' = tw g e) /\ vp g' (mid e) = mid_payload phi g e' /\ vp g' (mid e) <> None.

  (** [k] steps one after the other; every mesh on the way is consistent *)
  Inductive refined (phi : list (nat * VP) -> VP) : nat -> graph -> graph -> Prop :=
  | refined_none g : refined phi 0 g g
  | refined_step k g g1 g' mid : WF g1 -> triangles g1 -> subdivided mid g g1 -> middles phi mid g g1 -> refined phi k g1 g' -> refined phi (S k) g g'.

  (** The weights of the two ends of an edge and of the opposite corner, in any order. *)
  Definition halfway : list (list nat) := [[1; 1; 0]; [1; 0; 1]; [0; 1; 1]].
  (** Every face of [g], started at any corner, satisfies [P]. *)
  Definition every_face (P : VP -> VP -> VP -> Prop) g : Prop :=
    forall h p q r, lv g h = true ->
      vp g (og g h) = Some p -> vp g (og g (nx g h)) = Some q -> vp g (og g (nx g (nx g h))) = Some r -> P p q r.
  (** An interpolator that succeeds half way between two of three live vertices that satisfy [P], and
      only reads their payloads. *)
  Definition reads (P : VP -> VP -> VP -> Prop) (phi : list (nat * VP) -> VP) (interp : mesh VP EP FP -> list (nat * nat) -> res VP) : Prop :=
    forall m i j k u v w p q r, In [i; j; k] halfway -> P p q r ->
      vp (abs m) u = Some p -> vp (abs m) v = Some q -> vp (abs m) w = Some r ->
      interp m [(i, u); (j, v); (k, w)] = Ok (phi [(i, p); (j, q); (k, r)]).
  (** [P] survives a step. *)
  Definition survives (P : VP -> VP -> VP -> Prop) (phi : list (nat * VP) -> VP) : Prop :=
    forall mid g g', WF g -> triangles g -> every_face P g -> WF g' -> triangles g' -> subdivided mid g g' -> middles phi mid g g' -> every_face P g'.
End SubdivSpec.
