(** Closed solids as indexed face sets: a list of points and, for every face, the indices of its
    corners in order. Only speaks about the stored fields and about loops. *)
From Coq Require Import List Arith Bool.
From Verif Require Import Base DVec Mesh Spec MeshSpec BuildSpec.
Import ListNotations.
Set Implicit Arguments.
Unset Strict Implicit.

(** Neighbours on a cyclic list. *)
Definition cyc {A} (l : list A) : list (A * A) := combine l (tl l ++ firstn 1 l).
(** The same cycle from the same start in the opposite direction. *)
Definition turn {A} (l : list A) : list A := match l with [] => [] | a :: t => a :: rev t end.

(** The corners of a fan of triangles from the ring [us] to the point [v]. *)
Definition fans {A} (us : list A) (v : A) : list (list A) := map (fun p => [fst p; snd p; v]) (cyc us).
(** The corners of the quads between two rings. *)
Definition quads {A} (us ws : list A) : list (list A) :=
  map (fun p => [fst (fst p); snd (fst p); snd (snd p); fst (snd p)]) (combine (cyc us) (cyc ws)).
(** The corners of the triangles between two rings: those standing on the first ring, those hanging
    from the second. *)
Definition stands {A} (us ws : list A) : list (list A) :=
  map (fun p => [fst (fst p); snd (fst p); fst (snd p)]) (combine (cyc us) (cyc ws)).
Definition hangs {A} (us ws : list A) : list (list A) :=
  map (fun p => [snd (fst p); snd (snd p); fst (snd p)]) (combine (cyc us) (cyc ws)).

(** The corners of the quads between consecutive rings, seen from outside when the rings run the
    other way round. *)
Fixpoint stack {A} (rings : list (list A)) : list (list A) :=
  match rings with
  | r :: (s :: _) as t => quads (turn r) (turn s) ++ stack t
  | _ => []
  end.

(** The indexed face sets of the solids with [n] corners in the base. *)
Definition pyramid_polys n := turn (seq 0 n) :: fans (seq 0 n) n.
Definition frustum_polys n := turn (seq 0 n) :: quads (seq 0 n) (seq n n) ++ [seq n n].
Definition antiprism_polys n := turn (seq 0 n) :: (stands (seq 0 n) (seq n n) ++ hangs (seq 0 n) (seq n n)) ++ [seq n n].
Definition bipyramid_polys n := fans (seq 0 n) n ++ fans (turn (seq 0 n)) (S n).
(** Two rings of [n] points, two poles: [n = 5] is the icosahedron. *)
Definition icosa_polys n :=
  fans (turn (seq 0 n)) n ++ stands (seq 0 n) (seq (S n) n) ++ hangs (seq 0 n) (seq (S n) n) ++ fans (seq (S n) n) (2 * n + 1).
(** Pole, [n - 1] rings of [k] points, pole. *)
Definition sphere_ring k i := seq (1 + (i - 1) * k) k.
Definition sphere_polys n k :=
  fans (sphere_ring k 1) 0 ++ stack (map (sphere_ring k) (seq 1 (n - 1))) ++
  fans (turn (sphere_ring k (n - 1))) (1 + (n - 1) * k).
Definition sphere_points {A} (vp : nat -> nat -> A) n k :=
  vp 0 0 :: concat (map (fun i => map (vp i) (seq 0 k)) (seq 1 (n - 1))) ++ [vp n 0].

Section SolidSpec.
  Context {VP EP FP : Type}.
  Notation graph := (graph VP EP FP).
  Implicit Types (g : graph).

  (** [l] lists the ids that are alive. *)
  Definition exactly (live : nat -> bool) (l : list nat) : Prop := NoDup l /\ forall x, live x = true <-> In x l.

  (** The face [f] runs once around the vertices [l]. *)
  Definition poly g (y : FP) (f : nat) (l : list nat) : Prop :=
    exists es, face_is g f es y false /\ map (og g) es = l.

  (** [g] has the points [pts], the faces [polys] (indices into [pts]), [ne] edges and no boundary. *)
  Definition solid g (y : FP) (pts : list VP) (polys : list (list nat)) (ne : nat) : Prop :=
    exists vs fs es,
      exactly (lvv g) vs /\ map (vp g) vs = map Some pts /\
      exactly (lvf g) fs /\ Forall2 (poly g y) fs (map (map (fun i => nth i vs 0)) polys) /\
      exactly (lv g) es /\ length es = 2 * ne /\
      forall e, lv g e = true -> fc g e <> None.

  (** The ring [L] is continued by quads [fs] to the face [cap] over the new vertices [vs]: the point
      above [og e] is that of [e] moved by [tr]. *)
  Record extruded g g' (L : list nat) (tr : VP -> VP) (y : FP) (ps ts vs fs : list nat) (cap : nat) : Prop := {
    ex_grown : grown g g' L ((ps ++ ts) ++ map (tw g') (ps ++ ts)) vs (fs ++ [cap]);
    ex_band : band g' y L (ps ++ firstn 1 ps) ts fs;
    ex_rim : leads_through g' ts (vs ++ firstn 1 vs);
    ex_cap : face_is g' cap ts y false;
    ex_pay : map (vp g') vs = map (fun e => option_map tr (vp g (og g e))) L
  }.

  (** The ring [L] is continued by triangles [fs], [hs] to the face [cap] over the new vertices [vs]
      with the payloads [xs]. *)
  Record extruded_tri g g' (L : list nat) (xs : list VP) (y : FP) (ps ds ts vs fs hs : list nat) (cap : nat) : Prop := {
    et_grown : grown g g' L ((ps ++ ds ++ ts) ++ map (tw g') (ps ++ ds ++ ts)) vs ((fs ++ hs) ++ [cap]);
    et_band : tband g' false y L (ps ++ firstn 1 ps) ds ts fs hs;
    et_rim : leads_through g' ts (vs ++ firstn 1 vs);
    et_cap : face_is g' cap ts y false;
    et_pay : map (vp g') vs = map Some xs
  }.
End SolidSpec.
