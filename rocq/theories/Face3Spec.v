(** Specifications for the face predicates. *)
From Coq Require Import List Arith QArith Qabs.
From Verif Require Import GeoSpec GeoMathSpec.
Import ListNotations.
Set Implicit Arguments.
Unset Strict Implicit.
Local Open Scope Q_scope.

(** [p] is the point with coordinates [q] in the plane through [o] spanned by [u] and [v] *)
Definition in_plane (o u v : nat -> Q) (p : nat -> Q) (q : pt) : Prop :=
  forall i, (i < 3)%nat -> p i == o i + fst q * u i + snd q * v i.
Definition plane_normal (u v : nat -> Q) : nat -> Q := fun i =>
  u (S i mod 3) * v (S (S i) mod 3) - u (S (S i) mod 3) * v (S i mod 3).
Definition inner3 (a b : nat -> Q) : Q := a 0%nat * b 0%nat + a 1%nat * b 1%nat + a 2%nat * b 2%nat.
Definition spans (u v : nat -> Q) : Prop := exists i, (i < 3)%nat /\ ~ plane_normal u v i == 0.
(** the points of [l] have the plane coordinates [q] *)
Definition planar_as (o u v : nat -> Q) (l : list (nat -> Q)) (q : list pt) : Prop :=
  Forall2 (in_plane o u v) l q.

(** how a closed polygon turns at its corners, going round for ever *)
Definition cyc (q : list pt) (i : nat) : pt := nth (i mod length q) q (0, 0).
Definition turn (q : list pt) (i : nat) : Q := orient (cyc q i) (cyc q (i + 1)) (cyc q (i + 2)).
Definition no_straight (q : list pt) : Prop := forall i, ~ turn q i == 0.
Definition same_way (q : list pt) : Prop := (forall i, 0 < turn q i) \/ (forall i, turn q i < 0).
Definition alternate (q : list pt) : Prop := forall i, turn q i * turn q (i + 1) < 0.

(** two different edges, not parallel up to [e], meet away from their ends by at least the fraction [e] *)
Definition crossing (e : Q) (q : list pt) : Prop :=
  exists i j x, (i < j < length q)%nat /\
    e < Qabs ((fst (cyc q (i + 1)) - fst (cyc q i)) * (snd (cyc q (j + 1)) - snd (cyc q j)) -
              (snd (cyc q (i + 1)) - snd (cyc q i)) * (fst (cyc q (j + 1)) - fst (cyc q j))) /\
    on_segment (- e) x (cyc q i) (cyc q (i + 1)) /\ on_segment (- e) x (cyc q j) (cyc q (j + 1)).
Definition same_point (p q : pt) : Prop := fst p == fst q /\ snd p == snd q.
(** two different edges have no common point, except for a common end *)
Definition simple_polygon (q : list pt) : Prop :=
  forall i j x, (i < j < length q)%nat -> on_segment 0 x (cyc q i) (cyc q (i + 1)) ->
    on_segment 0 x (cyc q j) (cyc q (j + 1)) ->
    (same_point x (cyc q i) \/ same_point x (cyc q (i + 1))) /\ (same_point x (cyc q j) \/ same_point x (cyc q (j + 1))).
