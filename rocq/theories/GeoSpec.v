(** Plane geometry over the rationals, for specifications. *)
From Coq Require Import QArith.

Definition pt := (Q * Q)%type.
(** twice the signed area of the triangle; positive iff counter-clockwise *)
Definition orient (a b c : pt) : Q :=
  (fst b - fst a) * (snd c - snd a) - (snd b - snd a) * (fst c - fst a).
Definition dist2 (a b : pt) : Q :=
  (fst a - fst b) * (fst a - fst b) + (snd a - snd b) * (snd a - snd b).

(** A sign test that may answer anything at zero. *)
Definition sign_test (pos : Q -> bool) : Prop :=
  (forall x, 0 < x -> pos x = true) /\ (forall x, x < 0 -> pos x = false).

(** corners of the quad p0 p1 p2 p3: positive iff convex in counter-clockwise order *)
Definition corner (p q r : pt) : Q := orient p q r.
