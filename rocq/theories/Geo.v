(** Model of the plane predicates (/repo/src/math/vector2d.rs) over the rationals.
    Floating-point rounding is not modelled: scalars are exact. *)
From Coq Require Import QArith.
From Verif Require Import GeoSpec.

(** vector2d.rs:39, extensions/nalgebra/math/vec2.rs:15-17 *)
Definition perp_dot (a b : pt) : Q := fst a * snd b - snd a * fst b.
Definition vsub (a b : pt) : pt := (fst a - fst b, snd a - snd b).
(** vector.rs [distance_squared] *)
Definition distance_squared (a b : pt) : Q :=
  let d := vsub a b in fst d * fst d + snd d * snd d.
(** vector2d.rs:14-17 [p.convex(prev, next)]; [pos] is [is_positive] (its answer at zero depends on the sign of zero) *)
Definition convex (pos : Q -> bool) (p prev next : pt) : bool := pos (perp_dot (vsub p prev) (vsub next p)).
