(** Model of geometric predicates over the rationals (exact arithmetic) and of the sign test on floats. *)
From Coq Require Import QArith Qabs List Bool NArith.
From Verif Require Import Base Alg GeoSpec Geo.
Import ListNotations.

(** tesselate/sweep/monotone/delaunay.rs:45-69 [circumcircle_contains]; [pos] is [is_positive] *)
Definition circumcircle_contains (pos : Q -> bool) (p1 p2 p3 p : pt) : bool :=
  pos (circle_det 0 1 Qplus Qmult Qminus Qopp p1 p2 p3 p).

(** math/vector2d.rs:33-35 *)
Definition barycentric_sign (a b c : pt) : Q := perp_dot (vsub a c) (vsub b c).
(** math/vector2d.rs:45-54; [neg] is [is_negative] *)
Definition is_inside_triangle (pos neg : Q -> bool) (p a b c : pt) : bool :=
  let bs1 := barycentric_sign p a b in
  let bs2 := barycentric_sign p b c in
  let bs3 := barycentric_sign p c a in
  let inside_ccw := pos bs1 && pos bs2 && pos bs3 in
  let inside_cw := neg bs1 && neg bs2 && neg bs3 in
  inside_ccw || inside_cw.

Definition Qlt_bool (x y : Q) : bool := negb (Qle_bool y x).
(** math/line_segment.rs:58-79 [intersect_line] of the segments [p0 p1] and [q0 q1] *)
Definition intersect_line (p0 p1 q0 q1 : pt) (eps eps2 : Q) : option pt :=
  let r := vsub p1 p0 in
  let s := vsub q1 q0 in
  let rxs := perp_dot r s in
  if Qle_bool (Qabs rxs) eps then None else
  let q_p := vsub q0 p0 in
  let t := perp_dot q_p s / rxs in
  if Qlt_bool t (- eps2) || Qlt_bool (eps2 + 1) t then None else
  let u := perp_dot q_p r / rxs in
  if Qlt_bool u (- eps2) || Qlt_bool (eps2 + 1) u then None else
  Some (fst p0 + fst r * t, snd p0 + snd r * t).

(** math/impls/f32.rs:21-28, math/impls/f64.rs:21-28: a float is its bit pattern; the sign is the
    highest bit, below it [we] exponent bits and [wm] mantissa bits (f32: 8, 23; f64: 11, 52). *)
Section Float.
  Variables we wm : N.
  Definition is_positive (bits : N) : bool := negb (N.testbit bits (we + wm)).
  Definition is_negative (bits : N) : bool := N.testbit bits (we + wm).
  (** math/scalar.rs:79-85 [abs]; negation flips the sign bit *)
  Definition fneg (bits : N) : N := N.lxor bits (N.shiftl 1 (we + wm)).
  Definition fabs (bits : N) : N := if is_positive bits then bits else fneg bits.
End Float.
