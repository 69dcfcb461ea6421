(** Specifications for the geometric predicates. *)
From Coq Require Import QArith List NArith.
From Verif Require Import GeoSpec.
Import ListNotations.

(** [p] is a combination of [a], [b], [c] with weights satisfying [ok] and sum 1 *)
Definition combination (ok : Q -> Prop) (p a b c : pt) : Prop :=
  exists u v w, ok u /\ ok v /\ ok w /\ u + v + w == 1 /\
    fst p == u * fst a + v * fst b + w * fst c /\ snd p == u * snd a + v * snd b + w * snd c.
(** strictly inside, and inside or on the boundary *)
Definition strictly_inside := combination (fun u => 0 < u).
Definition weakly_inside := combination (fun u => 0 <= u).

(** [p] lies on the segment [a b], extended by [e] times its length at both ends *)
Definition on_segment (e : Q) (p a b : pt) : Prop :=
  exists t, - e <= t /\ t <= 1 + e /\ fst p == fst a + (fst b - fst a) * t /\ snd p == snd a + (snd b - snd a) * t.

(** IEEE 754 binary interchange format: value of a finite bit pattern, [None] for infinities and NaNs *)
Section Float.
  Variables we wm : N.
  Definition f_sign (bits : N) : bool := N.testbit bits (we + wm).
  Definition f_exp (bits : N) : N := (N.shiftr bits wm mod 2 ^ we)%N.
  Definition f_man (bits : N) : N := (bits mod 2 ^ wm)%N.
  Definition f_special (bits : N) : bool := (f_exp bits =? 2 ^ we - 1)%N.
  Definition bias : Z := (2 ^ (Z.of_N we - 1) - 1)%Z.
  Definition f_value (bits : N) : Q :=
    let s := if f_sign bits then (-1)%Z else 1%Z in
    if (f_exp bits =? 0)%N
    then inject_Z (s * Z.of_N (f_man bits)) * Qpower 2 (1 - bias - Z.of_N wm)
    else inject_Z (s * (2 ^ Z.of_N wm + Z.of_N (f_man bits))) * Qpower 2 (Z.of_N (f_exp bits) - bias - Z.of_N wm).
  (** strictly positive: a finite number above zero, or plus infinity *)
  Definition f_gt0 (bits : N) : Prop :=
    if f_special bits then f_man bits = 0%N /\ f_sign bits = false else 0 < f_value bits.
  Definition f_nan (bits : N) : Prop := f_special bits = true /\ f_man bits <> 0%N.
End Float.
