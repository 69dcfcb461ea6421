(** Rotations of the plane in both backends, over the real numbers. The called functions of nalgebra and glam are
    not part of /repo and are modelled by their formulas. *)
From Coq Require Import Reals.
From Verif Require Import Base Cdt Sphere Angles.
Set Implicit Arguments.
Unset Strict Implicit.
Local Open Scope R_scope.

(** A matrix by rows. *)
Definition mat2 := ((R * R) * (R * R))%type.
Definition apply2 (m : mat2) (v : R * R) : R * R :=
  (fst (fst m) * fst v + snd (fst m) * snd v, fst (snd m) * fst v + snd (snd m) * snd v).
Definition len2 (v : R * R) : R := sqrt (fst v * fst v + snd v * snd v).

(** nalgebra 0.34.1, [Rotation2::new], as used by src/extensions/nalgebra/math/rotate.rs:60-70 [from_angle];
    glam, [Affine2::from_angle], as used by src/extensions/bevy/math/vec2.rs:122-124 [from_rotation] *)
Definition from_angle2 (angle : R) : mat2 := ((cos angle, - sin angle), (sin angle, cos angle)).
(** nalgebra 0.34.1, [Rotation2::rotation_between], as used by rotate.rs:85-99 [from_rotation_arc] for D = 2: the
    identity if a vector is zero *)
Definition arc2_nalgebra (a b : R * R) : mat2 :=
  if Req_EM_T (len2 a) 0 then from_angle2 0 else if Req_EM_T (len2 b) 0 then from_angle2 0 else
  let na := (fst a / len2 a, snd a / len2 a) in let nb := (fst b / len2 b, snd b / len2 b) in
  from_angle2 (r_atan2_0 (fst na * snd nb - snd na * fst nb) (fst na * fst nb + snd na * snd nb)).
(** glam, [Vec2::angle_to], with the exact arc cosine; nothing where it divides by zero *)
Definition angle_to (a b : R * R) : option R :=
  let l := sqrt ((fst a * fst a + snd a * snd a) * (fst b * fst b + snd b * snd b)) in
  if Req_EM_T l 0 then None else
  let angle := acos ((fst a * fst b + snd a * snd b) / l) in
  Some (angle * (if Rle_dec 0 (fst a * snd b - snd a * fst b) then 1 else -1)).
(** src/extensions/bevy/math/vec2.rs:127-129 [from_rotation_arc] *)
Definition arc2_bevy (a b : R * R) : option mat2 := option_map from_angle2 (angle_to a b).
