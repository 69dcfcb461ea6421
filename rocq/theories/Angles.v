(** Angles, spherical coordinates and spherical interpolation: src/math/{vector,vector3d}.rs, over the real numbers. *)
From Coq Require Import Arith Reals.
From Verif Require Import Base Alg Normals Plane Cdt Sphere.
Set Implicit Arguments.
Unset Strict Implicit.
Local Open Scope R_scope.

(** [f64::atan2], which is zero at the origin *)
Definition r_atan2_0 (y x : R) : R := if Req_EM_T (x * x + y * y) 0 then 0 else r_atan2 y x.

(** src/math/vector.rs:79-97 [angle_between] for D = 3; D = 2 is [Cdt.angle_between] *)
Definition angle_between3 (eps : R) (a b : rvec) : R :=
  let la := r_len a in let lb := r_len b in
  if Rlt_dec (Rabs (la - 0)) eps then 0 else if Rlt_dec (Rabs (lb - 0)) eps then 0
  else acos (clamp1 (r_dot a b / (la * lb))).

(** src/math/vector3d.rs:107-117 [spherical]: radius, azimuth, polar angle *)
Definition spherical (v : rvec) : rvec :=
  let r := r_len v in
  r_new r (r_atan2_0 (v 1%nat) (v 0%nat)) (if Req_EM_T r 0 then 0 else acos (v 2%nat / r)).
(** src/math/vector3d.rs:33-43 [cartesian] *)
Definition cartesian (s : rvec) : rvec :=
  let r := s 0%nat in let phi := s 1%nat in let theta := s 2%nat in
  r_new (r * sin theta * cos phi) (r * sin theta * sin phi) (r * cos theta).

(** src/math/vector3d.rs:120-151 [slerp] in a release build; nothing where it divides by zero *)
Definition slerp_at (eps : R) (a b : rvec) (t : R) : option rvec :=
  let theta := acos (clamp1 (r_dot a b)) in
  if Rlt_dec (Rabs theta) (sqrt eps) then Some a else
  if Req_EM_T (sin theta) 0 then None else
  let st1 := sin ((1 - t) * theta) / sin theta in
  let st2 := sin (t * theta) / sin theta in
  Some (fun i => a i * st1 + b i * st2).
