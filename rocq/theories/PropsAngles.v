(** Property C88: angles, spherical coordinates and spherical interpolation. *)
From Coq Require Import Arith Reals.
From Verif Require Import Base Alg AlgSpec Normals NormalsSpec PlaneSpec Plane Cdt Angles AnglesProofs.
Local Open Scope R_scope.

(** C88. [angle_between] is the angle of the law of cosines, between zero and half a turn; in the plane it is
    signed, positive where the second vector is to the left of the first. Vectors shorter than [eps] give zero. *)
Theorem C88_angle : forall eps a b, 0 < eps -> eps <= r_len a -> eps <= r_len b ->
  0 <= angle_between3 eps a b <= PI /\ r_len a * r_len b * cos (angle_between3 eps a b) = rdot a b.
Proof. exact angle3_ok. Qed.
Print Assumptions C88_angle.
Theorem C88_short : forall eps a b, r_len a < eps \/ r_len b < eps -> angle_between3 eps a b = 0.
Proof. exact angle3_short. Qed.
Print Assumptions C88_short.
Theorem C88_plane : forall eps a b, 0 < eps -> let la := sqrt (fst a * fst a + snd a * snd a) in let lb := sqrt (fst b * fst b + snd b * snd b) in
  eps <= la -> eps <= lb ->
  - PI <= angle_between eps a b <= PI /\ la * lb * cos (angle_between eps a b) = fst a * fst b + snd a * snd b /\
  la * lb * sin (angle_between eps a b) = fst a * snd b - snd a * fst b.
Proof. exact angle2_ok. Qed.
Print Assumptions C88_plane.

(** Spherical coordinates: every vector is recovered, and so are the coordinates, away from the poles and with
    angles in their ranges. *)
Theorem C88_spherical : forall v i, (i < 3)%nat -> cartesian (spherical v) i = v i.
Proof. exact spherical_cartesian. Qed.
Print Assumptions C88_spherical.
Theorem C88_cartesian : forall (s : rvec) i, 0 < s 0%nat -> - PI < s 1%nat <= PI -> 0 < s 2%nat < PI -> (i < 3)%nat -> spherical (cartesian s) i = s i.
Proof. exact cartesian_spherical. Qed.
Print Assumptions C88_cartesian.

(** [slerp] of unit vectors moves on the great circle with constant speed: a unit vector in their plane, at
    [t] times the angle from the first and [1 - t] times the angle from the second, for every [t]; at 0 and 1 the
    given vectors. *)
Theorem C88_slerp : forall eps (a b : rvec) t, rdot a a = 1 -> rdot b b = 1 -> let theta := acos (rdot a b) in
  sqrt eps <= theta -> theta <> 0 -> theta < PI ->
  exists s, slerp_at eps a b t = Some s /\ rdot s s = 1 /\ rdot a s = cos (t * theta) /\ rdot b s = cos ((1 - t) * theta) /\
    forall w, rdot w a = 0 -> rdot w b = 0 -> rdot w s = 0.
Proof. exact slerp_ok. Qed.
Print Assumptions C88_slerp.
Theorem C88_slerp_ends : forall eps (a b : rvec), rdot a a = 1 -> rdot b b = 1 -> let theta := acos (rdot a b) in
  sqrt eps <= theta -> theta <> 0 -> theta < PI ->
  exists s e, slerp_at eps a b 0 = Some s /\ slerp_at eps a b 1 = Some e /\ forall i, s i = a i /\ e i = b i.
Proof. exact slerp_ends. Qed.
Print Assumptions C88_slerp_ends.
(** Vectors closer than the square root of [eps] are not interpolated, linearly or otherwise: the result is the
    first vector for every [t], also at 1. *)
Theorem C88_slerp_near : forall eps (a b : rvec) t, rdot a a = 1 -> rdot b b = 1 -> acos (rdot a b) < sqrt eps -> slerp_at eps a b t = Some a.
Proof. exact slerp_near. Qed.
Print Assumptions C88_slerp_near.
Theorem C88_slerp_near_refuted : forall eps, 0 < eps <= 1 ->
  exists a b : rvec, rdot a a = 1 /\ rdot b b = 1 /\ (exists i, (i < 3)%nat /\ a i <> b i) /\ slerp_at eps a b 1 = Some a.
Proof. exact slerp_near_refuted. Qed.
Print Assumptions C88_slerp_near_refuted.
(** Opposite vectors divide by zero. *)
Theorem C88_slerp_opposite : forall eps (a b : rvec) t, 0 <= eps <= 1 -> rdot a a = 1 -> rdot b b = 1 -> rdot a b = -1 -> slerp_at eps a b t = None.
Proof. exact slerp_opposite. Qed.
Print Assumptions C88_slerp_opposite.

(** A right angle. *)
Example C88_example : let a := r_new 1 0 0 in let b := r_new 0 1 0 in
  rdot a a = 1 /\ rdot b b = 1 /\ sqrt (/ 100) <= acos (rdot a b) /\ acos (rdot a b) <> 0 /\ acos (rdot a b) < PI /\
  0 < / 100 <= r_len a /\ / 100 <= r_len b /\ rdot a (r_new (-1) 0 0) = -1.
Proof. exact angles_example. Qed.
