(** Specification vocabulary for rotations of space. *)
From Coq Require Import Reals.
From Verif Require Import Alg AlgSpec Transform Normals NormalsSpec PlaneSpec.
Set Implicit Arguments.
Unset Strict Implicit.
Local Open Scope R_scope.

(** Lengths, angles and the orientation of space are kept. *)
Definition rigid (h : rvec -> rvec) : Prop :=
  (forall p q, rdot (h p) (h q) = rdot p q) /\
  (forall p q i, (i < 3)%nat -> h (vcross p q) i = vcross (h p) (h q) i).

(** [h] turns space by [angle] about the unit vector [u]: what lies across [u] makes the angle with its image,
    counter-clockwise seen from the side [u] points to. *)
Definition turns (u : rvec) (angle : R) (h : rvec -> rvec) : Prop :=
  rigid h /\ (forall i, (i < 3)%nat -> h u i = u i) /\
  forall v, rdot u v = 0 -> rdot v (h v) = cos angle * rdot v v /\ rdot u (vcross v (h v)) = sin angle * rdot v v.

(** [h] turns [a] into [b] about an axis across both. *)
Definition carries (a b : rvec) (h : rvec -> rvec) : Prop :=
  rigid h /\ (forall i, (i < 3)%nat -> h a i = b i) /\
  exists w, rdot w w = 1 /\ rdot w a = 0 /\ rdot w b = 0 /\ forall i, (i < 3)%nat -> h w i = w i.
