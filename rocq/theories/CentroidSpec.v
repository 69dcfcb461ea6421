(** Specification vocabulary for centroids. *)
From Coq Require Import List Arith Reals.
From Verif Require Import Base Alg AlgSpec Transform Normals NormalsSpec PlaneSpec.
Import ListNotations.
Set Implicit Arguments.
Unset Strict Implicit.
Local Open Scope R_scope.

(** The deviations of the points from [c] cancel. *)
Definition centre (ps : list rvec) (c : rvec) : Prop :=
  ps <> [] /\ forall i, (i < 3)%nat -> vsum (map (fun p => vsub p c) ps) i = 0.

(** The sum of the squared distances to a point. *)
Definition spread (ps : list rvec) (q : rvec) : R := sum 0 Rplus (map (fun p => rdot (vsub p q) (vsub p q)) ps).
