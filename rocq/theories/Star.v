(** Model of the generated polygons (/repo/src/primitives/misc.rs), random stars. *)
From Coq Require Import List Arith Reals.
From Verif Require Import Base StarSpec.
Import ListNotations.
Set Implicit Arguments.
Unset Strict Implicit.
Local Open Scope R_scope.

(** misc.rs:30-47 [random_star], in exact arithmetic. [n] is the random number of vertices, [r i] the random radius of
    vertex [i]; both are drawn from inclusive ranges, [random_range] panics if a range is empty. *)
Definition star_point (n : nat) (r : nat -> R) (i : nat) : rpt :=
  let phi := INR i / INR n * 2 * PI in (r i * cos phi, r i * sin phi).
Definition star_points (n : nat) (r : nat -> R) : list rpt := map (star_point n r) (seq 0 n).
(** the possible outcomes for the given ranges *)
Definition random_star (min_vert max_vert : nat) (min_r max_r : R) (ps : list rpt) : Prop :=
  exists n r, (min_vert <= n <= max_vert)%nat /\ (forall i, (i < n)%nat -> min_r <= r i <= max_r) /\ ps = star_points n r.
