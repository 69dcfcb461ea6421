(** Polygons with real coordinates: simple, and star-shaped around the origin. *)
From Coq Require Import List Arith Reals.
Import ListNotations.
Set Implicit Arguments.
Unset Strict Implicit.
Local Open Scope R_scope.

Definition rpt : Type := R * R.
Definition corner (ps : list rpt) (i : nat) : rpt := nth (i mod length ps) ps (0, 0).
(** [p] lies on the closed segment from [a] to [b] *)
Definition between (a b p : rpt) : Prop :=
  exists t, 0 <= t <= 1 /\ p = (fst a + t * (fst b - fst a), snd a + t * (snd b - snd a)).
Definition on_side (ps : list rpt) (i : nat) (p : rpt) : Prop := between (corner ps i) (corner ps (S i)) p.
(** Two different sides have at most a common corner. *)
Definition simple_rpolygon (ps : list rpt) : Prop :=
  (3 <= length ps)%nat /\
  forall i j p, (i < length ps)%nat -> (j < length ps)%nat -> i <> j -> on_side ps i p -> on_side ps j p ->
    (j = S i mod length ps /\ p = corner ps j)%nat \/ (i = S j mod length ps /\ p = corner ps i)%nat.
(** What is strictly between the origin and a point of the boundary, and the origin itself, is not on the boundary. *)
Definition star_shaped (ps : list rpt) : Prop :=
  forall i j p s, (i < length ps)%nat -> (j < length ps)%nat -> on_side ps i p -> 0 <= s < 1 -> ~ on_side ps j (s * fst p, s * snd p).
(** twice the signed area *)
Definition rarea2 (ps : list rpt) : R :=
  fold_right Rplus 0 (map (fun i => fst (corner ps i) * snd (corner ps (S i)) - snd (corner ps i) * fst (corner ps (S i))) (seq 0 (length ps))).
(** [p] is to the left of the line from the origin to [q] *)
Definition rturn (q p : rpt) : R := fst q * snd p - snd q * fst p.
