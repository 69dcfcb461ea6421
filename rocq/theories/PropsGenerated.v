(** C76: the generated test polygons. *)
From Coq Require Import List Arith QArith Reals Lra Lia.
From Verif Require Import Base GeoSpec PolySpec Geo Sweep Zigzag ZigzagProofs StarSpec Star StarProofs GeneratedEx.
Import ListNotations.
Set Implicit Arguments.
Unset Strict Implicit.

(** From four vertices on, the zigzag is a simple polygon with as many vertices as asked for, counter-clockwise. *)
Theorem C76_zigzag :
  forall n0, (4 <= n0)%nat -> Nat.even n0 = true ->
  exists ps, zigzag n0 = Ok (map (fun p => (Fin (fst p), snd p)) ps) /\ length ps = n0 /\ simple_polygon ps /\
    (area2 ps == 2 * (of_nat (n0 / 2) - 1) / of_nat (n0 / 2 / 2))%Q /\ (0 < area2 ps)%Q.
Proof. exact zigzag_ok. Qed.
Print Assumptions C76_zigzag.

(** It is hard for the sweep line as promised: no corner is regular. The lower chain consists of splits and ends, the
    upper chain of starts and merges. *)
Theorem C76_zigzag_events :
  forall n0 tol, (4 <= n0)%nat -> Nat.even n0 = true -> (0 <= tol)%Q -> (tol < 1 / of_nat (n0 / 2 / 2))%Q ->
  exists ps, zigzag n0 = Ok (map (fun p => (Fin (fst p), snd p)) ps) /\
    forall i, (i < n0)%nat -> classify tol (nth ((i + (n0 - 1)) mod n0) ps (0, 0)%Q) (nth i ps (0, 0)%Q) (nth (S i mod n0) ps (0, 0)%Q) =
      if (i =? 0)%nat then VStart else if (i <? n0 / 2)%nat then (if Nat.even i then VSplit else VEnd)
      else if (i =? n0 / 2)%nat then (if Nat.even i then VStart else VEnd) else if Nat.even i then VStart else VMerge.
Proof. exact zigzag_events. Qed.
Print Assumptions C76_zigzag_events.

Example C76_zigzag_example :
  zigzag 8 = Ok (map (fun p => (Fin (fst p), snd p)) (map zz8 (seq 0 8))) /\
  Forall2 same_pt (map zz8 (seq 0 8)) [(-1, 1); (-1#2, -1); (0, 1); (1#2, -1); (1, 1); (1#2, 0); (0, 2); (-1#2, 0)]%Q.
Proof. exact zigzag8. Qed.

(** An odd number of vertices is refused. Two vertices pass the assertion, but the coordinates are not finite. *)
Theorem C76_zigzag_refuses : forall n0, (n0 < 2)%nat \/ Nat.even n0 = false -> zigzag n0 = Panic.
Proof. exact zigzag_refuses. Qed.
Print Assumptions C76_zigzag_refuses.
Theorem C76_zigzag_two_refuted : zigzag 2 = Ok [(NotANumber, 1%Q); (Infinite, (-1)%Q)].
Proof. exact zigzag_two. Qed.
Print Assumptions C76_zigzag_two_refuted.

(** Whatever the random numbers, a random star with at least three vertices and positive radii is a simple polygon that
    is star-shaped around the origin and counter-clockwise. *)
Theorem C76_random_star :
  forall min_vert max_vert min_r max_r ps, (3 <= min_vert)%nat -> (0 < min_r)%R -> random_star min_vert max_vert min_r max_r ps ->
  (min_vert <= length ps <= max_vert)%nat /\ simple_rpolygon ps /\ star_shaped ps /\ (0 < rarea2 ps)%R.
Proof. exact random_ok. Qed.
Print Assumptions C76_random_star.

Example C76_random_star_example : exists ps, random_star 3 7 1 2 ps /\ length ps = 5%nat /\ corner ps 0 = (1, 0)%R.
Proof. exact star5. Qed.

(** With radii down to zero it need not be simple. *)
Theorem C76_zero_radius_refuted : exists ps, random_star 4 4 0 1 ps /\ ~ simple_rpolygon ps.
Proof. exact zero_radius. Qed.
Print Assumptions C76_zero_radius_refuted.
