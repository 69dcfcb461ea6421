(** Property C89: rotations of the plane. *)
From Coq Require Import Reals Lra.
From Verif Require Import Base Angles Rot2 Rot2Proofs.
Local Open Scope R_scope.

(** C89. The rotation by an angle keeps inner products and signed areas, turns every vector by that angle, and
    rotations compose by adding their angles. *)
Theorem C89_angle : forall angle, let h := apply2 (from_angle2 angle) in
  (forall p q, dot2 (h p) (h q) = dot2 p q /\ perp2 (h p) (h q) = perp2 p q) /\
  (forall p, dot2 p (h p) = cos angle * dot2 p p /\ perp2 p (h p) = sin angle * dot2 p p).
Proof. exact angle_rotates. Qed.
Print Assumptions C89_angle.
Theorem C89_add : forall a b p, apply2 (from_angle2 a) (apply2 (from_angle2 b) p) = apply2 (from_angle2 (a + b)) p.
Proof. exact angles_add. Qed.
Print Assumptions C89_add.

(** The rotation from one vector to another takes the direction of the first to that of the second, opposite
    vectors included, by at most half a turn, and is the same in both backends. *)
Theorem C89_arc : forall a b, a <> (0, 0) -> b <> (0, 0) ->
  exists x, - PI <= x <= PI /\ arc2_nalgebra a b = from_angle2 x /\ arc2_bevy a b = Some (from_angle2 x) /\
    apply2 (from_angle2 x) (fst a / len2 a, snd a / len2 a) = (fst b / len2 b, snd b / len2 b).
Proof. exact arc2_ok. Qed.
Print Assumptions C89_arc.
(** For a zero vector nalgebra gives the identity and glam divides by zero. *)
Theorem C89_zero : forall a b p, a = (0, 0) \/ b = (0, 0) -> apply2 (arc2_nalgebra a b) p = p /\ arc2_bevy a b = None.
Proof. exact arc2_zero. Qed.
Print Assumptions C89_zero.

(** Opposite vectors meet the hypotheses of [C89_arc]. *)
Example C89_opposite : (1, 2) <> (0, 0) /\ (-2, -4) <> (0, 0).
Proof. split; intros H; assert (E := f_equal fst H); cbn [fst] in E; lra. Qed.
(** A quarter turn. *)
Example C89_quarter : apply2 (from_angle2 (PI / 2)) (3, 4) = (-4, 3).
Proof. unfold apply2, from_angle2. cbn [fst snd]. rewrite cos_PI2, sin_PI2. f_equal; ring. Qed.
