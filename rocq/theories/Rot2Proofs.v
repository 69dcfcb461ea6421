(** Proofs for rotations of the plane. *)
From Coq Require Import Reals Lra Lia.
From Verif Require Import Base Cdt CdtProofs Sphere Angles PlaneRotProofs Rot2.
Set Implicit Arguments.
Unset Strict Implicit.
Local Open Scope R_scope.

(** Inner product and signed area of two vectors. *)
Definition dot2 (a b : R * R) : R := fst a * fst b + snd a * snd b.
Definition perp2 (a b : R * R) : R := fst a * snd b - snd a * fst b.

Theorem angle_rotates angle : let h := apply2 (from_angle2 angle) in
  (forall p q, dot2 (h p) (h q) = dot2 p q /\ perp2 (h p) (h q) = perp2 p q) /\
  (forall p, dot2 p (h p) = cos angle * dot2 p p /\ perp2 p (h p) = sin angle * dot2 p p).
Proof.
  cbv zeta. pose proof (sc2 angle) as T. assert (S : sin angle * sin angle = 1 - cos angle * cos angle) by lra.
  split; [intros p q|intros p]; unfold dot2, perp2, apply2, from_angle2; cbn [fst snd]; split; try ring; ring [S].
Qed.
Theorem angles_add a b p : apply2 (from_angle2 a) (apply2 (from_angle2 b) p) = apply2 (from_angle2 (a + b)) p.
Proof. unfold apply2, from_angle2. cbn [fst snd]. rewrite cos_plus, sin_plus. f_equal; ring. Qed.

Lemma len2_sq v : len2 v * len2 v = dot2 v v.
Proof. unfold len2, dot2. apply sqrt_sqrt. pose proof (Rle_0_sqr (fst v)) as A. pose proof (Rle_0_sqr (snd v)) as B. unfold Rsqr in A, B. lra. Qed.
Lemma len2_nonneg v : 0 <= len2 v.
Proof. apply sqrt_pos. Qed.
Lemma len2_zero v : len2 v = 0 <-> v = (0, 0).
Proof.
  split.
  - intros Z. pose proof (len2_sq v) as H. rewrite Z in H. unfold dot2 in H. destruct v as [x y]. cbn [fst snd] in H.
    pose proof (Rle_0_sqr x). pose proof (Rle_0_sqr y). unfold Rsqr in *.
    assert (x * x = 0 /\ y * y = 0) as [A B] by lra. apply Rmult_integral in A, B. assert (x = 0 /\ y = 0) as [-> ->] by tauto. reflexivity.
  - intros ->. unfold len2. cbn [fst snd]. replace (0 * 0 + 0 * 0) with 0 by ring. apply sqrt_0.
Qed.

(** an angle with the right cosine and sine takes the first direction to the second *)
Lemma carry a b x : a <> (0, 0) -> b <> (0, 0) -> len2 a * len2 b * cos x = dot2 a b -> len2 a * len2 b * sin x = perp2 a b ->
  apply2 (from_angle2 x) (fst a / len2 a, snd a / len2 a) = (fst b / len2 b, snd b / len2 b).
Proof.
  intros A B C S. assert (NA : len2 a <> 0) by (intros Z; apply len2_zero in Z; auto). assert (NB : len2 b <> 0) by (intros Z; apply len2_zero in Z; auto).
  assert (C' : cos x = dot2 a b / (len2 a * len2 b)) by (rewrite <- C; field; auto).
  assert (S' : sin x = perp2 a b / (len2 a * len2 b)) by (rewrite <- S; field; auto).
  pose proof (len2_sq a) as Q. unfold apply2, from_angle2. cbn [fst snd]. rewrite C', S'. unfold dot2, perp2 in *.
  set (la := len2 a) in *. set (lb := len2 b) in *. clearbody la lb. destruct a as [a1 a2], b as [b1 b2]. cbn [fst snd] in *. f_equal.
  - transitivity (b1 * (a1 * a1 + a2 * a2) / (la * la) / lb); [field; auto|]. rewrite <- Q. field. auto.
  - transitivity (b2 * (a1 * a1 + a2 * a2) / (la * la) / lb); [field; auto|]. rewrite <- Q. field. auto.
Qed.
Lemma lagrange a b : dot2 a b * dot2 a b + perp2 a b * perp2 a b = dot2 a a * dot2 b b.
Proof. unfold dot2, perp2. ring. Qed.
Lemma from_trig x y : cos x = cos y -> sin x = sin y -> from_angle2 x = from_angle2 y.
Proof. unfold from_angle2. intros -> ->. reflexivity. Qed.

Lemma nalgebra_angle a b : a <> (0, 0) -> b <> (0, 0) ->
  exists x, arc2_nalgebra a b = from_angle2 x /\ - PI <= x <= PI /\ len2 a * len2 b * cos x = dot2 a b /\ len2 a * len2 b * sin x = perp2 a b.
Proof.
  intros A B. assert (NA : len2 a <> 0) by (intros Z; apply len2_zero in Z; auto). assert (NB : len2 b <> 0) by (intros Z; apply len2_zero in Z; auto).
  unfold arc2_nalgebra. destruct (Req_EM_T (len2 a) 0) as [|_]; [tauto|]. destruct (Req_EM_T (len2 b) 0) as [|_]; [tauto|]. cbv zeta. cbn [fst snd].
  eexists. split; [reflexivity|]. pose proof (len2_sq a) as QA. pose proof (len2_sq b) as QB. pose proof (lagrange a b) as LG. rewrite <- QA, <- QB in LG.
  set (la := len2 a) in *. set (lb := len2 b) in *.
  replace (fst a / la * (snd b / lb) - snd a / la * (fst b / lb)) with (perp2 a b / (la * lb)) by (unfold perp2; field; auto).
  replace (fst a / la * (fst b / lb) + snd a / la * (snd b / lb)) with (dot2 a b / (la * lb)) by (unfold dot2; field; auto).
  set (y := perp2 a b / (la * lb)). set (z := dot2 a b / (la * lb)).
  assert (YZ : z * z + y * y = 1).
  { transitivity ((dot2 a b * dot2 a b + perp2 a b * perp2 a b) / (la * la * (lb * lb))); [unfold y, z; field; auto|]. rewrite LG. field. auto. }
  unfold r_atan2_0. destruct (Req_EM_T _ 0) as [Z|_]; [lra|].
  destruct (@atan2_ok y z) as (R1 & CO & SI); [lra|]. rewrite YZ, sqrt_1, Rmult_1_l in CO, SI. rewrite CO, SI. split; auto. unfold y, z. split; field; auto.
Qed.
Lemma bevy_angle a b : a <> (0, 0) -> b <> (0, 0) ->
  exists x, angle_to a b = Some x /\ - PI <= x <= PI /\ len2 a * len2 b * cos x = dot2 a b /\ len2 a * len2 b * sin x = perp2 a b.
Proof.
  intros A B. assert (NA : len2 a <> 0) by (intros Z; apply len2_zero in Z; auto). assert (NB : len2 b <> 0) by (intros Z; apply len2_zero in Z; auto).
  pose proof (len2_nonneg a) as PA. pose proof (len2_nonneg b) as PB.
  unfold angle_to. fold (dot2 a a) (dot2 b b) (dot2 a b) (perp2 a b).
  rewrite <- (len2_sq a), <- (len2_sq b). pose proof (lagrange a b) as LG. rewrite <- (len2_sq a), <- (len2_sq b) in LG.
  set (la := len2 a) in *. set (lb := len2 b) in *. clearbody la lb.
  assert (PL : 0 < la * lb) by (apply Rmult_lt_0_compat; lra).
  assert (L : sqrt (la * la * (lb * lb)) = la * lb) by (replace (la * la * (lb * lb)) with ((la * lb) * (la * lb)) by ring; apply sqrt_square; lra).
  rewrite L. destruct (Req_EM_T _ 0) as [Z|_]; [lra|]. eexists. split; [reflexivity|].
  set (d := dot2 a b) in *. set (p := perp2 a b) in *. clearbody d p. set (l := la * lb) in *.
  assert (LL : d * d + p * p = l * l) by (rewrite LG; unfold l; ring).
  assert (D : -1 <= d / l <= 1).
  { pose proof (Rle_0_sqr p) as P2. unfold Rsqr in P2. assert (- l <= d <= l) by (split; apply Rnot_lt_le; intros C; nra).
    split; apply (Rmult_le_reg_r l); auto; unfold Rdiv; rewrite Rmult_assoc, Rinv_l by lra; lra. }
  pose proof (acos_bound (d / l)) as AB. pose proof (cos_acos _ D) as CA. pose proof (sin_acos _ D) as SA.
  assert (S : l * sqrt (1 - Rsqr (d / l)) = Rabs p).
  { rewrite <- sqrt_Rsqr_abs. replace (Rsqr p) with ((l * l) * (1 - Rsqr (d / l))) by (unfold Rsqr; field_simplify; [|lra]; lra).
    rewrite sqrt_mult_alt by nra. rewrite sqrt_square by lra. reflexivity. }
  destruct (Rle_dec 0 p) as [P|P].
  - rewrite Rmult_1_r, CA, SA, S, Rabs_right by lra. pose proof PI_RGT_0. repeat split; try lra. field. lra.
  - replace (acos (d / l) * -1) with (- acos (d / l)) by ring. rewrite cos_neg, sin_neg, CA, SA. pose proof PI_RGT_0.
    repeat split; try lra; [field; lra|]. rewrite <- Ropp_mult_distr_r, S, Rabs_left by lra. ring.
Qed.

Theorem arc2_ok a b : a <> (0, 0) -> b <> (0, 0) -> exists x, - PI <= x <= PI /\ arc2_nalgebra a b = from_angle2 x /\ arc2_bevy a b = Some (from_angle2 x) /\
  apply2 (from_angle2 x) (fst a / len2 a, snd a / len2 a) = (fst b / len2 b, snd b / len2 b).
Proof.
  intros A B. destruct (nalgebra_angle A B) as (x & E & X & C & S). destruct (bevy_angle A B) as (y & F & Y & C' & S').
  assert (NA : len2 a <> 0) by (intros Z; apply len2_zero in Z; auto). assert (NB : len2 b <> 0) by (intros Z; apply len2_zero in Z; auto).
  assert (N : len2 a * len2 b <> 0) by (intros Z; apply Rmult_integral in Z; tauto).
  exists x. split; auto. split; auto. split; [|apply carry; auto]. unfold arc2_bevy. rewrite F. cbn [option_map]. f_equal.
  apply from_trig; apply (Rmult_eq_reg_l (len2 a * len2 b)); auto; congruence.
Qed.
Theorem arc2_zero a b p : a = (0, 0) \/ b = (0, 0) -> apply2 (arc2_nalgebra a b) p = p /\ arc2_bevy a b = None.
Proof.
  intros H. split.
  - unfold arc2_nalgebra. assert (I : apply2 (from_angle2 0) p = p).
    { unfold apply2, from_angle2. cbn [fst snd]. rewrite cos_0, sin_0. destruct p as [x y]. cbn [fst snd]. f_equal; ring. }
    destruct (Req_EM_T (len2 a) 0) as [|NA]; auto. destruct (Req_EM_T (len2 b) 0) as [|NB]; auto.
    exfalso. destruct H as [->| ->]; [apply NA|apply NB]; apply len2_zero; reflexivity.
  - unfold arc2_bevy, angle_to. destruct (Req_EM_T _ 0) as [|N]; [reflexivity|]. exfalso. apply N.
    destruct H as [->| ->]; cbn [fst snd]; match goal with |- sqrt ?x = 0 => replace x with 0 by ring end; apply sqrt_0.
Qed.
