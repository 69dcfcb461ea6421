(** Proofs for angles, spherical coordinates and spherical interpolation. *)
From Coq Require Import Arith Lia Reals Lra.
From Verif Require Import Base Alg AlgSpec Normals NormalsSpec NormalsProofs PlaneSpec Plane PlaneProofs PlaneRotProofs Cdt CdtProofs Sphere Angles.
Set Implicit Arguments.
Unset Strict Implicit.
Local Open Scope R_scope.

Lemma clamp_id x : -1 <= x <= 1 -> clamp1 x = x.
Proof. intros H. unfold clamp1. destruct (Rlt_dec x (-1)); [lra|]. destruct (Rlt_dec 1 x); [lra|]. reflexivity. Qed.
Lemma cauchy (a b : rvec) : rdot a b * rdot a b <= rdot a a * rdot b b.
Proof.
  pose proof (rdot_nonneg (vcross a b)) as H.
  assert (E : rdot (vcross a b) (vcross a b) = rdot a a * rdot b b - rdot a b * rdot a b) by (unfold dot3, vcross, cross3; ring). lra.
Qed.
Lemma cos_range (a b : rvec) : 0 < r_len a -> 0 < r_len b -> -1 <= rdot a b / (r_len a * r_len b) <= 1.
Proof.
  intros A B. assert (P : 0 < r_len a * r_len b) by (apply Rmult_lt_0_compat; auto).
  pose proof (cauchy a b) as C. rewrite <- !len_sq in C.
  assert (Q : - (r_len a * r_len b) <= rdot a b <= r_len a * r_len b) by (split; apply Rnot_lt_le; intros X; nra).
  split; apply (Rmult_le_reg_r (r_len a * r_len b)); auto; unfold Rdiv; rewrite Rmult_assoc, Rinv_l by lra; lra.
Qed.
Lemma len_nonneg v : 0 <= r_len v.
Proof. apply sqrt_pos. Qed.

Theorem angle3_ok eps a b : 0 < eps -> eps <= r_len a -> eps <= r_len b ->
  0 <= angle_between3 eps a b <= PI /\ r_len a * r_len b * cos (angle_between3 eps a b) = rdot a b.
Proof.
  intros E A B. unfold angle_between3. rewrite !Rminus_0_r, !Rabs_right by (apply Rle_ge, len_nonneg).
  destruct (Rlt_dec (r_len a) eps); [lra|]. destruct (Rlt_dec (r_len b) eps); [lra|].
  change (r_dot a b) with (rdot a b).
  assert (C : -1 <= rdot a b / (r_len a * r_len b) <= 1) by (apply cos_range; lra). rewrite clamp_id by auto.
  split; [apply acos_bound|]. rewrite cos_acos by auto. field. lra.
Qed.
Theorem angle3_short eps a b : r_len a < eps \/ r_len b < eps -> angle_between3 eps a b = 0.
Proof.
  intros H. unfold angle_between3. rewrite !Rminus_0_r, !Rabs_right by (apply Rle_ge, len_nonneg).
  destruct (Rlt_dec (r_len a) eps); auto. destruct (Rlt_dec (r_len b) eps); auto. tauto.
Qed.
Theorem angle2_ok eps a b : 0 < eps -> let la := sqrt (fst a * fst a + snd a * snd a) in let lb := sqrt (fst b * fst b + snd b * snd b) in
  eps <= la -> eps <= lb ->
  - PI <= angle_between eps a b <= PI /\ la * lb * cos (angle_between eps a b) = fst a * fst b + snd a * snd b /\
  la * lb * sin (angle_between eps a b) = fst a * snd b - snd a * fst b.
Proof.
  cbv zeta. intros E A B. unfold angle_between. destruct a as [a1 a2], b as [b1 b2]. cbn [fst snd] in *.
  rewrite !Rminus_0_r, !Rabs_right by (apply Rle_ge, sqrt_pos).
  destruct (Rlt_dec (sqrt (a1 * a1 + a2 * a2)) eps); [lra|]. destruct (Rlt_dec (sqrt (b1 * b1 + b2 * b2)) eps); [lra|].
  assert (PA : 0 < a1 * a1 + a2 * a2) by (destruct (Rlt_le_dec 0 (a1 * a1 + a2 * a2)) as [|G]; auto; rewrite (sqrt_neg_0 _ G) in A; lra).
  assert (PB : 0 < b1 * b1 + b2 * b2) by (destruct (Rlt_le_dec 0 (b1 * b1 + b2 * b2)) as [|G]; auto; rewrite (sqrt_neg_0 _ G) in B; lra).
  assert (I : (a1 * b1 + a2 * b2) * (a1 * b1 + a2 * b2) + (a1 * b2 - a2 * b1) * (a1 * b2 - a2 * b1) = (a1 * a1 + a2 * a2) * (b1 * b1 + b2 * b2)) by ring.
  destruct (@atan2_ok (a1 * b2 - a2 * b1) (a1 * b1 + a2 * b2)) as (X & Y & Z). { rewrite I. apply Rmult_lt_0_compat; auto. }
  rewrite I, sqrt_mult in Y, Z by lra. auto.
Qed.

(** ** Spherical coordinates *)
Lemma split_len (v : rvec) : r_len v * r_len v = v 0%nat * v 0%nat + v 1%nat * v 1%nat + v 2%nat * v 2%nat.
Proof. rewrite len_sq. reflexivity. Qed.
Theorem spherical_cartesian v i : (i < 3)%nat -> cartesian (spherical v) i = v i.
Proof.
  intros L. unfold cartesian, spherical. cbn [r_new]. pose proof (split_len v) as S. pose proof (len_nonneg v) as N.
  set (r := r_len v) in *. set (x := v 0%nat) in *. set (y := v 1%nat) in *. set (z := v 2%nat) in *.
  pose proof (Rle_0_sqr x) as X2. pose proof (Rle_0_sqr y) as Y2. pose proof (Rle_0_sqr z) as Z2. unfold Rsqr in *.
  destruct (Req_EM_T r 0) as [Z|NZ].
  - rewrite Z in *. assert (x * x = 0 /\ y * y = 0 /\ z * z = 0) as (A & B & C) by lra.
    apply Rmult_integral in A, B, C. assert (x = 0 /\ y = 0 /\ z = 0) as (XX & YY & ZZ) by tauto.
    split3 i L; cbn [r_new]; fold x y z; rewrite ?XX, ?YY, ?ZZ; ring.
  - assert (P : 0 < r) by lra. assert (B : -1 <= z / r <= 1).
    { assert (- r <= z <= r) by (split; apply Rnot_lt_le; intros C; nra).
      split; apply (Rmult_le_reg_r r); auto; unfold Rdiv; rewrite Rmult_assoc, Rinv_l by lra; lra. }
    rewrite cos_acos, sin_acos by auto.
    assert (W : r * sqrt (1 - Rsqr (z / r)) = sqrt (x * x + y * y)).
    { replace (x * x + y * y) with ((r * r) * (1 - Rsqr (z / r))) by (unfold Rsqr; field_simplify; [|lra]; lra).
      rewrite sqrt_mult_alt by nra. rewrite sqrt_square by lra. reflexivity. }
    rewrite W. unfold r_atan2_0. destruct (Req_EM_T (x * x + y * y) 0) as [Q|Q].
    + assert (x * x = 0 /\ y * y = 0) as (A & A') by lra. apply Rmult_integral in A, A'. assert (x = 0 /\ y = 0) as (XX & YY) by tauto.
      rewrite Q, sqrt_0. split3 i L; cbn [r_new]; fold x y z; rewrite ?XX, ?YY; try ring. field. lra.
    + destruct (@atan2_ok y x) as (_ & CO & SI); [lra|]. split3 i L; cbn [r_new]; fold x y z; auto. field. lra.
Qed.
Lemma same_angle a b : - PI < a <= PI -> - PI < b <= PI -> cos a = cos b -> sin a = sin b -> a = b.
Proof.
  intros A B C S. assert (D : cos (a - b) = 1). { rewrite cos_minus, C, S. pose proof (sc2 b). lra. }
  assert (E : sin (a - b) = 0). { rewrite sin_minus, C, S. ring. }
  destruct (Rtotal_order a b) as [G|[G|G]]; auto; exfalso.
  - assert (Z : 0 <= b - a < 2 * PI) by lra. assert (b - a = 0); [|lra]. apply zero_turn; auto; replace (b - a) with (- (a - b)) by ring; rewrite ?sin_neg, ?cos_neg; lra.
  - assert (Z : 0 <= a - b < 2 * PI) by lra. assert (a - b = 0); [|lra]. apply zero_turn; auto; lra.
Qed.
Theorem cartesian_spherical (s : rvec) i : 0 < s 0%nat -> - PI < s 1%nat <= PI -> 0 < s 2%nat < PI -> (i < 3)%nat -> spherical (cartesian s) i = s i.
Proof.
  intros P PH TH L. set (r := s 0%nat) in *. set (phi := s 1%nat) in *. set (th := s 2%nat) in *.
  assert (ST : 0 < sin th) by (apply sin_gt_0; lra).
  assert (LN : r_len (cartesian s) = r).
  { rewrite len_dot. unfold dot3, cartesian. cbn [r_new]. fold r phi th.
    replace (r * sin th * cos phi * (r * sin th * cos phi) + r * sin th * sin phi * (r * sin th * sin phi) + r * cos th * (r * cos th)) with (r * r); [apply sqrt_square; lra|].
    pose proof (sc2 phi) as A. pose proof (sc2 th) as B.
    transitivity (r * r * (sin th * sin th * (sin phi * sin phi + cos phi * cos phi) + cos th * cos th)); [|ring]. rewrite A, Rmult_1_r, B. ring. }
  unfold spherical. rewrite LN. unfold cartesian. cbn [r_new]. fold r phi th.
  destruct (Req_EM_T r 0) as [|_]; [lra|].
  assert (W : 0 < r * sin th) by (apply Rmult_lt_0_compat; auto).
  assert (Q : r * sin th * cos phi * (r * sin th * cos phi) + r * sin th * sin phi * (r * sin th * sin phi) = (r * sin th) * (r * sin th)).
  { pose proof (sc2 phi) as A. transitivity ((r * sin th) * (r * sin th) * (sin phi * sin phi + cos phi * cos phi)); [ring|]. rewrite A. ring. }
  split3 i L; cbn [r_new]; fold r phi th; [reflexivity| |].
  - unfold r_atan2_0. destruct (Req_EM_T _ 0) as [Z|_]; [rewrite Q in Z; nra|].
    destruct (@atan2_ok (r * sin th * sin phi) (r * sin th * cos phi)) as (B & CO & SI); [rewrite Q; nra|].
    rewrite Q, sqrt_square in CO, SI by lra. apply Rmult_eq_reg_l in CO; [|lra]. apply Rmult_eq_reg_l in SI; [|lra].
    set (x := r_atan2 _ _) in *. apply same_angle; auto. split; [|lra].
    destruct (Req_dec x (- PI)) as [G|G]; [|lra]. exfalso.
    rewrite G in CO, SI. rewrite cos_neg, cos_PI in CO. rewrite sin_neg, sin_PI in SI.
    assert (phi = PI); [|].
    { apply same_angle; try lra; rewrite ?cos_PI, ?sin_PI; lra. }
    unfold x in G. rewrite H, sin_PI, Rmult_0_r in G. unfold r_atan2 in G. destruct (Rle_dec 0 0) as [_|]; [|lra].
    match type of G with acos ?y = _ => pose proof (acos_bound y) end. pose proof PI_RGT_0. lra.
  - replace (r * cos th / r) with (cos th) by (field; lra). apply acos_cos. lra.
Qed.

(** ** Spherical interpolation *)
Theorem slerp_ok eps (a b : rvec) t : rdot a a = 1 -> rdot b b = 1 -> let theta := acos (rdot a b) in
  sqrt eps <= theta -> theta <> 0 -> theta < PI ->
  exists s, slerp_at eps a b t = Some s /\ rdot s s = 1 /\ rdot a s = cos (t * theta) /\ rdot b s = cos ((1 - t) * theta) /\
    forall w, rdot w a = 0 -> rdot w b = 0 -> rdot w s = 0.
Proof.
  cbv zeta. intros A B T0 T1 T2. unfold slerp_at. change (r_dot a b) with (rdot a b). pose proof (dot_le A B) as D.
  rewrite (clamp_id D). pose proof (acos_bound (rdot a b)) as AB. pose proof (cos_acos _ D) as CA. set (th := acos (rdot a b)) in *.
  rewrite Rabs_right by lra. destruct (Rlt_dec th (sqrt eps)); [lra|].
  assert (S : 0 < sin th) by (apply sin_gt_0; lra). destruct (Req_EM_T (sin th) 0) as [|_]; [lra|]. eexists. split; [reflexivity|].
  set (u := t * th). replace ((1 - t) * th) with (th - u) by (unfold u; ring).
  rewrite sin_minus, cos_minus. pose proof (sc2 th) as ST. pose proof (sc2 u) as SU.
  set (c := cos th) in *. set (k := sin th) in *. set (cu := cos u) in *. set (su := sin u) in *. clearbody c k cu su.
  assert (D1 : forall p q w : R, forall v : rvec, rdot v (fun i => a i * p + b i * q) = p * rdot v a + q * rdot v b) by (intros; unfold dot3; ring).
  assert (BA : rdot b a = c) by (rewrite CA; unfold dot3; ring). rewrite <- CA in *.
  assert (F1 : rdot a (fun i => a i * ((k * cu - c * su) / k) + b i * (su / k)) = cu).
  { rewrite (D1 _ _ 0). rewrite A, <- CA. field. lra. }
  assert (F2 : rdot b (fun i => a i * ((k * cu - c * su) / k) + b i * (su / k)) = c * cu + k * su).
  { rewrite (D1 _ _ 0). rewrite B, BA. transitivity (c * cu + su * (1 - c * c) / k); [field; lra|]. replace (1 - c * c) with (k * k) by lra. field. lra. }
  split; [|split; [exact F1|split; [exact F2|]]].
  - set (s := fun i => _) in *. assert (E : rdot s s = (k * cu - c * su) / k * rdot a s + su / k * rdot b s) by (unfold s at 1, dot3; ring).
    rewrite E, F1, F2. transitivity (cu * cu + su * su); [field; lra|lra].
  - intros w WA WB. rewrite (D1 _ _ 0), WA, WB. ring.
Qed.
Theorem slerp_ends eps (a b : rvec) : rdot a a = 1 -> rdot b b = 1 -> let theta := acos (rdot a b) in
  sqrt eps <= theta -> theta <> 0 -> theta < PI ->
  exists s e, slerp_at eps a b 0 = Some s /\ slerp_at eps a b 1 = Some e /\ forall i, s i = a i /\ e i = b i.
Proof.
  cbv zeta. intros A B T0 T1 T2. unfold slerp_at. change (r_dot a b) with (rdot a b). pose proof (dot_le A B) as D.
  rewrite (clamp_id D). pose proof (acos_bound (rdot a b)) as AB. set (th := acos (rdot a b)) in *.
  rewrite Rabs_right by lra. destruct (Rlt_dec th (sqrt eps)); [lra|].
  assert (S : 0 < sin th) by (apply sin_gt_0; lra). destruct (Req_EM_T (sin th) 0) as [|_]; [lra|]. do 2 eexists. do 2 (split; [reflexivity|]).
  intros i. replace ((1 - 0) * th) with th by ring. replace ((1 - 1) * th) with 0 by ring. rewrite Rmult_0_l, Rmult_1_l, sin_0. split; field; lra.
Qed.
Theorem slerp_near eps (a b : rvec) t : rdot a a = 1 -> rdot b b = 1 -> acos (rdot a b) < sqrt eps -> slerp_at eps a b t = Some a.
Proof.
  intros A B T. unfold slerp_at. change (r_dot a b) with (rdot a b). rewrite (clamp_id (dot_le A B)).
  pose proof (acos_bound (rdot a b)). rewrite Rabs_right by lra. destruct (Rlt_dec _ _); [reflexivity|lra].
Qed.
Theorem slerp_near_refuted eps : 0 < eps <= 1 -> exists a b : rvec, rdot a a = 1 /\ rdot b b = 1 /\ (exists i, (i < 3)%nat /\ a i <> b i) /\ slerp_at eps a b 1 = Some a.
Proof.
  intros E. set (d := sqrt eps / 2). assert (S : 0 < sqrt eps) by (apply sqrt_lt_R0; lra).
  assert (S1 : sqrt eps <= 1) by (rewrite <- sqrt_1; apply sqrt_le_1_alt; lra).
  pose proof PI2_1 as P2. assert (DP : 0 < d < PI) by (unfold d; lra).
  exists (r_new 1 0 0), (r_new (cos d) (sin d) 0).
  assert (A : rdot (r_new 1 0 0) (r_new 1 0 0) = 1) by (unfold dot3; cbn [r_new]; ring).
  assert (B : rdot (r_new (cos d) (sin d) 0) (r_new (cos d) (sin d) 0) = 1) by (unfold dot3; cbn [r_new]; pose proof (sc2 d); lra).
  repeat split; auto.
  - exists 1%nat. split; [lia|]. cbn [r_new]. pose proof (sin_gt_0 d). lra.
  - apply slerp_near; auto. assert (rdot (r_new 1 0 0) (r_new (cos d) (sin d) 0) = cos d) as -> by (unfold dot3; cbn [r_new]; ring).
    rewrite acos_cos by lra. unfold d. lra.
Qed.
Theorem slerp_opposite eps (a b : rvec) t : 0 <= eps <= 1 -> rdot a a = 1 -> rdot b b = 1 -> rdot a b = -1 -> slerp_at eps a b t = None.
Proof.
  intros E A B O. unfold slerp_at. change (r_dot a b) with (rdot a b). rewrite O, clamp_id by lra.
  assert (acos (-1) = PI) as ->. { rewrite <- cos_PI. apply acos_cos. pose proof PI_RGT_0. lra. }
  pose proof PI2_1. assert (sqrt eps <= 1) by (rewrite <- sqrt_1; apply sqrt_le_1_alt; lra).
  rewrite Rabs_right by lra. destruct (Rlt_dec _ _); [lra|]. rewrite sin_PI. destruct (Req_EM_T 0 0); [reflexivity|lra].
Qed.

Lemma angles_example : let a := r_new 1 0 0 in let b := r_new 0 1 0 in
  rdot a a = 1 /\ rdot b b = 1 /\ sqrt (/ 100) <= acos (rdot a b) /\ acos (rdot a b) <> 0 /\ acos (rdot a b) < PI /\
  0 < / 100 <= r_len a /\ / 100 <= r_len b /\ rdot a (r_new (-1) 0 0) = -1.
Proof.
  cbv zeta. unfold r_len, dot3. cbn [r_new]. replace (1 * 0 + 0 * 1 + 0 * 0) with 0 by ring. rewrite acos_0.
  replace (1 * 1 + 0 * 0 + 0 * 0) with 1 by ring. replace (0 * 0 + 1 * 1 + 0 * 0) with 1 by ring. rewrite sqrt_1.
  replace (/ 100) with (/ 10 * / 10) by lra. rewrite sqrt_square by lra. pose proof PI2_1. repeat split; lra.
Qed.
