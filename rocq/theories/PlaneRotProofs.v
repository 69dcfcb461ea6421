(** Proofs for rotations of space. *)
From Coq Require Import List Arith Lia Bool Reals Lra.
From Verif Require Import Base Alg AlgSpec Transform Normals NormalsSpec NormalsProofs Plane PlaneSpec PlaneProofs PlaneRotSpec.
Set Implicit Arguments.
Unset Strict Implicit.
Local Open Scope R_scope.

Ltac split3 i L := destruct i as [|[|[|i]]]; [| | |lia].

Lemma rodrigues (u : rvec) s c h : rdot u u = 1 -> s * s + c * c = 1 ->
  (forall v i, (i < 3)%nat -> h v i = c * v i + s * vcross u v i + (1 - c) * rdot u v * u i) ->
  rigid h /\ (forall i, (i < 3)%nat -> h u i = u i) /\
  forall v, rdot u v = 0 -> rdot v (h v) = c * rdot v v /\ rdot u (vcross v (h v)) = s * rdot v v.
Proof.
  intros U T H.
  assert (U2 : u 2%nat * u 2%nat = 1 - u 0%nat * u 0%nat - u 1%nat * u 1%nat) by (unfold dot3 in U; lra).
  assert (S2 : s * s = 1 - c * c) by lra.
  repeat split.
  - intros p q. unfold dot3. rewrite !H by lia. unfold vcross, cross3, dot3. ring [U2 S2].
  - intros p q i L. rewrite H by lia. split3 i L; unfold vcross, cross3; rewrite !H by lia; unfold vcross, cross3, dot3; ring [U2 S2].
  - intros i L. rewrite H by lia. rewrite U. split3 i L; unfold vcross, cross3; ring.
  - unfold dot3 in *. rewrite !H by lia. unfold vcross, cross3, dot3. rewrite H0. ring.
  - assert (Z : u 2%nat * v 2%nat = - (u 0%nat * v 0%nat) - u 1%nat * v 1%nat) by (unfold dot3 in H0; lra).
    unfold vcross, cross3, dot3 in *. rewrite !H by lia. unfold vcross, cross3, dot3. rewrite H0.
    transitivity (s * ((v 0%nat * v 0%nat + v 1%nat * v 1%nat + v 2%nat * v 2%nat) * (u 0%nat * u 0%nat + u 1%nat * u 1%nat + u 2%nat * u 2%nat) - (u 0%nat * v 0%nat + u 1%nat * v 1%nat + u 2%nat * v 2%nat) * (u 0%nat * v 0%nat + u 1%nat * v 1%nat + u 2%nat * v 2%nat))); [ring|].
    rewrite H0, U. ring.
Qed.

Lemma sc2 a : sin a * sin a + cos a * cos a = 1.
Proof. pose proof (sin2_cos2 a) as H. unfold Rsqr in H. exact H. Qed.

(** ** About an axis *)
Lemma axis_angle_turns u angle : rdot u u = 1 -> turns u angle (a_apply 0 Rplus Rmult 3 (a_from_rotation 0 (from_axis_angle u angle))).
Proof.
  intros U. apply rodrigues; auto using sc2. intros v i L. rewrite apply_rotation. unfold from_axis_angle.
  destruct (Req_EM_T angle 0) as [->|N].
  - rewrite cos_0, sin_0. split3 i L; unfold dot3, ident; cbn [Nat.eqb]; ring.
  - split3 i L; unfold dot3, vcross, cross3; cbn [r_new]; ring.
Qed.
Lemma quat_turns u angle : rdot u u = 1 -> turns u angle (q_apply (q_axis_angle u angle)).
Proof.
  intros U. apply rodrigues; auto using sc2. intros v i L.
  assert (A : angle = 2 * (angle / 2)) by field. pose proof (sc2 (angle / 2)) as T.
  assert (C : cos angle = cos (angle / 2) * cos (angle / 2) - sin (angle / 2) * sin (angle / 2)) by (rewrite A at 1; apply cos_2a).
  assert (S : sin angle = 2 * sin (angle / 2) * cos (angle / 2)) by (rewrite A at 1; apply sin_2a).
  rewrite C, S. unfold q_axis_angle, q_apply. set (s := sin (angle / 2)) in *. set (c := cos (angle / 2)) in *. clearbody s c.
  assert (S2 : s * s = 1 - c * c) by lra.
  assert (U2 : u 2%nat * u 2%nat = 1 - u 0%nat * u 0%nat - u 1%nat * u 1%nat) by (unfold dot3 in U; lra).
  split3 i L; unfold r_dot, r_cross, dot3, vcross, cross3; cbn [r_new]; ring [U2 S2].
Qed.

(** ** From one direction to another *)
Lemma cross_len (a b : rvec) : rdot a a = 1 -> rdot b b = 1 -> rdot (vcross a b) (vcross a b) = 1 - rdot a b * rdot a b.
Proof.
  intros A B. transitivity (rdot a a * rdot b b - rdot a b * rdot a b); [|rewrite A, B; ring].
  unfold dot3, vcross, cross3. ring.
Qed.
Lemma arc_core (a b : rvec) n d h : rdot a a = 1 -> rdot b b = 1 -> d = rdot a b -> 0 < n -> n * n = 1 - d * d ->
  (forall v i, (i < 3)%nat -> h v i = d * v i + n * vcross (fun i => vcross a b i / n) v i + (1 - d) * rdot (fun i => vcross a b i / n) v * (vcross a b i / n)) ->
  carries a b h.
Proof.
  intros A B D N NN H. pose proof (cross_len A B) as CL. rewrite <- D, <- NN in CL.
  set (w := fun i => vcross a b i / n) in *.
  assert (W : rdot w w = 1).
  { transitivity (rdot (vcross a b) (vcross a b) / (n * n)); [unfold dot3, w; field; lra|]. rewrite CL. field. lra. }
  assert (WA : rdot w a = 0) by (unfold dot3, w, vcross, cross3; field; lra).
  assert (WB : rdot w b = 0) by (unfold dot3, w, vcross, cross3; field; lra).
  destruct (@rodrigues w n d h W) as (Rg & Fx & _); [lra|exact H|].
  split; [exact Rg|]. split; [|exists w; auto].
  intros i L. rewrite H by lia. rewrite WA.
  assert (X : n * vcross w a i = rdot a a * b i - rdot a b * a i).
  { split3 i L; unfold w, vcross, cross3, dot3; field; lra. }
  rewrite X, A, <- D. ring.
Qed.
Lemma r_cross_eq a b i : (i < 3)%nat -> r_cross a b i = vcross a b i.
Proof. intros L. split3 i L; reflexivity. Qed.
Lemma dot_le (a b : rvec) : rdot a a = 1 -> rdot b b = 1 -> -1 <= rdot a b <= 1.
Proof.
  intros A B. pose proof (cross_len A B). pose proof (rdot_nonneg (vcross a b)). split; nra.
Qed.

Lemma arc_unit eps (a b : rvec) : 0 <= eps -> rdot a a = 1 -> rdot b b = 1 ->
  (eps * eps < 1 - rdot a b * rdot a b -> exists h, arc_nalgebra eps a b = Some h /\ carries a b h) /\
  (1 - rdot a b * rdot a b <= eps * eps -> 0 <= rdot a b -> exists h, arc_nalgebra eps a b = Some h /\ forall p i, (i < 3)%nat -> h p i = p i) /\
  (1 - rdot a b * rdot a b <= eps * eps -> rdot a b < 0 -> arc_nalgebra eps a b = None).
Proof.
  intros E A B. unfold arc_nalgebra, rotation_between. rewrite (len_dot a), (len_dot b), A, B, sqrt_1.
  destruct (Req_EM_T 1 0) as [|_]; [lra|]. cbv zeta. set (na := fun i => a i / 1). set (nb := fun i => b i / 1).
  assert (Na : forall i, na i = a i) by (intros; unfold na; field). assert (Nb : forall i, nb i = b i) by (intros; unfold nb; field).
  assert (Dt : r_dot na nb = rdot a b) by (unfold r_dot; rewrite !Na, !Nb; reflexivity). rewrite Dt.
  assert (Cr : forall i, (i < 3)%nat -> r_cross na nb i = vcross a b i).
  { intros i L. split3 i L; unfold r_cross, vcross, cross3; cbn [r_new]; rewrite !Na, !Nb; reflexivity. }
  set (c := r_cross na nb) in *. clearbody c.
  assert (LN : r_len c = sqrt (1 - rdot a b * rdot a b)).
  { rewrite len_dot. f_equal. rewrite <- (cross_len A B). unfold dot3. rewrite !Cr by lia. reflexivity. }
  rewrite LN. pose proof (dot_le A B) as DL. assert (P : 0 <= 1 - rdot a b * rdot a b) by nra.
  pose proof (sqrt_sqrt _ P) as SS. pose proof (sqrt_pos (1 - rdot a b * rdot a b)) as SP.
  remember (sqrt (1 - rdot a b * rdot a b)) as n eqn:En. remember (rdot a b) as d eqn:Ed.
  repeat split.
  - intros H. assert (eps < n) by nra. destruct (Rlt_dec eps n) as [_|]; [|tauto]. cbn [option_map]. eexists. split; [reflexivity|].
    apply (@arc_core a b n d); auto; [lra|]. intros v i L. rewrite apply_rotation. unfold from_axis_angle.
    destruct (Req_EM_T (acos d) 0) as [Z|_].
    { exfalso. assert (d = 1) by (rewrite <- (cos_acos _ DL), Z; apply cos_0). nra. }
    rewrite cos_acos, sin_acos by auto. replace (sqrt (1 - Rsqr d)) with n by (rewrite En; reflexivity).
    assert (n <> 0) by lra. pose proof (Cr 0%nat) as C0. pose proof (Cr 1%nat) as C1. pose proof (Cr 2%nat) as C2. clear En Ed.
    split3 i L; unfold dot3, vcross at 1, cross3 at 1; cbn [r_new]; rewrite <- ?C0, <- ?C1, <- ?C2 by lia; field; auto.
  - intros H P0. destruct (Rlt_dec eps n) as [|_]; [nra|]. destruct (Rlt_dec d 0) as [|_]; [lra|]. cbn [option_map]. eexists. split; [reflexivity|].
    intros p i L. rewrite apply_rotation. split3 i L; unfold dot3, ident; cbn [Nat.eqb]; ring.
  - intros H P0. destruct (Rlt_dec eps n) as [|_]; [nra|]. destruct (Rlt_dec d 0) as [_|]; [|lra]. reflexivity.
Qed.

Lemma orthonormal_ok (v : rvec) : rdot v v = 1 -> rdot (any_orthonormal v) (any_orthonormal v) = 1 /\ rdot (any_orthonormal v) v = 0.
Proof.
  intros V. unfold any_orthonormal. set (s := if Rlt_dec (v 2%nat) 0 then -1 else 1).
  assert (S : s * s = 1 /\ s + v 2%nat <> 0). { unfold s. destruct (Rlt_dec _ 0); split; lra. }
  destruct S as [SS NZ]. clearbody s. cbv zeta. set (k := -1 / (s + v 2%nat)).
  assert (K : k * (s + v 2%nat) = -1) by (unfold k; field; auto). clearbody k.
  unfold dot3 in *. cbn [r_new]. set (x := v 0%nat) in *. set (y := v 1%nat) in *. set (z := v 2%nat) in *. clearbody x y z.
  assert (K2 : k * (x * x + y * y) = z - s).
  { assert (x * x + y * y = (s - z) * (s + z)) as -> by lra. transitivity ((k * (s + z)) * (s - z)); [ring|]. rewrite K. ring. }
  split.
  - transitivity (s * s + y * y * (k * (k * (x * x + y * y)) + 2 * s * k + 1)); [ring|]. rewrite K2, SS.
    transitivity (1 + y * y * (k * (s + z) + 1)); [ring|]. rewrite K. ring.
  - transitivity (y * (k * (x * x + y * y) + s - z)); [ring|]. rewrite K2. ring.
Qed.

Lemma quat_arc eps (a b : rvec) : 0 < eps < 1 -> rdot a a = 1 -> rdot b b = 1 ->
  exists h, arc_bevy eps a b = Some h /\
    (- (1 - 2 * eps) <= rdot a b <= 1 - 2 * eps -> carries a b h) /\
    (1 - 2 * eps < rdot a b -> forall p i, (i < 3)%nat -> h p i = p i) /\
    (rdot a b < - (1 - 2 * eps) -> rdot a b <= 1 - 2 * eps -> exists w, rdot w w = 1 /\ rdot w a = 0 /\ turns w PI h).
Proof.
  intros E A B. eexists. split; [reflexivity|]. unfold q_arc. assert (Dt : r_dot a b = rdot a b) by reflexivity. rewrite Dt.
  pose proof (dot_le A B) as DL. split; [|split].
  - intros H. destruct (Rlt_dec _ _) as [?G|_]; [lra|]. destruct (Rlt_dec _ _) as [?G|_]; [lra|].
    pose proof (cross_len A B) as CL.
    assert (P : 0 <= 1 - rdot a b * rdot a b) by nra. pose proof (sqrt_sqrt _ P) as SS. pose proof (sqrt_lt_R0 (1 - rdot a b * rdot a b)) as SP.
    set (n := sqrt (1 - rdot a b * rdot a b)) in *.
    assert (-1 < rdot a b < 1) by lra. assert (N : 0 < n) by (apply SP; nra).
    apply (@arc_core a b n (rdot a b)); auto. intros v i L. unfold q_normalize.
    assert (CC : r_dot (r_cross a b) (r_cross a b) = 1 - rdot a b * rdot a b).
    { rewrite <- CL. unfold r_dot, dot3. rewrite (@r_cross_eq a b 0), (@r_cross_eq a b 1), (@r_cross_eq a b 2) by lia. reflexivity. }
    rewrite CC. set (l := sqrt _).
    assert (LL : l * l = 2 * (1 + rdot a b)). { unfold l. rewrite sqrt_sqrt; nra. }
    assert (LP : l <> 0) by (intros Z; rewrite Z in LL; lra).
    unfold q_apply. set (d := rdot a b) in *.
    assert (CD : r_dot (fun i => r_cross a b i / l) (fun i => r_cross a b i / l) = (1 - d * d) / (l * l)).
    { rewrite <- CC. unfold r_dot. field. auto. }
    rewrite CD.
    assert (VD : r_dot v (fun i => r_cross a b i / l) = rdot (vcross a b) v / l).
    { unfold r_dot, dot3. rewrite (@r_cross_eq a b 0), (@r_cross_eq a b 1), (@r_cross_eq a b 2) by lia. field. auto. }
    rewrite VD.
    assert (VC : r_cross (fun i => r_cross a b i / l) v i = vcross (vcross a b) v i / l).
    { rewrite r_cross_eq by auto. pose proof (@r_cross_eq a b 0) as C0. pose proof (@r_cross_eq a b 1) as C1. pose proof (@r_cross_eq a b 2) as C2.
      split3 i L; unfold vcross, cross3 in *; rewrite ?C0, ?C1, ?C2 by lia; field; auto. }
    rewrite VC. rewrite r_cross_eq by auto.
    assert (WD : rdot (fun i => vcross a b i / n) v = rdot (vcross a b) v / n) by (unfold dot3; field; lra).
    assert (WC : vcross (fun i => vcross a b i / n) v i = vcross (vcross a b) v i / n).
    { split3 i L; unfold vcross, cross3; field; lra. }
    rewrite WD, WC. set (x := vcross a b i). set (y := rdot (vcross a b) v). set (z := vcross (vcross a b) v i).
    transitivity (v i * ((1 + d) * (1 + d) - (1 - d * d)) / (l * l) + x * (y * 2) / (l * l) + z * ((1 + d) * 2) / (l * l)); [field; auto|].
    transitivity (d * v i + z + (1 - d) * y * x / (n * n)); [|field; lra].
    rewrite LL, SS. field. split; [nra|lra].
  - intros H p i L. destruct (Rlt_dec _ _) as [_|]; [|lra]. unfold q_apply. split3 i L; unfold r_dot, r_cross; cbn [r_new]; ring.
  - intros H H2. destruct (Rlt_dec _ _); [lra|]. destruct (Rlt_dec _ _) as [_|]; [|lra].
    destruct (orthonormal_ok A) as [O1 O2]. exists (any_orthonormal a). auto using quat_turns.
Qed.

Lemma axes_ok : rdot (r_new 1 0 0) (r_new 1 0 0) = 1 /\ rdot (r_new 0 (3 / 5) (4 / 5)) (r_new 0 (3 / 5) (4 / 5)) = 1 /\
  (/ 10) * (/ 10) < 1 - rdot (r_new 1 0 0) (r_new 0 (3 / 5) (4 / 5)) * rdot (r_new 1 0 0) (r_new 0 (3 / 5) (4 / 5)) /\
  - (1 - 2 * / 10) <= rdot (r_new 1 0 0) (r_new 0 (3 / 5) (4 / 5)) <= 1 - 2 * / 10.
Proof. unfold dot3. cbn [r_new]. lra. Qed.
