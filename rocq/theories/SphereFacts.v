(** Spherical interpolation keeps triangles outward and puts points on the sphere. *)
From Coq Require Import List Arith Reals Lra Psatz.
From Verif Require Import Base Sphere SphereSpec.
Set Implicit Arguments.
Unset Strict Implicit.
Local Open Scope R_scope.

Ltac vec := repeat match goal with a : vec3 |- _ => let x := fresh "x" in let y := fresh "y" in let z := fresh "z" in destruct a as [[x y] z] end;
  unfold vadd, vsub, vmul, vdiv, vdot, det3, zero3 in *.

Lemma dot_sym a b : vdot a b = vdot b a.
Proof. vec. ring. Qed.
Lemma dot_mul h a s : vdot h (vmul a s) = s * vdot h a.
Proof. vec. ring. Qed.
Lemma dot_add h a b : vdot h (vadd a b) = vdot h a + vdot h b.
Proof. vec. ring. Qed.
Lemma dot_self a : 0 <= vdot a a.
Proof. vec. nra. Qed.
Lemma len_sq a : vlen a * vlen a = vdot a a.
Proof. apply sqrt_sqrt, dot_self. Qed.
Lemma len_nonneg a : 0 <= vlen a.
Proof. apply sqrt_pos. Qed.
Lemma cauchy a b : vdot a b * vdot a b <= vdot a a * vdot b b.
Proof.
  vec. 
  assert (H : (x*x + y*y + z*z) * (x0*x0+y0*y0+z0*z0) - (x*x0+y*y0+z*z0)*(x*x0+y*y0+z*z0) = (x*y0-y*x0)*(x*y0-y*x0) + (y*z0-z*y0)*(y*z0-z*y0) + (z*x0-x*z0)*(z*x0-x*z0)) by ring.
  pose proof (Rle_0_sqr (x*y0-y*x0)) as A. pose proof (Rle_0_sqr (y*z0-z*y0)) as B. pose proof (Rle_0_sqr (z*x0-x*z0)) as C. unfold Rsqr in *. lra.
Qed.
Lemma len_pos h a : 0 < vdot h a -> 0 < vlen a.
Proof.
  intros H. destruct (len_nonneg a) as [|E]; auto. exfalso.
  pose proof (cauchy h a) as C. rewrite <- (len_sq a), <- E in C. nra.
Qed.
Lemma len_mul a s : 0 <= s -> vlen (vmul a s) = s * vlen a.
Proof.
  intros S. unfold vlen. rewrite dot_mul, dot_sym, dot_mul. replace (s * (s * vdot a a)) with (s * s * vdot a a) by ring.
  rewrite sqrt_mult; [|nra|apply dot_self]. rewrite sqrt_square; auto.
Qed.
Lemma norm_mul h a : 0 < vdot h a -> normalize a = vmul a (/ vlen a) /\ vlen (normalize a) = 1 /\ 0 < vdot h (normalize a).
Proof.
  intros H. pose proof (len_pos H) as P. unfold normalize. destruct (Req_EM_T (vlen a) 0) as [E|_]; [lra|].
  assert (Q : vdiv a (vlen a) = vmul a (/ vlen a)) by (vec; reflexivity). rewrite Q. split; auto. split.
  - rewrite len_mul; [field; lra|]. left. apply Rinv_0_lt_compat; auto.
  - rewrite dot_mul. apply Rmult_lt_0_compat; auto. apply Rinv_0_lt_compat; auto.
Qed.

Lemma unit_dot a b h : vlen a = 1 -> vlen b = 1 -> 0 < vdot h a -> 0 < vdot h b -> -1 < vdot a b <= 1.
Proof.
  intros A B HA HB. pose proof (len_sq a) as SA. pose proof (len_sq b) as SB. rewrite A in SA. rewrite B in SB.
  pose proof (cauchy a b) as C. rewrite <- SA, <- SB in C.
  assert (U : vdot a b <= 1) by nra. assert (L : -1 <= vdot a b) by nra. split; auto.
  destruct L as [|E]; auto. exfalso.
  assert (Z : vdot (vadd a b) (vadd a b) = 0) by (rewrite !dot_add, !(dot_sym (vadd a b)), !dot_add, (dot_sym b a); lra).
  pose proof (cauchy h (vadd a b)) as C2. rewrite Z, dot_add in C2. nra.
Qed.
Lemma unit_same a b : vlen a = 1 -> vlen b = 1 -> vdot a b = 1 -> a = b.
Proof.
  intros A B E. pose proof (len_sq a) as SA. pose proof (len_sq b) as SB. rewrite A in SA. rewrite B in SB.
  vec. assert (Z : (x-x0)*(x-x0) + (y-y0)*(y-y0) + (z-z0)*(z-z0) = 0) by nra.
  pose proof (Rle_0_sqr (x-x0)). pose proof (Rle_0_sqr (y-y0)). pose proof (Rle_0_sqr (z-z0)). unfold Rsqr in *.
  assert (x - x0 = 0) by nra. assert (y - y0 = 0) by nra. assert (z - z0 = 0) by nra. f_equal; [f_equal|]; lra.
Qed.

(** Half way between two unit vectors on one side of a plane. *)
Lemma slerp_half eps a b h : vlen a = 1 -> vlen b = 1 -> 0 < vdot h a -> 0 < vdot h b -> 0 < eps \/ a <> b ->
  exists s t, slerp_value eps a b = vadd (vmul a s) (vmul b t) /\ 0 <= t /\ 0 < s /\ (eps <= 0 -> 0 < t).
Proof.
  intros A B HA HB NE. pose proof (unit_dot A B HA HB) as [L U]. unfold slerp_value.
  assert (CL : clamp1 (vdot a b) = vdot a b).
  { unfold clamp1. destruct (Rlt_dec (vdot a b) (-1)); [lra|]. destruct (Rlt_dec 1 (vdot a b)); lra. }
  rewrite CL. set (th := acos (vdot a b)).
  assert (TB : 0 <= th <= PI) by apply acos_bound.
  assert (CT : cos th = vdot a b) by (apply cos_acos; lra).
  assert (TP : th < PI). { destruct (proj2 TB) as [|E]; auto. rewrite E, cos_PI in CT. lra. }
  destruct (Rlt_dec (Rabs th) (sqrt eps)) as [SM|BG].
  - exists 1, 0. split; [vec; f_equal; [f_equal|]; ring|]. split; [lra|]. split; [lra|].
    intros E. exfalso. rewrite sqrt_neg_0 in SM by auto. pose proof (Rabs_pos th). lra.
  - assert (T0 : 0 < th).
    { destruct (proj1 TB) as [|E]; auto. exfalso. destruct NE as [E'|NE].
      - rewrite <- E, Rabs_R0 in BG. apply BG. apply sqrt_lt_R0; auto.
      - apply NE. apply unit_same; auto. rewrite <- CT, <- E. apply cos_0. }
    assert (S1 : 0 < sin th) by (apply sin_gt_0; auto).
    assert (S2 : 0 < sin (/ 2 * th)) by (apply sin_gt_0; lra).
    exists (sin ((1 - / 2) * th) / sin th), (sin (/ 2 * th) / sin th). split; auto.
    assert (P : 0 < sin (/ 2 * th) / sin th) by (apply Rdiv_lt_0_compat; auto).
    replace (1 - / 2) with (/ 2) by lra. split; [lra|]. split; auto.
Qed.

(** The interpolated point. *)
Definition arc (o : vec3) (radius eps : R) (p q : vec3) : vec3 :=
  vadd o (vmul (normalize (slerp_value eps (normalize (vsub p o)) (normalize (vsub q o)))) radius).

Lemma sub_add o v : vsub (vadd o v) o = v.
Proof. vec. f_equal; [f_equal|]; ring. Qed.
Lemma mul_mul a s t : vmul (vmul a s) t = vmul a (s * t).
Proof. vec. f_equal; [f_equal|]; ring. Qed.
Lemma mul_add a b t : vmul (vadd a b) t = vadd (vmul a t) (vmul b t).
Proof. vec. f_equal; [f_equal|]; ring. Qed.

Lemma arc_ok o radius eps p q h : 0 < radius -> 0 < vdot h (vsub p o) -> 0 < vdot h (vsub q o) ->
  0 < eps \/ normalize (vsub p o) <> normalize (vsub q o) ->
  on_sphere o radius (arc o radius eps p q) /\
  exists s t, vsub (arc o radius eps p q) o = vadd (vmul (vsub p o) s) (vmul (vsub q o) t) /\ 0 < s /\ 0 <= t /\ (eps <= 0 -> 0 < t).
Proof.
  intros R0 HP HQ NE. destruct (norm_mul HP) as (P1 & P2 & P3). destruct (norm_mul HQ) as (Q1 & Q2 & Q3).
  destruct (slerp_half P2 Q2 P3 Q3 NE) as (s & t & E & T & S & ST).
  set (w := slerp_value eps (normalize (vsub p o)) (normalize (vsub q o))) in *.
  assert (HW : 0 < vdot h w) by (rewrite E, dot_add, !dot_mul; nra).
  destruct (norm_mul HW) as (W1 & W2 & W3). unfold on_sphere, arc. fold w. rewrite sub_add. split.
  - rewrite len_mul, W2; lra.
  - pose proof (len_pos HW) as LW. pose proof (len_pos HP) as LP. pose proof (len_pos HQ) as LQ.
    pose proof (Rinv_0_lt_compat _ LW) as IW. pose proof (Rinv_0_lt_compat _ LP) as IP. pose proof (Rinv_0_lt_compat _ LQ) as IQ.
    exists (/ vlen (vsub p o) * (s * (/ vlen w * radius))), (/ vlen (vsub q o) * (t * (/ vlen w * radius))).
    assert (K : 0 < / vlen w * radius) by (apply Rmult_lt_0_compat; auto).
    split.
    + rewrite W1. replace (vmul (vmul w (/ vlen w)) radius) with (vmul w (/ vlen w * radius)) by (rewrite mul_mul; auto).
      rewrite E at 1. rewrite mul_add, P1, Q1, !mul_mul. f_equal; f_equal; ring.
    + split; [apply Rmult_lt_0_compat; auto; apply Rmult_lt_0_compat; auto|]. split.
      * apply Rmult_le_pos; [lra|]. apply Rmult_le_pos; auto. lra.
      * intros E0. apply Rmult_lt_0_compat; auto. apply Rmult_lt_0_compat; auto.
Qed.

Lemma det_rot a b c : det3 b c a = det3 a b c.
Proof. vec. ring. Qed.
Lemma det_same a c : det3 a a c = 0.
Proof. vec. ring. Qed.

(** A positive determinant puts the triangle on one side of a plane. *)
Lemma det_side a b c : 0 < det3 a b c -> exists h, 0 < vdot h a /\ 0 < vdot h b /\ 0 < vdot h c.
Proof.
  intros D. destruct a as [[x y] z], b as [[u v] w], c as [[i j] k].
  exists ((v * k - w * j) + (j * z - k * y) + (y * w - z * v), (w * i - u * k) + (k * x - i * z) + (z * u - x * w), (u * j - v * i) + (i * y - j * x) + (x * v - y * u)).
  unfold det3 in D. unfold vdot. repeat split; nra.
Qed.
Lemma outward_weakly o p q r : outward o p q r -> weakly_outward o p q r.
Proof. intros H. split; [left; exact H|]. apply det_side; auto. Qed.
Lemma outward_rot o p q r : outward o p q r -> outward o q r p.
Proof. unfold outward. intros H. rewrite det_rot. exact H. Qed.
Lemma weakly_rot o p q r : weakly_outward o p q r -> weakly_outward o q r p.
Proof. unfold weakly_outward. intros (D & h & A & B & C). rewrite det_rot. split; auto. exists h. auto. Qed.

Lemma det_corner a b c s t s' t' :
  det3 a (vadd (vmul a s) (vmul b t)) (vadd (vmul c s') (vmul a t')) = t * s' * det3 a b c.
Proof. vec. ring. Qed.
Lemma det_centre a b c s1 t1 s2 t2 s3 t3 :
  det3 (vadd (vmul a s1) (vmul b t1)) (vadd (vmul b s2) (vmul c t2)) (vadd (vmul c s3) (vmul a t3)) = (s1 * s2 * s3 + t1 * t2 * t3) * det3 a b c.
Proof. vec. ring. Qed.

(** A point on the arc in either order. *)
Lemma arc_either o radius eps p q h x : 0 < radius -> 0 < vdot h (vsub p o) -> 0 < vdot h (vsub q o) ->
  0 < eps \/ normalize (vsub p o) <> normalize (vsub q o) -> x = arc o radius eps p q \/ x = arc o radius eps q p ->
  exists s t, vsub x o = vadd (vmul (vsub p o) s) (vmul (vsub q o) t) /\ 0 <= s /\ 0 <= t /\ 0 < s + t /\ (eps <= 0 -> 0 < s /\ 0 < t).
Proof.
  intros R0 HP HQ NE [-> | ->].
  - destruct (arc_ok R0 HP HQ NE) as (_ & s & t & E & A & B & C). exists s, t. split; auto. split; [lra|]. split; [lra|]. split; [lra|]. auto.
  - assert (NE' : 0 < eps \/ normalize (vsub q o) <> normalize (vsub p o)) by (destruct NE; auto).
    destruct (arc_ok R0 HQ HP NE') as (_ & s & t & E & A & B & C). exists t, s. split.
    { rewrite E. vec. f_equal; [f_equal|]; ring. }
    split; [lra|]. split; [lra|]. split; [lra|]. auto.
Qed.

Lemma combo_side h a b s t : 0 < vdot h a -> 0 < vdot h b -> 0 <= s -> 0 <= t -> 0 < s + t -> 0 < vdot h (vadd (vmul a s) (vmul b t)).
Proof. intros A B S T ST. rewrite dot_add, !dot_mul. destruct S as [S|<-]; nra. Qed.

Lemma weakly_step o radius eps p q r a b c : 0 < radius -> 0 < eps -> weakly_outward o p q r ->
  a = arc o radius eps p q \/ a = arc o radius eps q p -> b = arc o radius eps q r \/ b = arc o radius eps r q -> c = arc o radius eps r p \/ c = arc o radius eps p r ->
  weakly_outward o p a c /\ weakly_outward o a b c.
Proof.
  intros R0 E0 (D & h & HP & HQ & HR) EA EB EC.
  destruct (arc_either R0 HP HQ (or_introl E0) EA) as (s1 & t1 & A & A1 & A2 & A3 & _).
  destruct (arc_either R0 HQ HR (or_introl E0) EB) as (s2 & t2 & B & B1 & B2 & B3 & _).
  destruct (arc_either R0 HR HP (or_introl E0) EC) as (s3 & t3 & C & C1 & C2 & C3 & _).
  unfold weakly_outward. rewrite A, B, C, det_corner, det_centre. split; (split; [|exists h; repeat split; auto using combo_side]).
  - apply Rmult_le_pos; auto. apply Rmult_le_pos; auto.
  - apply Rmult_le_pos; auto. apply Rplus_le_le_0_compat; repeat apply Rmult_le_pos; auto.
Qed.

Lemma outward_apart o p q r h : outward o p q r -> 0 < vdot h (vsub p o) -> 0 < vdot h (vsub q o) -> normalize (vsub p o) <> normalize (vsub q o).
Proof.
  intros D HP HQ E. destruct (norm_mul HP) as (P1 & _). destruct (norm_mul HQ) as (Q1 & _). rewrite P1, Q1 in E.
  pose proof (len_pos HP) as LP. pose proof (len_pos HQ) as LQ. unfold outward in D.
  assert (X : vsub p o = vmul (vsub q o) (/ vlen (vsub q o) * vlen (vsub p o))).
  { transitivity (vmul (vmul (vsub p o) (/ vlen (vsub p o))) (vlen (vsub p o))).
    - rewrite mul_mul. rewrite Rinv_l by lra. generalize (vsub p o). intros v. vec. f_equal; [f_equal|]; ring.
    - rewrite E, mul_mul. auto. }
  rewrite X in D. set (k := / vlen (vsub q o) * vlen (vsub p o)) in *. clearbody k. clear - D.
  assert (Z : det3 (vmul (vsub q o) k) (vsub q o) (vsub r o) = 0).
  { generalize (vsub q o) (vsub r o). intros v w. vec. ring. }
  lra.
Qed.

Lemma outward_step o radius eps p q r a b c : 0 < radius -> eps <= 0 -> outward o p q r ->
  a = arc o radius eps p q \/ a = arc o radius eps q p -> b = arc o radius eps q r \/ b = arc o radius eps r q -> c = arc o radius eps r p \/ c = arc o radius eps p r ->
  outward o p a c /\ outward o a b c.
Proof.
  intros R0 E0 D EA EB EC. destruct (det_side D) as (h & HP & HQ & HR).
  pose proof (outward_apart D HP HQ) as N1. pose proof (outward_apart (outward_rot D) HQ HR) as N2.
  pose proof (outward_apart (outward_rot (outward_rot D)) HR HP) as N3.
  destruct (arc_either R0 HP HQ (or_intror N1) EA) as (s1 & t1 & A & _ & _ & _ & A1).
  destruct (arc_either R0 HQ HR (or_intror N2) EB) as (s2 & t2 & B & _ & _ & _ & B1).
  destruct (arc_either R0 HR HP (or_intror N3) EC) as (s3 & t3 & C & _ & _ & _ & C1).
  destruct (A1 E0), (B1 E0), (C1 E0). unfold outward in *. rewrite A, B, C, det_corner, det_centre. split.
  - repeat apply Rmult_lt_0_compat; auto.
  - apply Rmult_lt_0_compat; auto. apply Rplus_lt_0_compat; repeat apply Rmult_lt_0_compat; auto.
Qed.
