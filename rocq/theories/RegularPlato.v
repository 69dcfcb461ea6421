(** The solids with fixed corners are convex, with equal sides. *)
From Coq Require Import List Arith Lia Reals Lra Psatz.
From Verif Require Import Base Mesh Sphere SphereSpec SolidSpec Solid PlatonicProofs Regular RegularSpec RegularTrig RegularProofs RegularUv.
Import ListNotations.
Set Implicit Arguments.
Unset Strict Implicit.
Local Open Scope R_scope.

Ltac at_pt := unfold pt; cbn [nth app].
Ltac below_len k K := unfold length in K; repeat (destruct k as [|k]; [|try (exfalso; lia)]).
(** A triangle whose plane is perpendicular to the sum of its corners. *)
Ltac tri_sum pts i j k := apply facet_tri with (vadd (pt pts i) (vadd (pt pts j) (pt pts k))) (vdot (vadd (pt pts i) (vadd (pt pts j) (pt pts k))) (pt pts i)).
Ltac out_tac solve_tac := match goal with NI : ~ In ?i ?l |- _ => first [exfalso; apply NI; cbn; tauto | clear NI; solve_tac] end.

Definition icosa_list L s : list vec3 := 
  [(0, L, - s); (L, s, 0); (s, 0, L); (- s, 0, L); (- L, s, 0); (0, L, s); (s, 0, - L); (L, - s, 0); (0, - L, s); (- L, - s, 0); (- s, 0, - L); (0, - L, - s)].
Lemma icosa_convex L s : 0 < s -> s < L -> L * L = L * s + s * s -> convex_solid (icosa_points L s) (icosa_polys 5).
Proof.
  intros HS LS G l I. change (icosa_points L s) with (icosa_list L s).
  assert (L0 : 0 < L) by lra. assert (Ls : 0 < L * s) by (apply Rmult_lt_0_compat; auto). assert (ss : 0 < s * s) by (apply Rmult_lt_0_compat; auto).
  assert (D : 0 < (L - s) * s) by (apply Rmult_lt_0_compat; lra).
  assert (LLs : 0 < L * L * s) by (apply Rmult_lt_0_compat; nra). assert (Lss : 0 < L * s * s) by (apply Rmult_lt_0_compat; nra).
  assert (sss : 0 < s * s * s) by (apply Rmult_lt_0_compat; nra). assert (LLL : L * L * L = L * L * s + L * s * s) by nra.
  assert (LLs' : L * L * s = L * s * s + s * s * s) by nra.
  let l := eval vm_compute in (icosa_polys 5) in change (icosa_polys 5) with l in I.
  each I; subst l.
  all: match goal with |- facet ?p [?i; ?j; ?k] => tri_sum p i j k end; unfold icosa_list.
  all: try (at_pt; unfold vadd, vdot, vsub, det3; lra).
  all: intros k K NI; below_len k K; out_tac ltac:(at_pt; unfold vadd, vdot; lra).
Qed.
Lemma octa_convex r : 0 < r -> convex_solid (octa_points r) (bipyramid_polys 4).
Proof.
  intros HR l I. assert (rr : 0 < r * r) by (apply Rmult_lt_0_compat; auto). assert (rrr : 0 < r * r * r) by (apply Rmult_lt_0_compat; auto).
  let l := eval vm_compute in (bipyramid_polys 4) in change (bipyramid_polys 4) with l in I.
  let l := eval cbn [octa_points app] in (octa_points r) in change (octa_points r) with l.
  each I; subst l.
  all: match goal with |- facet ?p [?i; ?j; ?k] => tri_sum p i j k end.
  all: try (at_pt; unfold vadd, vdot, vsub, det3; lra).
  all: intros k K NI; below_len k K; out_tac ltac:(at_pt; unfold vadd, vdot; lra).
Qed.
(** the third coordinate of the tetrahedron *)
Lemma tetra_sq l : 0 < l -> let e := / 2 * l in let sq := e / sqrt 2 in 0 < e /\ 0 < sq /\ e * e = 2 * (sq * sq).
Proof.
  intros HL e sq. assert (S2 : sqrt 2 * sqrt 2 = 2) by (apply sqrt_sqrt; lra). assert (P2 : 0 < sqrt 2) by (apply sqrt_lt_R0; lra).
  assert (E : 0 < e) by (unfold e; lra). split; auto. split; [apply Rdiv_lt_0_compat; auto|].
  unfold sq. rewrite <- S2 at 1. field. lra.
Qed.
Lemma tetra_convex l : 0 < l -> convex_solid (tetra_points l) (pyramid_polys 3).
Proof.
  intros HL t I. destruct (tetra_sq HL) as (E & Q & EQ). unfold tetra_points. cbv zeta in *. set (e := / 2 * l) in *. set (sq := e / sqrt 2) in *. clearbody e sq.
  assert (qq : 0 < sq * sq) by (apply Rmult_lt_0_compat; auto). assert (qqe : 0 < sq * sq * e) by (apply Rmult_lt_0_compat; auto).
  assert (qqq : 0 < sq * sq * sq) by (apply Rmult_lt_0_compat; auto). assert (eeq : 0 < e * e * sq) by (repeat apply Rmult_lt_0_compat; auto).
  let l := eval vm_compute in (pyramid_polys 3) in change (pyramid_polys 3) with l in I. cbn [app].
  each I; subst t.
  all: match goal with |- facet ?p [?i; ?j; ?k] => tri_sum p i j k end.
  all: try (at_pt; unfold vadd, vdot, vsub, det3; lra).
  all: try (at_pt; unfold vadd, vdot, vsub, det3; nra).
  all: intros k K NI; below_len k K; out_tac ltac:(at_pt; unfold vadd, vdot; lra).
Qed.
Definition box_points (x y z : R) : list vec3 :=
  [(- x, - y, - z); (x, - y, - z); (x, y, - z); (- x, y, - z); (- x, - y, z); (x, - y, z); (x, y, z); (- x, y, z)].
Definition box_polys : list (list nat) := [[0; 3; 2; 1]; [0; 1; 5; 4]; [1; 2; 6; 5]; [2; 3; 7; 6]; [3; 0; 4; 7]; [4; 5; 6; 7]]%nat.
Lemma box_convex x y z : 0 < x -> 0 < y -> 0 < z -> convex_solid (box_points x y z) box_polys.
Proof.
  intros X Y Z l I. unfold box_polys in I. assert (xy : 0 < x * y) by (apply Rmult_lt_0_compat; auto). assert (yz : 0 < y * z) by (apply Rmult_lt_0_compat; auto). assert (xz : 0 < x * z) by (apply Rmult_lt_0_compat; auto).
  unfold box_points. each I; subst l;
    [apply facet_quad with (0, 0, -1) z|apply facet_quad with (0, -1, 0) y|apply facet_quad with (1, 0, 0) x
    |apply facet_quad with (0, 1, 0) y|apply facet_quad with (-1, 0, 0) x|apply facet_quad with (0, 0, 1) z].
  all: try (at_pt; unfold vdot, vsub, det3; nra).
  all: intros k K NI; below_len k K; out_tac ltac:(at_pt; unfold vdot; lra).
Qed.

(** ** side lengths and radii *)
Lemma dist_sq p q s : 0 <= s -> vdot (vsub p q) (vsub p q) = s * s -> dist p q = s.
Proof. intros S E. unfold dist, vlen. rewrite E. apply sqrt_square. auto. Qed.
Lemma icosa_sides l : 0 < l -> sides (icosa_points (l * golden * / 2) (l * / 2)) (icosa_polys 5) l.
Proof.
  intros H. destruct (golden_law H) as (S & LS & G). cbv zeta in *. set (L := l * golden * / 2) in *. set (s := l * / 2) in *.
  assert (E : l = 2 * s) by (unfold s; field). clearbody L s. subst l.
  intros p i j I C. change (icosa_points L s) with (icosa_list L s). unfold icosa_list.
  let l := eval vm_compute in (icosa_polys 5) in change (icosa_polys 5) with l in I.
  each I; subst p; cbn [cyc tl firstn app combine] in C; each C; injection C as <- <-.
  all: apply dist_sq; [lra|at_pt; unfold vsub, vdot; nra].
Qed.
Lemma icosa_on l : 0 < l -> Forall (on_sphere zero3 (icosahedron_a2r l)) (icosa_points (l * golden * / 2) (l * / 2)).
Proof.
  intros H. destruct sqrt5 as [Q [A B]]. set (w := sqrt (10 + 2 * sqrt 5)).
  assert (W : w * w = 10 + 2 * sqrt 5) by (apply sqrt_sqrt; lra). assert (W0 : 0 < w) by (apply sqrt_lt_R0; lra).
  assert (AP : 0 < icosahedron_a2r l) by (unfold icosahedron_a2r; fold w; apply Rdiv_lt_0_compat; nra).
  assert (E : icosahedron_a2r l * icosahedron_a2r l = (l * golden * / 2) * (l * golden * / 2) + (l * / 2) * (l * / 2)).
  { unfold icosahedron_a2r. fold w. replace (w * l / 4 * (w * l / 4)) with (w * w * (l * l) / 16) by field. rewrite W. unfold golden.
    replace (l * ((1 + sqrt 5) / 2) * / 2 * (l * ((1 + sqrt 5) / 2) * / 2)) with (l * l * (1 + 2 * sqrt 5 + sqrt 5 * sqrt 5) / 16) by field. rewrite Q. field. }
  set (L := l * golden * / 2) in *. set (s := l * / 2) in *. unfold icosa_points. cbn [app].
  repeat (constructor; [apply sphere_sq; auto; unfold vdot; lra|]). constructor.
Qed.
Lemma icosa_inverse x : icosahedron_a2r (icosahedron_r2a x) = x /\ icosahedron_r2a (icosahedron_a2r x) = x.
Proof.
  destruct sqrt5 as [Q [A B]]. unfold icosahedron_a2r, icosahedron_r2a. set (w := sqrt (10 + 2 * sqrt 5)).
  assert (W0 : 0 < w) by (apply sqrt_lt_R0; lra). split; field; lra.
Qed.
Lemma octa_sides r : 0 < r -> sides (octa_points r) (bipyramid_polys 4) (r * sqrt 2).
Proof.
  intros H p i j I C. assert (S2 : sqrt 2 * sqrt 2 = 2) by (apply sqrt_sqrt; lra). assert (P2 : 0 < sqrt 2) by (apply sqrt_lt_R0; lra).
  assert (E : r * sqrt 2 * (r * sqrt 2) = 2 * (r * r)) by (transitivity (r * r * (sqrt 2 * sqrt 2)); [ring|rewrite S2; ring]).
  assert (0 < r * sqrt 2) by (apply Rmult_lt_0_compat; auto).
  let l := eval cbn [octa_points app] in (octa_points r) in change (octa_points r) with l.
  let l := eval vm_compute in (bipyramid_polys 4) in change (bipyramid_polys 4) with l in I.
  each I; subst p; cbn [cyc tl firstn app combine] in C; each C; injection C as <- <-.
  all: apply dist_sq; [lra|at_pt; unfold vsub, vdot; rewrite E; ring].
Qed.
Lemma octa_on r : 0 < r -> Forall (on_sphere zero3 r) (octa_points r).
Proof. intros H. unfold octa_points. cbn [app]. repeat (constructor; [apply sphere_sq; auto; unfold vdot; ring|]). constructor. Qed.
Lemma tetra_sides l : 0 < l -> sides (tetra_points l) (pyramid_polys 3) l.
Proof.
  intros H p i j I C. destruct (tetra_sq H) as (E & Q & EQ). unfold tetra_points. cbv zeta in *. set (sq := / 2 * l / sqrt 2) in *. cbn [app].
  let l := eval vm_compute in (pyramid_polys 3) in change (pyramid_polys 3) with l in I.
  each I; subst p; cbn [cyc tl firstn app combine] in C; each C; injection C as <- <-.
  all: apply dist_sq; [lra|at_pt; unfold vsub, vdot; nra].
Qed.
Lemma tetra_on l : 0 < l -> Forall (on_sphere zero3 (l * sqrt (3 / 8))) (tetra_points l).
Proof.
  intros H. assert (P : 0 < sqrt (3 / 8)) by (apply sqrt_lt_R0; lra). assert (Q : sqrt (3 / 8) * sqrt (3 / 8) = 3 / 8) by (apply sqrt_sqrt; lra).
  apply Forall_forall. intros p I. apply sphere_sq; [apply Rmult_lt_0_compat; auto|]. rewrite (tetra_len I).
  transitivity (sqrt (3 / 8) * sqrt (3 / 8) * (l * l)); [rewrite Q; auto|ring].
Qed.
