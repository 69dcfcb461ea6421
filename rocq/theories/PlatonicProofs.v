(** The positions of the Platonic solids and the geodesic spheres built on them. *)
From Coq Require Import List Arith Lia Reals Lra Psatz.
From Verif Require Import Base DVec Mesh Spec MeshSpec MeshMore Solid SolidSpec
  ShapeProofs SphereProofs CountProofs SolidTri SubdivSpec SubdivFacts Sphere SphereSpec SphereFacts GeodesicProofs.
Import ListNotations.
Set Implicit Arguments.
Unset Strict Implicit.
Local Arguments abs : simpl never.
Local Open Scope R_scope.

Ltac each I := cbn [In] in I; repeat match type of I with _ \/ _ => destruct I as [I|I] | False => destruct I end.
Ltac points := repeat match goal with H : nth_error _ _ = Some _ |- _ => cbn [nth_error] in H; injection H as <- end.

Definition icosa_points (long short : R) : list vec3 :=
  [(0, long, - short); (long, short, 0); (short, 0, long); (- short, 0, long); (- long, short, 0)] ++ [(0, long, short)] ++
  [(short, 0, - long); (long, - short, 0); (0, - long, short); (- long, - short, 0); (- short, 0, - long)] ++ [(0, - long, - short)].

Lemma icosa_out L s i j k p q r : 0 < s -> s < L -> L * L = L * s + s * s -> In [i; j; k] (icosa_polys 5) ->
  nth_error (icosa_points L s) i = Some p -> nth_error (icosa_points L s) j = Some q -> nth_error (icosa_points L s) k = Some r -> outward zero3 p q r.
Proof.
  intros S LS G I. assert (L0 : 0 < L) by lra. assert (LL : 0 < L * L) by nra. assert (LLs : 0 < L * L * s) by nra. assert (Lss : 0 < L * s * s) by nra. assert (LLL : L * L * L = L * L * s + L * s * s) by nra. assert (0 < s * s * s) by nra.
  let l := eval vm_compute in (icosa_polys 5) in change (icosa_polys 5) with l in I.
  each I; injection I as <- <- <-; intros A B C; cbn [icosa_points app] in A, B, C; points; unfold outward; unfold det3, vsub, zero3.
  all: nra.
Qed.
Lemma icosa_sum L s : fold_left vadd (icosa_points L s) zero3 = zero3.
Proof. unfold icosa_points, zero3. cbn [app fold_left vadd]. f_equal; [f_equal|]; ring. Qed.

Lemma sqrt5 : sqrt 5 * sqrt 5 = 5 /\ 2 < sqrt 5 < 3.
Proof.
  assert (Q : sqrt 5 * sqrt 5 = 5) by (apply sqrt_sqrt; lra). split; auto. pose proof (sqrt_pos 5) as P. split; nra.
Qed.
Lemma golden_law l : 0 < l -> let L := l * golden * / 2 in let s := l * / 2 in 0 < s /\ s < L /\ L * L = L * s + s * s.
Proof.
  intros H L s. destruct sqrt5 as [Q [A B]]. unfold L, s, golden. split; [lra|]. split; nra.
Qed.
Lemma icosa_radius r : 0 < r -> let l := icosahedron_r2a r in 0 < l /\ (l * golden * / 2) * (l * golden * / 2) + (l * / 2) * (l * / 2) = r * r.
Proof.
  intros H l. destruct sqrt5 as [Q [A B]]. set (w := sqrt (10 + 2 * sqrt 5)).
  assert (W : w * w = 10 + 2 * sqrt 5) by (apply sqrt_sqrt; lra). assert (W0 : 0 < w) by (apply sqrt_lt_R0; lra).
  unfold l, icosahedron_r2a. fold w. split.
  - apply Rdiv_lt_0_compat; lra.
  - unfold golden. set (f := sqrt 5) in *. replace (4 * r / w * ((1 + f) / 2) * / 2 * (4 * r / w * ((1 + f) / 2) * / 2) + 4 * r / w * / 2 * (4 * r / w * / 2))
      with (r * r * (((1 + f) * (1 + f) + 4) / (w * w))) by (field; lra).
    rewrite W. replace ((1 + f) * (1 + f) + 4) with (10 + 2 * f) by (ring_simplify; nra). field. lra.
Qed.
Lemma sphere_sq r p : 0 < r -> vdot p p = r * r -> on_sphere zero3 r p.
Proof.
  intros H E. unfold on_sphere, vlen. replace (vsub p zero3) with p by (vec; f_equal; [f_equal|]; ring). rewrite E. apply sqrt_square. lra.
Qed.

Definition octa_points (r : R) : list vec3 := [(r, 0, 0); (0, 0, - r); (- r, 0, 0); (0, 0, r)] ++ [(0, r, 0); (0, - r, 0)].
Lemma circle_four r : circle_iter (circle_point r 4) 4 = ([(r, 0, 0); (0, 0, - r); (- r, 0, 0); (0, 0, r)] : list vec3).
Proof.
  assert (A0 : PI * INR (2 * 0) / INR 4 = 0) by (cbn; field).
  assert (A1 : PI * INR (2 * 1) / INR 4 = PI / 2) by (cbn; field).
  assert (A2 : PI * INR (2 * 2) / INR 4 = PI) by (cbn; field).
  assert (A3 : PI * INR (2 * 3) / INR 4 = 3 * (PI / 2)) by (cbn; field).
  unfold circle_iter. cbn [seq map]. unfold circle_point. rewrite A0, A1, A2, A3.
  rewrite cos_0, sin_0, cos_PI2, sin_PI2, cos_PI, sin_PI, cos_3PI2, sin_3PI2.
  repeat (f_equal; try ring).
Qed.
Lemma octa_out r0 i j k p q r : 0 < r0 -> In [i; j; k] (bipyramid_polys 4) ->
  nth_error (octa_points r0) i = Some p -> nth_error (octa_points r0) j = Some q -> nth_error (octa_points r0) k = Some r -> outward zero3 p q r.
Proof.
  intros S I. assert (0 < r0 * r0 * r0) by (repeat apply Rmult_lt_0_compat; auto).
  let l := eval vm_compute in (bipyramid_polys 4) in change (bipyramid_polys 4) with l in I.
  each I; injection I as <- <- <-; intros A B C; cbn [octa_points app] in A, B, C; points; unfold outward; unfold det3, vsub, zero3; nra.
Qed.
Lemma octa_sum r : fold_left vadd (octa_points r) zero3 = zero3.
Proof. unfold octa_points, zero3. cbn [app fold_left vadd]. f_equal; [f_equal|]; ring. Qed.

Definition tetra_points (l : R) : list vec3 :=
  let e := / 2 * l in let sq := e / sqrt 2 in [(- e, 0, - sq); (0, - e, sq); (e, 0, - sq)] ++ [(0, e, sq)].
Lemma tetra_out l i j k p q r : 0 < l -> In [i; j; k] (pyramid_polys 3) ->
  nth_error (tetra_points l) i = Some p -> nth_error (tetra_points l) j = Some q -> nth_error (tetra_points l) k = Some r -> outward zero3 p q r.
Proof.
  intros S I. unfold tetra_points. cbv zeta. set (e := / 2 * l). set (sq := e / sqrt 2).
  assert (E : 0 < e) by (unfold e; lra). assert (Q : 0 < sq) by (apply Rdiv_lt_0_compat; auto; apply sqrt_lt_R0; lra). clearbody e sq.
  assert (0 < e * e * sq) by (repeat apply Rmult_lt_0_compat; auto).
  let l := eval vm_compute in (pyramid_polys 3) in change (pyramid_polys 3) with l in I.
  each I; injection I as <- <- <-; intros A B C; cbn [app] in A, B, C; points; unfold outward; unfold det3, vsub, zero3; nra.
Qed.
Lemma tetra_sum l : fold_left vadd (tetra_points l) zero3 = zero3.
Proof. unfold tetra_points, zero3. cbn [app fold_left vadd]. f_equal; [f_equal|]; ring. Qed.
Lemma tetra_len l p : In p (tetra_points l) -> vdot p p = 3 / 8 * (l * l).
Proof.
  intros I. unfold tetra_points in I. cbv zeta in I. assert (S2 : sqrt 2 * sqrt 2 = 2) by (apply sqrt_sqrt; lra). assert (P2 : 0 < sqrt 2) by (apply sqrt_lt_R0; lra).
  set (e := / 2 * l) in *. set (sq := e / sqrt 2) in *.
  assert (Q : sq * sq = e * e / 2). { unfold sq. rewrite <- S2 at 3. field. lra. }
  assert (X : e * e = l * l / 4) by (unfold e; field).
  cbn [app] in I. each I; subst p; unfold vdot; nra.
Qed.

Section Geodesic.
  Context {EP FP : Type}.
  Notation mesh := (mesh vec3 EP FP).
  Implicit Types (c : cfg) (m : mesh).
  Variable (dE : EP) (dF : FP).

  Open Scope nat_scope.
  Lemma pow4_third k n : n + (4 ^ k - 1) / 3 * (3 * n) = 4 ^ k * n.
  Proof. destruct (four_pow k) as (t & A & B & _). rewrite B, A. nia. Qed.

  Lemma geodesic_icosahedron_ok c eps radius P k : (0 < radius)%R -> orientation c eps zero3 P ->
    60 * 4 ^ k <= capE c -> 2 + 10 * 4 ^ k <= capV c -> 20 * 4 ^ k <= capF c ->
    exists m : mesh, geodesic_icosahedron dE dF c eps radius (2 ^ k) = Ok m /\ wf m /\ triangles (abs m) /\ every_face P (abs m) /\
      (forall v p, lvv (abs m) v = true -> vp (abs m) v = Some p -> on_sphere zero3 radius p) /\
      num_edges m = 60 * 4 ^ k /\ num_vertices m = 2 + 10 * 4 ^ k /\ num_faces m = 20 * 4 ^ k.
  Proof.
    intros R0 O CE CV CF. assert (P4 : 1 <= 4 ^ k) by (apply Nat.neq_0_lt_0, Nat.pow_nonzero; discriminate).
    destruct (icosa_radius R0) as [LP LR]. set (l := icosahedron_r2a radius) in *.
    destruct (golden_law LP) as (G1 & G2 & G3). set (L := (l * golden * / 2)%R) in *. set (s := (l * / 2)%R) in *.
    destruct (@icosa_solid_fits vec3 _ _ dE dF c [(0, L, - s); (L, s, 0); (s, 0, L); (- s, 0, L); (- L, s, 0)]%R
      [(s, 0, - L); (L, - s, 0); (0, - L, s); (- L, - s, 0); (- s, 0, - L)]%R (0, L, s)%R (0, - L, - s)%R) as (m & E & Wm & S & F);
      [apply Nat.leb_le; reflexivity|reflexivity|cbn [length]; lia..|]. cbn [length] in S.
    destruct (@geodesic_ok _ _ dE dF c eps radius P k m (icosa_points L s) (icosa_polys 5) 30 R0 O Wm F S) as (m' & E' & Wm' & T & EF & VS & _ & N1 & N2 & N3).
    - apply tri_polyb_ok. reflexivity.
    - apply icosa_sum.
    - intros i j k' p q r. apply icosa_out; auto.
    - lia.
    - cbn [length icosa_points app]. pose proof (pow4_third k 10). lia.
    - change (length (icosa_polys 5)) with 20. lia.
    - exists m'. split; [|split; [auto|split; [auto|split; [auto|split; [|]]]]].
      + rewrite <- E'. apply (f_equal (fun x => geodesic dE c eps radius x (2 ^ k))). exact E.
      + intros v p Lv V. destruct (VS v p Lv V) as [I|]; auto. apply sphere_sq; auto. rewrite <- LR.
        cbn [icosa_points app] in I. each I; subst p; unfold vdot; ring.
      + rewrite N1, N2, N3. change (length (icosa_polys 5)) with 20. cbn [length icosa_points app]. pose proof (pow4_third k 10). lia.
  Qed.

  Lemma geodesic_octahedron_ok c eps radius P k : (0 < radius)%R -> orientation c eps zero3 P ->
    24 * 4 ^ k <= capE c -> 2 + 4 * 4 ^ k <= capV c -> 8 * 4 ^ k <= capF c ->
    exists m : mesh, geodesic_octahedron dE dF c eps radius (2 ^ k) = Ok m /\ wf m /\ triangles (abs m) /\ every_face P (abs m) /\
      (forall v p, lvv (abs m) v = true -> vp (abs m) v = Some p -> on_sphere zero3 radius p) /\
      num_edges m = 24 * 4 ^ k /\ num_vertices m = 2 + 4 * 4 ^ k /\ num_faces m = 8 * 4 ^ k.
  Proof.
    intros R0 O CE CV CF. assert (P4 : 1 <= 4 ^ k) by (apply Nat.neq_0_lt_0, Nat.pow_nonzero; discriminate).
    destruct (@bipyramid_solid_fits vec3 _ _ dE dF c [(radius, 0, 0); (0, 0, - radius); (- radius, 0, 0); (0, 0, radius)]%R (0, radius, 0)%R (0, - radius, 0)%R) as (m & E & Wm & S & F);
      [apply Nat.leb_le; reflexivity|cbn [length]; lia..|]. cbn [length] in S.
    destruct (@geodesic_ok _ _ dE dF c eps radius P k m (octa_points radius) (bipyramid_polys 4) 12 R0 O Wm F S) as (m' & E' & Wm' & T & EF & VS & _ & N1 & N2 & N3).
    - apply tri_polyb_ok. reflexivity.
    - apply octa_sum.
    - intros i j k' p q r. apply octa_out; auto.
    - lia.
    - cbn [length octa_points app]. pose proof (pow4_third k 4). lia.
    - change (length (bipyramid_polys 4)) with 8. lia.
    - exists m'. split; [|split; [auto|split; [auto|split; [auto|split; [|]]]]].
      + rewrite <- E'. apply (f_equal (fun x => geodesic dE c eps radius x (2 ^ k))). unfold octahedron_mesh, regular_octahedron. rewrite circle_four. exact E.
      + intros v p Lv V. destruct (VS v p Lv V) as [I|]; auto. apply sphere_sq; auto.
        cbn [octa_points app] in I. each I; subst p; unfold vdot; ring.
      + rewrite N1, N2, N3. change (length (bipyramid_polys 4)) with 8. cbn [length octa_points app]. pose proof (pow4_third k 4). lia.
  Qed.

  (** The four corners of the tetrahedron are not on the sphere. *)
  Lemma geodesic_tetrahedron_ok c eps radius P k : (0 < radius)%R -> orientation c eps zero3 P ->
    12 * 4 ^ k <= capE c -> 2 + 2 * 4 ^ k <= capV c -> 4 * 4 ^ k <= capF c ->
    exists m : mesh, geodesic_tetrahedron dE dF c eps radius (2 ^ k) = Ok m /\ wf m /\ triangles (abs m) /\ every_face P (abs m) /\
      (forall v p, lvv (abs m) v = true -> vp (abs m) v = Some p -> on_sphere zero3 (sqrt (3 / 8) * radius) p \/ on_sphere zero3 radius p) /\
      (exists v p, lvv (abs m) v = true /\ vp (abs m) v = Some p /\ ~ on_sphere zero3 radius p) /\
      num_edges m = 12 * 4 ^ k /\ num_vertices m = 2 + 2 * 4 ^ k /\ num_faces m = 4 * 4 ^ k.
  Proof.
    intros R0 O CE CV CF. assert (P4 : 1 <= 4 ^ k) by (apply Nat.neq_0_lt_0, Nat.pow_nonzero; discriminate).
    set (e := (/ 2 * radius)%R). set (sq := (e / sqrt 2)%R).
    destruct (@pyramid_solid_fits vec3 _ _ dE dF c [(- e, 0, - sq); (0, - e, sq); (e, 0, - sq)]%R (0, e, sq)%R) as (m & E & Wm & S & F);
      [apply Nat.leb_le; reflexivity|cbn [length]; lia..|]. cbn [length] in S.
    destruct (@geodesic_ok _ _ dE dF c eps radius P k m (tetra_points radius) (pyramid_polys 3) 6 R0 O Wm F S) as (m' & E' & Wm' & T & EF & VS & OLD & N1 & N2 & N3).
    - apply tri_polyb_ok. reflexivity.
    - apply tetra_sum.
    - intros i j k' p q r. apply tetra_out; auto.
    - lia.
    - cbn [length tetra_points app]. pose proof (pow4_third k 2). lia.
    - change (length (pyramid_polys 3)) with 4. lia.
    - exists m'. split; [|split; [auto|split; [auto|split; [auto|split; [|split]]]]].
      + rewrite <- E'. apply (f_equal (fun x => geodesic dE c eps radius x (2 ^ k))). exact E.
      + assert (S0 : (0 < sqrt (3 / 8))%R) by (apply sqrt_lt_R0; lra).
        intros v p Lv V. destruct (VS v p Lv V) as [I|]; auto. left. apply sphere_sq; [nra|].
        rewrite (tetra_len I). replace (sqrt (3 / 8) * radius * (sqrt (3 / 8) * radius))%R with ((sqrt (3 / 8) * sqrt (3 / 8)) * (radius * radius))%R by ring.
        rewrite sqrt_sqrt by lra. auto.
      + destruct (OLD (0, e, sq)%R) as (v & Lv & V); [do 3 right; left; reflexivity|]. exists v, (0, e, sq)%R. split; auto. split; auto.
        intros Q. assert (I : In (0, e, sq)%R (tetra_points radius)) by (do 3 right; left; reflexivity). apply tetra_len in I.
        unfold on_sphere in Q. assert (X : (vdot (0, e, sq) (0, e, sq) = radius * radius)%R).
        { rewrite <- Q. replace (vsub (0, e, sq)%R zero3) with (0, e, sq)%R by (unfold vsub, zero3; f_equal; [f_equal|]; ring). symmetry. apply len_sq. }
        rewrite I in X. nra.
      + rewrite N1, N2, N3. change (length (pyramid_polys 3)) with 4. cbn [length tetra_points app]. pose proof (pow4_third k 2). lia.
  Qed.
End Geodesic.
