(** The meshes of the regular solids: topology and geometry together. *)
From Coq Require Import List Arith Lia Reals Lra.
From Verif Require Import Base DVec Mesh Spec Solid SolidSpec PartProofs ShapeProofs SphereProofs Sphere SphereSpec PlatonicProofs
  Regular RegularSpec RegularTrig RegularProofs RegularUv RegularPlato RegularMore.
Import ListNotations.
Set Implicit Arguments.
Unset Strict Implicit.
Local Arguments abs : simpl never.
Local Open Scope R_scope.

Section Top.
  Context {EP FP : Type}.
  Notation mesh := (mesh vec3 EP FP).
  Implicit Types (c : cfg) (m : mesh).
  Variable (dE : EP) (dF : FP).
  Notation ring r n s y := (circle_iter (circle_at r n s y) n).

  Lemma pyramid_top c r h n : (3 <= n)%nat -> 0 < r -> 0 < h -> (4 * n <= capE c)%nat -> (S n <= capV c)%nat -> (S n <= capF c)%nat ->
    let pts := ring r n 0 0 ++ [(0, h, 0)] in
    exists m, r_pyramid dE dF c r h n = Ok m /\ wf m /\ solid (abs m) dF pts (pyramid_polys n) (2 * n) /\ convex_solid pts (pyramid_polys n) /\
      forall l i j, In l (pyramid_polys n) -> In (i, j) (cyc l) ->
        dist (pt pts i) (pt pts j) = if (Nat.max i j <? n)%nat then regular_polygon_sidelength r n else sqrt (r * r + h * h).
  Proof.
    intros N HR HH A B D pts. destruct (@r_pyramid_ok EP FP dE dF c r h n N A B D) as (m & E & W & S). exists m. split; auto. split; auto. split; [exact S|].
    split; [exact (pyramid_convex N HR HH)|]. intros l i j I C. exact (@pyramid_sides n N r h HR l i j I C).
  Qed.
  Lemma frustum_top c r1 r2 h n : (3 <= n)%nat -> 0 < r1 -> 0 < r2 -> 0 < h -> (6 * n <= capE c)%nat -> (2 * n <= capV c)%nat -> (2 + n <= capF c)%nat ->
    let pts := ring r1 n 0 0 ++ ring r2 n 0 h in
    exists m, r_frustum dE dF c r1 r2 h n false = Ok m /\ wf m /\ solid (abs m) dF pts (frustum_polys n) (3 * n) /\ convex_solid pts (frustum_polys n).
  Proof.
    intros N R1 R2 HH A B D pts. destruct (@r_frustum_ok EP FP dE dF c r1 r2 h n N A B D) as (m & E & W & S). exists m. split; auto. split; auto. split; [exact S|].
    exact (frustum_convex N R1 R2 HH).
  Qed.
  Lemma prism_top c r h n : (3 <= n)%nat -> 0 < r -> 0 < h -> (6 * n <= capE c)%nat -> (2 * n <= capV c)%nat -> (2 + n <= capF c)%nat ->
    let pts := ring r n 0 0 ++ ring r n 0 h in
    exists m, r_prism dE dF c r h n = Ok m /\ wf m /\ solid (abs m) dF pts (frustum_polys n) (3 * n) /\ convex_solid pts (frustum_polys n) /\
      forall l i j, In l (frustum_polys n) -> In (i, j) (cyc l) ->
        dist (pt pts i) (pt pts j) = if Bool.eqb (i <? n)%nat (j <? n)%nat then regular_polygon_sidelength r n else h.
  Proof.
    intros N HR HH A B D pts. destruct (@r_prism_ok EP FP dE dF c r h n N HR A B D) as (m & E & W & S). exists m. split; auto. split; auto. split; [exact S|].
    split; [exact (frustum_convex N HR HR HH)|]. intros l i j I C. exact (@prism_sides n N r h HR HH l i j I C).
  Qed.
  Lemma side_pos r n : (3 <= n)%nat -> 0 < r -> 0 < regular_polygon_sidelength r n.
  Proof. intros N HR. pose proof (sin_d N). unfold regular_polygon_sidelength. apply Rmult_lt_0_compat; lra. Qed.
  Lemma uniform_prism_top c r n : (3 <= n)%nat -> 0 < r -> (6 * n <= capE c)%nat -> (2 * n <= capV c)%nat -> (2 + n <= capF c)%nat ->
    let s := regular_polygon_sidelength r n in let pts := ring r n 0 0 ++ ring r n 0 s in
    exists m, uniform_prism dE dF c r n = Ok m /\ wf m /\ solid (abs m) dF pts (frustum_polys n) (3 * n) /\ convex_solid pts (frustum_polys n) /\
      sides pts (frustum_polys n) s.
  Proof.
    intros N HR A B D s pts. destruct (@prism_top c r s n N HR (side_pos N HR) A B D) as (m & E & W & S & C & X). exists m. split; [exact E|]. split; auto. split; [exact S|]. split; [exact C|].
    intros l i j I J. pose proof (X l i j I J) as Q. unfold pts. rewrite Q. destruct (Bool.eqb _ _); auto.
  Qed.
  Lemma antiprism_top c r h n : (3 <= n)%nat -> 0 < r -> 0 < h -> (8 * n <= capE c)%nat -> (2 * n <= capV c)%nat -> (2 + 2 * n <= capF c)%nat ->
    let pts := ring r n 0 0 ++ ring r n 1 h in
    exists m, r_antiprism dE dF c r h n = Ok m /\ wf m /\ solid (abs m) dF pts (antiprism_polys n) (4 * n) /\ convex_solid pts (antiprism_polys n) /\
      (forall l i j, In l (antiprism_polys n) -> In (i, j) (cyc l) ->
        dist (pt pts i) (pt pts j) = if Bool.eqb (i <? n)%nat (j <? n)%nat then regular_polygon_sidelength r n else sqrt (2 * (r * r) * (1 - cos (PI / INR n)) + h * h)) /\
      (sides pts (antiprism_polys n) (regular_polygon_sidelength r n) <-> h * h = 2 * (r * r) * (cos (PI / INR n) - cos (2 * (PI / INR n)))).
  Proof.
    intros N HR HH A B D pts. destruct (@r_antiprism_ok EP FP dE dF c r h n N A B D) as (m & E & W & S). exists m. split; auto. split; auto. split; [exact S|].
    split; [exact (antiprism_convex N HR HH)|]. split; [intros l i j I C; exact (@antiprism_sides n N r h HR l i j I C)|exact (antiprism_height N HR HH)].
  Qed.
  Lemma uniform_antiprism_top c r n : (3 <= n)%nat -> 0 < r -> (8 * n <= capE c)%nat -> (2 * n <= capV c)%nat -> (2 + 2 * n <= capF c)%nat ->
    let pts := ring r n 0 0 ++ ring r n 1 (regular_polygon_sidelength r n * sqrt 3 * / 2) in
    exists m, uniform_antiprism dE dF c r n = Ok m /\ wf m /\ solid (abs m) dF pts (antiprism_polys n) (4 * n) /\
      ~ exists s, sides pts (antiprism_polys n) s.
  Proof.
    intros N HR A B D pts. destruct (@r_antiprism_ok EP FP dE dF c r (regular_polygon_sidelength r n * sqrt 3 * / 2) n N A B D) as (m & E & W & S). exists m. split; auto. split; auto. split; [exact S|].
    exact (antiprism_not_uniform N HR).
  Qed.
  Lemma uv_top c radius n k : (2 <= n)%nat -> (3 <= k)%nat -> 0 < radius ->
    (2 * ((2 * n - 1) * k) <= capE c)%nat -> (2 + (n - 1) * k <= capV c)%nat -> (n * k <= capF c)%nat ->
    let pts := sphere_points (uv_at radius n k) n k in
    exists m, r_uv_sphere dE dF c radius n k = Ok m /\ wf m /\ solid (abs m) dF pts (sphere_polys n k) ((2 * n - 1) * k) /\
      convex_solid pts (sphere_polys n k) /\ Forall (on_sphere zero3 radius) pts.
  Proof.
    intros N K HR A B D pts. destruct (@sphere_solid _ _ _ dE dF c (uv_at radius n k) n k N K A B D) as (m & E & W & S). exists m. split; auto. split; auto. split; [exact S|].
    split; [exact (uv_convex HR N K)|]. apply Forall_forall. exact (uv_on_sphere HR N K).
  Qed.
  Lemma cuboid_top c x y z : 0 < x -> 0 < y -> 0 < z -> (24 <= capE c)%nat -> (8 <= capV c)%nat -> (6 <= capF c)%nat ->
    let a := x / 2 in let b := y / 2 in let d := z / 2 in
    let pts := [(- a, - b, - d); (a, - b, - d); (a, b, - d); (- a, b, - d); (- a, - b, d); (a, - b, d); (a, b, d); (- a, b, d)] in
    let polys := [[0; 3; 2; 1]; [0; 1; 5; 4]; [1; 2; 6; 5]; [2; 3; 7; 6]; [3; 0; 4; 7]; [4; 5; 6; 7]]%nat in
    exists m, r_cuboid dE dF c (x, y, z) = Ok m /\ wf m /\ solid (abs m) dF pts polys 12 /\ convex_solid pts polys.
  Proof.
    intros X Y Z A B D a b d pts polys.
    destruct (@cuboid_solid _ _ _ dE dF c (- a, - b, - d) (a, - b, - d) (a, b, - d) (- a, b, - d) (- a, - b, d) (a, - b, d) (a, b, d) (- a, b, d) A B D) as (m & E & W & S).
    exists m. split; [exact E|]. split; auto. split; [exact S|]. apply (@box_convex a b d); unfold a, b, d; lra.
  Qed.
  Lemma icosa_top c l : 0 < l -> (60 <= capE c)%nat -> (12 <= capV c)%nat -> (20 <= capF c)%nat ->
    exists m pts, regular_icosahedron dE dF c l = Ok m /\ wf m /\ solid (abs m) dF pts (icosa_polys 5) 30 /\
      convex_solid pts (icosa_polys 5) /\ sides pts (icosa_polys 5) l /\ Forall (on_sphere zero3 (icosahedron_a2r l)) pts.
  Proof.
    intros H A B D. destruct (golden_law H) as (S & LS & G). cbv zeta in *.
    pose proof (@icosa_solid _ _ _ dE dF c [(0, l * golden * / 2, - (l * / 2)); (l * golden * / 2, l * / 2, 0); (l * / 2, 0, l * golden * / 2); (- (l * / 2), 0, l * golden * / 2); (- (l * golden * / 2), l * / 2, 0)]
      [(l * / 2, 0, - (l * golden * / 2)); (l * golden * / 2, - (l * / 2), 0); (0, - (l * golden * / 2), l * / 2); (- (l * golden * / 2), - (l * / 2), 0); (- (l * / 2), 0, - (l * golden * / 2))]
      (0, l * golden * / 2, l * / 2) (0, - (l * golden * / 2), - (l * / 2))) as X. cbv zeta in X. cbn [length] in X.
    destruct X as (m & E & W & SO); try lia. exists m, (icosa_points (l * golden * / 2) (l * / 2)). split; [exact E|]. split; auto. split; [exact SO|].
    split; [apply icosa_convex; auto|]. split; [apply icosa_sides; auto|apply icosa_on; auto].
  Qed.
  Lemma octa_top c r : 0 < r -> (24 <= capE c)%nat -> (6 <= capV c)%nat -> (8 <= capF c)%nat ->
    exists m pts, octahedron_mesh dE dF c r = Ok m /\ wf m /\ solid (abs m) dF pts (bipyramid_polys 4) 12 /\
      convex_solid pts (bipyramid_polys 4) /\ sides pts (bipyramid_polys 4) (r * sqrt 2) /\ Forall (on_sphere zero3 r) pts.
  Proof.
    intros H A B D. pose proof (@bipyramid_solid _ _ _ dE dF c [(r, 0, 0); (0, 0, - r); (- r, 0, 0); (0, 0, r)] (0, r, 0) (0, - r, 0)) as X. cbv zeta in X. cbn [length] in X.
    destruct X as (m & E & W & SO); try lia. exists m, (octa_points r). split; [unfold octahedron_mesh, regular_octahedron; rewrite circle_four; exact E|]. split; auto. split; [exact SO|].
    split; [apply octa_convex; auto|]. split; [apply octa_sides; auto|apply octa_on; auto].
  Qed.
  Lemma tetra_top c l : 0 < l -> (12 <= capE c)%nat -> (4 <= capV c)%nat -> (4 <= capF c)%nat ->
    exists m pts, regular_tetrahedron dE dF c l = Ok m /\ wf m /\ solid (abs m) dF pts (pyramid_polys 3) 6 /\
      convex_solid pts (pyramid_polys 3) /\ sides pts (pyramid_polys 3) l /\ Forall (on_sphere zero3 (l * sqrt (3 / 8))) pts.
  Proof.
    intros H A B D.
    pose proof (@pyramid_solid _ _ _ dE dF c [(- (/ 2 * l), 0, - (/ 2 * l / sqrt 2)); (0, - (/ 2 * l), / 2 * l / sqrt 2); (/ 2 * l, 0, - (/ 2 * l / sqrt 2))] (0, / 2 * l, / 2 * l / sqrt 2)) as X.
    cbv zeta in X. cbn [length] in X.
    destruct X as (m & E & W & SO); try lia. exists m, (tetra_points l). split; [exact E|]. split; auto. split; [exact SO|].
    split; [apply tetra_convex; auto|]. split; [apply tetra_sides; auto|apply tetra_on; auto].
  Qed.
  Lemma polygon_top c r n : (3 <= n)%nat -> 0 < r -> (2 * n <= capE c)%nat -> (n <= capV c)%nat -> (1 <= capF c)%nat ->
    let pts := map (star_point r r n) (seq 0 n) in
    exists (m : mesh) e f vs, insert_regular_star dE dF c empty_mesh r r n = Ok (m, e) /\ wf m /\ exactly (lvf (abs m)) [f] /\
      poly (abs m) dF f (turn vs) /\ map (vp (abs m)) vs = map Some pts /\
      area2 (turn pts) = 2 * regular_polygon_area r n /\ sides pts [turn (seq 0 n)] (regular_polygon_sidelength r n) /\ Forall (on_sphere zero3 r) pts.
  Proof.
    intros N HR A B D pts. destruct (@r_star_ok EP FP dE dF c r r n N A B D) as (m & e & f & vs & E & W & F & P & V). exists m, e, f, vs.
    do 5 (split; auto). split; [apply polygon_area; auto|]. split.
    - intros l i j [<-|[]] C. rewrite dist_sym. apply polygon_side; auto. apply cyc_turn; auto.
    - apply Forall_forall. intros p I. apply in_map_iff in I as (k & <- & _). apply sphere_sq; auto. unfold star_point.
      replace (if Nat.odd k then r else r) with r by (destruct (Nat.odd k); auto). set (x := 2 * PI / INR n * INR k).
      pose proof (sin2_cos2 x) as T. unfold Rsqr in T. unfold vdot. transitivity (r * r * (sin x * sin x + cos x * cos x)); [ring|rewrite T; ring].
  Qed.
  Lemma star_top c r1 r2 n : (3 <= n)%nat -> (2 * n <= capE c)%nat -> (n <= capV c)%nat -> (1 <= capF c)%nat ->
    let pts := map (star_point r1 r2 n) (seq 0 n) in
    exists (m : mesh) e f vs, insert_regular_star dE dF c empty_mesh r1 r2 n = Ok (m, e) /\ wf m /\ exactly (lvf (abs m)) [f] /\
      poly (abs m) dF f (turn vs) /\ map (vp (abs m)) vs = map Some pts /\
      area2 (turn pts) = if Nat.odd n then (INR (n - 1) * (r1 * r2) + r1 * r1) * sin (2 * PI / INR n) else INR n * (r1 * r2 * sin (2 * PI / INR n)).
  Proof.
    intros N A B D pts. destruct (@r_star_ok EP FP dE dF c r1 r2 n N A B D) as (m & e & f & vs & E & W & F & P & V). exists m, e, f, vs.
    do 5 (split; auto). destruct (Nat.odd n) eqn:O; [apply star_area_odd|apply star_area_even]; auto.
  Qed.
End Top.

(** ** examples *)
Lemma triangle_values : regular_polygon_sidelength 1 3 = sqrt 3 /\ regular_polygon_area 1 3 = 3 * sqrt 3 / 4.
Proof.
  unfold regular_polygon_sidelength, regular_polygon_area. replace (INR 3) with 3 by (cbn; ring).
  replace (2 * PI / 3) with (2 * (PI / 3)) by field. rewrite sin_2a, sin_PI3, cos_PI3. split; field.
Qed.
(** two neighbours at the inner radius *)
Lemma star_odd n r1 r2 : Nat.odd n = true -> vdot (star_point r1 r2 n (n - 1)) (star_point r1 r2 n (n - 1)) = r1 * r1 /\ vdot (star_point r1 r2 n 0) (star_point r1 r2 n 0) = r1 * r1.
Proof.
  intros O. assert (G : forall x, vdot (r1 * sin x, r1 * cos x, 0) (r1 * sin x, r1 * cos x, 0) = r1 * r1).
  { intros x. pose proof (sin2_cos2 x) as T. unfold Rsqr in T. unfold vdot. transitivity (r1 * r1 * (sin x * sin x + cos x * cos x)); [ring|rewrite T; ring]. }
  destruct n as [|n]; [discriminate O|]. replace (S n - 1)%nat with n by lia. rewrite Nat.odd_succ, <- Nat.negb_odd in O.
  split; unfold star_point; [destruct (Nat.odd n); [discriminate O|]|cbn [Nat.odd Nat.even negb]]; apply G.
Qed.
(** a pyramid whose base is not turned is not a solid of outward faces *)
Lemma unturned : let pts := [(1, 0, 0); (0, 0, -1); (-1, 0, 0); (0, 0, 1); (0, 1, 0)] in facet pts [0; 3; 2; 1]%nat /\ ~ facet pts [0; 1; 2; 3]%nat.
Proof.
  split.
  - apply facet_quad with (0, -1, 0) 0; at_pt; unfold vdot, vsub, det3; try lra.
    intros k K NI. below_len k K; try (exfalso; apply NI; cbn; tauto). cbn. lra.
  - intros (v & c & H1 & H2 & H3). destruct v as [[x y] z].
    pose proof (H1 0%nat ltac:(cbn; auto)) as A. pose proof (H1 1%nat ltac:(cbn; auto)) as B. pose proof (H1 2%nat ltac:(cbn; auto)) as C.
    pose proof (H2 4%nat ltac:(cbn; lia) ltac:(cbn; lia)) as D. pose proof (H3 0%nat 1%nat 2%nat ltac:(cbn; auto) ltac:(cbn; auto) ltac:(lia) ltac:(lia)) as E.
    unfold pt, vdot, vsub, det3 in *. cbn [nth] in *. lra.
Qed.
