(** Properties C41 to C52: arithmetic, curves, transforms and geometric predicates, in exact arithmetic. *)
From Coq Require Import List Arith ZArith NArith QArith Qabs Bool Setoid Ring_theory.
From Verif Require Import Base Mesh Tess Alg AlgSpec AlgProofs AffineProofs TriSpec CurveSpec CurveProofs.
From Verif Require Import GeoSpec Geo QuadProofs GeoMath GeoMathSpec GeoMathProofs FloatProofs MathEx.
Import ListNotations.
Local Open Scope nat_scope.

(** C41. The in-circle determinant is the orientation times the power of the point, for any circle
    (centre o, squared radius r) through the corners. *)
Theorem C41_power_of_point : forall (o : pt) (r : Q) (p1 p2 p3 p : pt),
  (dist2 o p1 == r -> dist2 o p2 == r -> dist2 o p3 == r ->
  circle_det 0%Q 1%Q Qplus Qmult Qminus Qopp p1 p2 p3 p == orient p1 p2 p3 * (r - dist2 o p))%Q.
Proof. exact circle_det_power. Qed.
Print Assumptions C41_power_of_point.
Theorem C41_in_circle : forall pos (o : pt) (r : Q) (p1 p2 p3 p : pt), sign_test pos ->
  (dist2 o p1 == r)%Q -> (dist2 o p2 == r)%Q -> (dist2 o p3 == r)%Q -> (0 < orient p1 p2 p3)%Q ->
  ((dist2 o p < r)%Q -> circumcircle_contains pos p1 p2 p3 p = true) /\
  ((r < dist2 o p)%Q -> circumcircle_contains pos p1 p2 p3 p = false).
Proof. exact in_circle. Qed.
Print Assumptions C41_in_circle.
(** for a clockwise triangle the answer is reversed *)
Theorem C41_in_circle_clockwise : forall pos (o : pt) (r : Q) (p1 p2 p3 p : pt), sign_test pos ->
  (dist2 o p1 == r)%Q -> (dist2 o p2 == r)%Q -> (dist2 o p3 == r)%Q -> (orient p1 p2 p3 < 0)%Q ->
  ((dist2 o p < r)%Q -> circumcircle_contains pos p1 p2 p3 p = false) /\
  ((r < dist2 o p)%Q -> circumcircle_contains pos p1 p2 p3 p = true).
Proof. exact in_circle_cw. Qed.
Print Assumptions C41_in_circle_clockwise.
Theorem C41_circumcentre : forall p1 p2 p3 : pt, ~ (orient p1 p2 p3 == 0)%Q ->
  exists o, (dist2 o p1 == dist2 o p2)%Q /\ (dist2 o p1 == dist2 o p3)%Q.
Proof. exact circumcentre. Qed.
Print Assumptions C41_circumcentre.
Example C41_example : let p1 := (1, 0)%Q in let p2 := (0, 1)%Q in let p3 := ((-1)%Q, 0%Q) in
  sign_test posQ /\ (0 < orient p1 p2 p3)%Q /\ (dist2 (0, 0)%Q p1 == 1)%Q /\ (dist2 (0, 0)%Q p3 == 1)%Q /\
  circumcircle_contains posQ p1 p2 p3 (1 # 2, 1 # 2)%Q = true /\ circumcircle_contains posQ p1 p2 p3 (1, 1)%Q = false.
Proof. cbv zeta. split; [exact posQ_sign|]. repeat split; vm_compute; reflexivity. Qed.

(** C42. *)
Theorem C42_signed_area : forall (R : Type) (zero one : R) add mul sub opp req, is_ring zero one add mul sub opp req ->
  forall ge half pts, exists a, signed_area zero add mul sub ge half pts = Ok a /\
    req a (mul half (esum zero add (cross2 mul sub) (poly_edges pts))).
Proof. intros R zero one add mul sub opp req (E & X & T) ge half pts. exact (area_ok E X T ge half pts). Qed.
Print Assumptions C42_signed_area.
Theorem C42_rotate : forall (R : Type) (zero one : R) add mul sub opp req, is_ring zero one add mul sub opp req ->
  forall ge half p q, exists a b, signed_area zero add mul sub ge half (p ++ q) = Ok a /\
    signed_area zero add mul sub ge half (q ++ p) = Ok b /\ req a b.
Proof. intros R zero one add mul sub opp req (E & X & T) ge half p q. exact (area_rotate E X T ge half p q). Qed.
Print Assumptions C42_rotate.
Theorem C42_reverse : forall (R : Type) (zero one : R) add mul sub opp req, is_ring zero one add mul sub opp req ->
  forall ge half p, exists a b, signed_area zero add mul sub ge half p = Ok a /\
    signed_area zero add mul sub ge half (rev p) = Ok b /\ req b (opp a).
Proof. intros R zero one add mul sub opp req (E & X & T) ge half p. exact (area_reverse E X T ge half p). Qed.
Print Assumptions C42_reverse.
Theorem C42_translate : forall (R : Type) (zero one : R) add mul sub opp req, is_ring zero one add mul sub opp req ->
  forall ge half d p, exists a b, signed_area zero add mul sub ge half p = Ok a /\
    signed_area zero add mul sub ge half (map (fun q => (add (fst q) (fst d), add (snd q) (snd d))) p) = Ok b /\ req a b.
Proof. intros R zero one add mul sub opp req (E & X & T) ge half d p. exact (area_translate E X T ge half d p). Qed.
Print Assumptions C42_translate.
Theorem C42_small : forall (R : Type) (zero one : R) add mul sub opp req, is_ring zero one add mul sub opp req ->
  forall ge half p, length p < 3 -> exists a, signed_area zero add mul sub ge half p = Ok a /\ req a zero.
Proof. intros R zero one add mul sub opp req (E & X & T) ge half p. exact (area_small E X T ge half (p := p)). Qed.
Print Assumptions C42_small.
(** triangles covering the polygon add up to its area; by [triangulates_covers] this holds for every triangulation *)
Theorem C42_triangles : forall (R : Type) (zero one : R) add mul sub opp req, is_ring zero one add mul sub opp req ->
  forall ge half (pos : nat -> R * R) p T, covers p T -> exists a bs,
    signed_area zero add mul sub ge half (map pos p) = Ok a /\
    mapM (fun t => match t with (x, y, z) => signed_area zero add mul sub ge half [pos x; pos y; pos z] end) T = Ok bs /\
    req a (sum zero add bs).
Proof. intros R zero one add mul sub opp req (E & X & T) ge half pos p Ts. exact (area_triangles E X T ge half pos (p := p) (T := Ts)). Qed.
Print Assumptions C42_triangles.
Example C42_example : is_ring 0%Q 1%Q Qplus Qmult Qminus Qopp Qeq /\
  (exists a, signed_area 0%Q Qplus Qmult Qminus (fun x y => Qle_bool (Qabs y) (Qabs x)) (1 # 2) [(0, 0); (2, 0); (2, 2); (0, 2)]%Q = Ok a /\ (a == 4)%Q) /\
  covers [0; 1; 2; 3] [(0, 1, 2); (0, 2, 3)].
Proof.
  split; [exact Q_ring|]. split; [eexists; split; [vm_compute; reflexivity|reflexivity]|].
  exact square_covers.
Qed.

(** C43. *)
Theorem C43_neumaier : forall (R : Type) (zero one : R) add mul sub opp req, is_ring zero one add mul sub opp req ->
  forall ge l, req (fst (neumaier zero add sub ge l)) (sum zero add l) /\ snd (neumaier zero add sub ge l) = length l.
Proof. intros R zero one add mul sub opp req (E & X & T) ge l. exact (neumaier_sum E X T ge l). Qed.
Print Assumptions C43_neumaier.
Theorem C43_kahan : forall (R : Type) (zero one : R) add mul sub opp req, is_ring zero one add mul sub opp req ->
  forall l, req (fst (kahan zero add sub l)) (sum zero add l) /\ snd (kahan zero add sub l) = length l.
Proof. intros R zero one add mul sub opp req (E & X & T) l. exact (kahan_sum E X T l). Qed.
Print Assumptions C43_kahan.
Example C43_example : is_ring 0%Z 1%Z Z.add Z.mul Z.sub Z.opp eq /\
  neumaier 0%Z Z.add Z.sub (fun s v => Z.leb (Z.abs v) (Z.abs s)) [5; -7; 1]%Z = ((-1)%Z, 3) /\
  kahan 0%Z Z.add Z.sub [5; -7; 1]%Z = ((-1)%Z, 3).
Proof. split; [exact Z_ring|]. split; reflexivity. Qed.

(** C44. *)
Theorem C44_casteljau : forall (R : Type) (zero one : R) add mul sub opp req, is_ring zero one add mul sub opp req ->
  forall cv s e t i, req (point_at one add mul sub cv s e t i)
    (casteljau zero one add mul sub (length (controls cv s e)) t (controls cv s e) i).
Proof. intros R zero one add mul sub opp req (E & X & T). exact (point_casteljau E X T). Qed.
Print Assumptions C44_casteljau.
Theorem C44_endpoints : forall (R : Type) (zero one : R) add mul sub opp req, is_ring zero one add mul sub opp req ->
  forall cv s e i, req (point_at one add mul sub cv s e zero i) (s i) /\ req (point_at one add mul sub cv s e one i) (e i).
Proof. intros R zero one add mul sub opp req (E & X & T) cv s e i. exact (conj (point_start E X T cv s e i) (point_stop E X T cv s e i)). Qed.
Print Assumptions C44_endpoints.
(** the same curve walked backwards *)
Theorem C44_reverse : forall (R : Type) (zero one : R) add mul sub opp req, is_ring zero one add mul sub opp req ->
  forall cv s e t i, req (point_at one add mul sub (reverse cv) e s (sub one t) i) (point_at one add mul sub cv s e t i).
Proof. intros R zero one add mul sub opp req (E & X & T). exact (point_reverse E X T). Qed.
Print Assumptions C44_reverse.
(** points between the ends lie in the convex hull of the control points *)
Theorem C44_convex_hull : forall cv s e t, (0 <= t)%Q -> (t <= 1)%Q -> exists ws,
  length ws = length (controls cv s e) /\ Forall (fun w => 0 <= w)%Q ws /\ (sum 0%Q Qplus ws == 1)%Q /\
  forall i, (qpoint cv s e t i == sum 0%Q Qplus (map (fun wc => fst wc * snd wc i) (combine ws (controls cv s e))))%Q.
Proof. exact curve_hull. Qed.
Print Assumptions C44_convex_hull.
(** uniform flattening: interior points at strictly increasing parameters, equally spaced *)
Theorem C44_flatten_uniform : forall cv s e n,
  match uniform cv s e n with
  | Ok out => n > 0 /\ exists ts, out = map (qpoint cv s e) ts /\ length ts = n - 1 /\ increasing 0%Q (ts ++ [1%Q]) /\
      neighbours (fun a b => (b - a == 1 / inject_Z (Z.of_nat n))%Q) (0%Q :: ts ++ [1%Q])
  | Panic => n = 0
  | Diverge => False
  end.
Proof. exact uniform_ok. Qed.
Print Assumptions C44_flatten_uniform.
Example C44_example : exists out, uniform s_curve s_start s_stop 4 = Ok out /\ length out = 3 /\
  (nth 0 out s_start 1%nat == 27 # 32)%Q.
Proof. eexists. split; [reflexivity|]. split; [reflexivity|vm_compute; reflexivity]. Qed.

(** C45. The points of the adaptive flattening are the curve at increasing dyadic parameters, and the
    acceptance test held on every segment (for any acceptance test [close]). *)
Theorem C45_flatten : forall close cv s e fuel out, qflatten fuel close cv s e = Ok out ->
  exists ts, out = map (qpoint cv s e) ts /\ increasing 0%Q (ts ++ [1%Q]) /\ Forall dyadic ts /\
    neighbours (fun a b => close (qpoint cv s e ((a + b) / 2)%Q) (qlerp (qpoint cv s e a) (qpoint cv s e b) (1 # 2)) = true)
      (0%Q :: ts ++ [1%Q]).
Proof. exact flatten_spec. Qed.
Print Assumptions C45_flatten.
(** For every curve and positive tolerance the recursion ends. *)
Theorem C45_terminates : forall D err2 cv s e, (0 < err2)%Q -> exists fuel out, qflatten fuel (within D err2) cv s e = Ok out.
Proof. exact flatten_terminates. Qed.
Print Assumptions C45_terminates.
Example C45_example : exists out, qflatten 5 (within 2 (1 # 25)) (Quadratic (fun i => match i with O => 1 | _ => 3 end)%Q) s_start s_stop = Ok out /\ length out = 3.
Proof. eexists. split; [reflexivity|reflexivity]. Qed.

(** C46. For linear and quadratic edges every curve point is within the tolerance of the polyline. *)
Theorem C46_quadratic_error : forall D err2 fuel cv s e out, (0 <= err2)%Q -> (forall c1 c2, cv <> Cubic c1 c2) ->
  qflatten fuel (within D err2) cv s e = Ok out ->
  exists ts, out = map (qpoint cv s e) ts /\ increasing 0%Q (ts ++ [1%Q]) /\
  forall t, (0 <= t)%Q -> (t <= 1)%Q -> exists p x y q l, 0%Q :: ts ++ [1%Q] = p ++ x :: y :: q /\ (0 <= l)%Q /\ (l <= 1)%Q /\
    (norm2 D (qpoint cv s e t) (qlerp (qpoint cv s e x) (qpoint cv s e y) l) <= err2)%Q.
Proof. exact flatten_error. Qed.
Print Assumptions C46_quadratic_error.
(** For cubic edges it is false: an S-shaped curve is replaced by its chord although the requested
    error is 1/10 and the curve point at 1/4 is farther than 7/10 from every point of the chord's line. *)
Theorem C46_cubic_error_refuted : qflatten 1 (within 2 (1 # 100)) s_curve s_start s_stop = Ok [] /\
  forall l, (1 # 2 < norm2 2 (qpoint s_curve s_start s_stop (1 # 4)) (qlerp s_start s_stop l))%Q.
Proof. exact cubic_error. Qed.
Print Assumptions C46_cubic_error_refuted.
Example C46_example : exists out, qflatten 5 (within 2 (1 # 25)) (Quadratic (fun i => match i with O => 1 | _ => 3 end)%Q) s_start s_stop = Ok out /\
  out <> [] /\ (forall c1 c2, Quadratic (fun i => match i with O => 1 | _ => 3 end)%Q <> Cubic c1 c2).
Proof. eexists. split; [reflexivity|]. split; discriminate. Qed.

(** C47. [chain] never panics, and applies [t] first and then [o]. *)
Theorem C47_chain : forall (R : Type) (zero one : R) add mul sub opp req, is_ring zero one add mul sub opp req ->
  forall D eqz, (forall x, req x zero -> eqz x = true) -> forall t o, exists c, a_chain zero one add mul D eqz t o = Ok c /\
    (forall v i, i < D -> req (a_apply zero add mul D c v i) (a_apply zero add mul D o (a_apply zero add mul D t v) i)) /\
    (forall v i, i < D -> req (a_apply_vec zero add mul D c v i) (a_apply_vec zero add mul D o (a_apply_vec zero add mul D t v) i)).
Proof. intros R zero one add mul sub opp req (E & X & T). exact (chain_apply E X T). Qed.
Print Assumptions C47_chain.
Theorem C47_identity : forall (R : Type) (zero one : R) add mul sub opp req, is_ring zero one add mul sub opp req ->
  forall D eqz, (forall x, req x zero -> eqz x = true) -> forall t, exists c c',
    a_chain zero one add mul D eqz (a_identity zero one) t = Ok c /\ a_chain zero one add mul D eqz t (a_identity zero one) = Ok c' /\
    (forall v i, i < D -> req (a_apply zero add mul D c v i) (a_apply zero add mul D t v i) /\
                          req (a_apply zero add mul D c' v i) (a_apply zero add mul D t v i)).
Proof. intros R zero one add mul sub opp req (E & X & T). exact (identity_chain E X T). Qed.
Print Assumptions C47_identity.
Theorem C47_assoc : forall (R : Type) (zero one : R) add mul sub opp req, is_ring zero one add mul sub opp req ->
  forall D eqz, (forall x, req x zero -> eqz x = true) -> forall a b c, exists ab bc x y,
    a_chain zero one add mul D eqz a b = Ok ab /\ a_chain zero one add mul D eqz ab c = Ok x /\
    a_chain zero one add mul D eqz b c = Ok bc /\ a_chain zero one add mul D eqz a bc = Ok y /\
    forall v i, i < D -> req (a_apply zero add mul D x v i) (a_apply zero add mul D y v i).
Proof. intros R zero one add mul sub opp req (E & X & T). exact (chain_assoc E X T). Qed.
Print Assumptions C47_assoc.
Theorem C47_translation : forall (R : Type) (zero one : R) add mul sub opp req, is_ring zero one add mul sub opp req ->
  forall D t d v i, i < D ->
    req (a_apply zero add mul D (a_with_translation add t d) v i) (add (a_apply zero add mul D t v i) (d i)).
Proof. intros R zero one add mul sub opp req (E & X & T). exact (translation_apply E X T). Qed.
Print Assumptions C47_translation.
Theorem C47_constructors : forall (R : Type) (zero one : R) add mul sub opp req, is_ring zero one add mul sub opp req ->
  forall D d v i, i < D ->
    req (a_apply zero add mul D (a_from_translation zero one d) v i) (add (v i) (d i)) /\
    req (a_apply zero add mul D (a_from_scale zero d) v i) (mul (d i) (v i)) /\
    req (a_apply zero add mul D (a_identity zero one) v i) (v i).
Proof.
  intros R zero one add mul sub opp req (E & X & T) D d v i H.
  exact (conj (from_translation_apply E X T d v H) (conj (from_scale_apply E X T d v H) (identity_apply E X T v H))).
Qed.
Print Assumptions C47_constructors.
(** [apply_vec] ignores the translation: it maps differences of points *)
Theorem C47_apply_vec : forall (R : Type) (zero one : R) add mul sub opp req, is_ring zero one add mul sub opp req ->
  forall D t v w i, i < D -> req (a_apply_vec zero add mul D t (fun k => sub (v k) (w k)) i)
    (sub (a_apply zero add mul D t v i) (a_apply zero add mul D t w i)).
Proof. intros R zero one add mul sub opp req (E & X & T). exact (vec_apply E X T). Qed.
Print Assumptions C47_apply_vec.
(** [with_scale]: what it computes; that is scaling after the transform if the scale is uniform or
    the linear part diagonal, but not in general. *)
Theorem C47_scale : forall (R : Type) (zero one : R) add mul sub opp req, is_ring zero one add mul sub opp req ->
  forall D t s v i, i < D -> req (a_apply zero add mul D (a_with_scale zero add mul D t s) v i)
    (add (a_apply_vec zero add mul D t (fun k => mul (s k) (v k)) i) (mul (s i) (a_tr t i))).
Proof. intros R zero one add mul sub opp req (E & X & T). exact (scale_apply E X T). Qed.
Print Assumptions C47_scale.
Theorem C47_scale_uniform : forall (R : Type) (zero one : R) add mul sub opp req, is_ring zero one add mul sub opp req ->
  forall D t s c v i, i < D -> (forall k, k < D -> req (s k) c) ->
    req (a_apply zero add mul D (a_with_scale zero add mul D t s) v i) (mul c (a_apply zero add mul D t v i)).
Proof. intros R zero one add mul sub opp req (E & X & T). exact (scale_uniform E X T). Qed.
Print Assumptions C47_scale_uniform.
Theorem C47_scale_diagonal : forall (R : Type) (zero one : R) add mul sub opp req, is_ring zero one add mul sub opp req ->
  forall D d tr s v i, i < D -> req (a_apply zero add mul D (a_with_scale zero add mul D (mkA (diag zero d) tr) s) v i)
    (mul (s i) (a_apply zero add mul D (mkA (diag zero d) tr) v i)).
Proof. intros R zero one add mul sub opp req (E & X & T). exact (scale_diag E X T). Qed.
Print Assumptions C47_scale_diagonal.
Theorem C47_scale_after_refuted : ~ (forall (t : affine Z) s v i, i < 2 ->
  a_apply 0%Z Z.add Z.mul 2 (a_with_scale 0%Z Z.add Z.mul 2 t s) v i = (s i * a_apply 0%Z Z.add Z.mul 2 t v i)%Z).
Proof. exact scale_wrong. Qed.
Print Assumptions C47_scale_after_refuted.
Example C47_example : is_ring 0%Z 1%Z Z.add Z.mul Z.sub Z.opp eq /\ (forall x, x = 0%Z -> Z.eqb 0 x = true) /\
  exists c, zchain rot90 (a_from_scale 0%Z (zv [2; 5]%Z)) = Ok c /\
    map (a_apply 0%Z Z.add Z.mul 2 c (zv [1; 1]%Z)) [0; 1] = [4; 25]%Z.
Proof. split; [exact Z_ring|]. split; [intros x ->; reflexivity|exact affine_ex]. Qed.

(** C48. [Mat5::chain] applies [o] first and then [t], against its documentation; [with_scale] scales
    only the diagonal entries. *)
Theorem C48_chain_order : forall (R : Type) (zero one : R) add mul sub opp req, is_ring zero one add mul sub opp req ->
  forall t o v i, affine5 zero one req o ->
    req (m5_apply zero one add mul (m5_chain zero add mul t o) v i) (m5_apply zero one add mul t (m5_apply zero one add mul o v) i).
Proof. intros R zero one add mul sub opp req (E & X & T). exact (m5_chain_apply E X T). Qed.
Print Assumptions C48_chain_order.
Theorem C48_chain_affine : forall (R : Type) (zero one : R) add mul sub opp req, is_ring zero one add mul sub opp req ->
  forall t o, affine5 zero one req t -> affine5 zero one req o -> affine5 zero one req (m5_chain zero add mul t o).
Proof. intros R zero one add mul sub opp req (E & X & T). exact (m5_chain_affine E X T). Qed.
Print Assumptions C48_chain_affine.
Theorem C48_chain_refuted : exists t o, affine5 0%Z 1%Z eq t /\ affine5 0%Z 1%Z eq o /\
  ~ (forall v i, i < 4 -> m5_apply 0%Z 1%Z Z.add Z.mul (m5_chain 0%Z Z.add Z.mul t o) v i =
     m5_apply 0%Z 1%Z Z.add Z.mul o (m5_apply 0%Z 1%Z Z.add Z.mul t v) i).
Proof. exact m5_chain_wrong. Qed.
Print Assumptions C48_chain_refuted.
Theorem C48_scale : forall (R : Type) (zero one : R) add mul sub opp req, is_ring zero one add mul sub opp req ->
  forall t s v i, i < 4 -> req (m5_apply zero one add mul (m5_with_scale mul t s) v i)
    (add (m5_apply zero one add mul t v i) (mul (mul (t i i) (v i)) (sub (s i) one))).
Proof. intros R zero one add mul sub opp req (E & X & T). exact (m5_scale_apply E X T). Qed.
Print Assumptions C48_scale.
Theorem C48_scale_refuted : exists t, affine5 0%Z 1%Z eq t /\ ~ (forall s v i, i < 4 ->
  m5_apply 0%Z 1%Z Z.add Z.mul (m5_with_scale Z.mul t s) v i = (s i * m5_apply 0%Z 1%Z Z.add Z.mul t v i)%Z).
Proof. exact m5_scale_wrong. Qed.
Print Assumptions C48_scale_refuted.
Theorem C48_translation : forall (R : Type) (zero one : R) add mul sub opp req, is_ring zero one add mul sub opp req ->
  forall t d v i, i < 4 -> req (m5_apply zero one add mul (m5_with_translation add t d) v i) (add (m5_apply zero one add mul t v i) (d i)).
Proof. intros R zero one add mul sub opp req (E & X & T). exact (m5_translation_apply E X T). Qed.
Print Assumptions C48_translation.
Theorem C48_apply_vec : forall (R : Type) (zero one : R) add mul sub opp req, is_ring zero one add mul sub opp req ->
  forall t v w i, i < 4 -> req (m5_apply_vec zero add mul t (fun k => sub (v k) (w k)) i)
    (sub (m5_apply zero one add mul t v i) (m5_apply zero one add mul t w i)).
Proof. intros R zero one add mul sub opp req (E & X & T). exact (m5_vec_apply E X T). Qed.
Print Assumptions C48_apply_vec.
Example C48_example : exists t o, affine5 0%Z 1%Z eq t /\ affine5 0%Z 1%Z eq o /\
  m5_apply 0%Z 1%Z Z.add Z.mul (m5_chain 0%Z Z.add Z.mul t o) (zv [5; 6; 7; 8]%Z) 2 = 15%Z.
Proof. exact m5_ex. Qed.

(** C49. On f32 and f64 bit patterns [is_positive] accepts every strictly positive value, and
    otherwise only plus zero and NaNs without sign. *)
Theorem C49_positive_complete : forall we wm bits, f_gt0 we wm bits -> is_positive we wm bits = true.
Proof. exact positive_complete. Qed.
Print Assumptions C49_positive_complete.
Theorem C49_positive_sound : forall we wm bits, (bits < 2 ^ (we + wm + 1))%N -> is_positive we wm bits = true ->
  f_gt0 we wm bits \/ bits = 0%N \/ f_nan we wm bits.
Proof. exact positive_sound. Qed.
Print Assumptions C49_positive_sound.
Theorem C49_strictly_positive_refuted :
  (is_positive 11 52 0 = true /\ ~ f_gt0 11 52 0) /\ (is_positive 8 23 0 = true /\ ~ f_gt0 8 23 0).
Proof. split; split; try reflexivity; discriminate. Qed.
Print Assumptions C49_strictly_positive_refuted.
Theorem C49_abs : forall we wm bits, (f_value we wm (fabs we wm bits) == Qabs (f_value we wm bits))%Q /\
  f_sign we wm (fabs we wm bits) = false /\ f_special we wm (fabs we wm bits) = f_special we wm bits.
Proof. exact abs_all. Qed.
Print Assumptions C49_abs.
Example C49_example : f_gt0 11 52 (1023 * 2 ^ 52) /\ (f_value 11 52 (1023 * 2 ^ 52) == 1)%Q /\
  is_positive 11 52 (2 ^ 63 + 1023 * 2 ^ 52) = false.
Proof. split; [reflexivity|]. split; reflexivity. Qed.

(** C50. *)
Theorem C50_common_point : forall p0 p1 q0 q1 eps eps2 x, (0 <= eps)%Q -> intersect_line p0 p1 q0 q1 eps eps2 = Some x ->
  on_segment eps2 x p0 p1 /\ on_segment eps2 x q0 q1.
Proof. exact intersect_some. Qed.
Print Assumptions C50_common_point.
Theorem C50_none : forall p0 p1 q0 q1 eps eps2, (0 <= eps)%Q -> intersect_line p0 p1 q0 q1 eps eps2 = None ->
  (Qabs (perp_dot (vsub p1 p0) (vsub q1 q0)) <= eps)%Q \/ forall x, ~ (on_segment eps2 x p0 p1 /\ on_segment eps2 x q0 q1).
Proof. exact intersect_none. Qed.
Print Assumptions C50_none.
Example C50_example : exists x, intersect_line (0, 0)%Q (2, 2)%Q (0, 2)%Q (2, 0)%Q 0 0 = Some x /\ (fst x == 1)%Q /\ (snd x == 1)%Q /\
  intersect_line (0, 0)%Q (2, 2)%Q (3, 0)%Q (5, 0)%Q 0 0 = None.
Proof. eexists. split; [vm_compute; reflexivity|]. repeat split; vm_compute; reflexivity. Qed.

(** C51. Whatever the sign tests answer at zero; and exactly the interior if they are strict. *)
Theorem C51_inside : forall pos neg, sign_test pos -> neg_test neg -> forall p a b c, ~ (orient a b c == 0)%Q ->
  (strictly_inside p a b c -> is_inside_triangle pos neg p a b c = true) /\
  (is_inside_triangle pos neg p a b c = true -> weakly_inside p a b c).
Proof. exact inside_sound. Qed.
Print Assumptions C51_inside.
Theorem C51_inside_exact : forall pos neg, sign_test pos -> neg_test neg -> forall p a b c,
  (forall x, pos x = true -> 0 < x)%Q -> (forall x, neg x = true -> x < 0)%Q -> ~ (orient a b c == 0)%Q ->
  (is_inside_triangle pos neg p a b c = true <-> strictly_inside p a b c).
Proof. exact inside_exact. Qed.
Print Assumptions C51_inside_exact.
Example C51_example : sign_test posQ /\ neg_test (fun x => posQ (- x)%Q) /\ ~ (orient (0, 0) (4, 0) (0, 4) == 0)%Q /\
  is_inside_triangle posQ (fun x => posQ (- x)%Q) (1, 1)%Q (0, 0)%Q (4, 0)%Q (0, 4)%Q = true /\
  is_inside_triangle posQ (fun x => posQ (- x)%Q) (1, 1)%Q (0, 4)%Q (4, 0)%Q (0, 0)%Q = true /\
  is_inside_triangle posQ (fun x => posQ (- x)%Q) (3, 3)%Q (0, 0)%Q (4, 0)%Q (0, 4)%Q = false.
Proof. split; [exact posQ_sign|]. split; [exact posQ_neg|]. split; [discriminate|]. repeat split. Qed.

(** C52. *)
Theorem C52_newell : forall (R : Type) (zero one : R) add mul sub opp req, is_ring zero one add mul sub opp req ->
  forall mhalf c l, req (newell zero add mul sub mhalf l c) (mul (opp mhalf) (esum zero add (cross3 mul sub c) (poly_edges l))).
Proof. intros R zero one add mul sub opp req (E & X & T). exact (newell_cross E X T). Qed.
Print Assumptions C52_newell.
Theorem C52_translate : forall (R : Type) (zero one : R) add mul sub opp req, is_ring zero one add mul sub opp req ->
  forall mhalf c d l, req (newell zero add mul sub mhalf (map (fun v i => add (v i) (d i)) l) c) (newell zero add mul sub mhalf l c).
Proof. intros R zero one add mul sub opp req (E & X & T). exact (newell_translate E X T). Qed.
Print Assumptions C52_translate.
Theorem C52_reverse_rotate : forall (R : Type) (zero one : R) add mul sub opp req, is_ring zero one add mul sub opp req ->
  forall mhalf c p q, req (newell zero add mul sub mhalf (p ++ q) c) (newell zero add mul sub mhalf (q ++ p) c) /\
    req (newell zero add mul sub mhalf (rev p) c) (opp (newell zero add mul sub mhalf p c)).
Proof.
  intros R zero one add mul sub opp req (E & X & T) mhalf c p q.
  exact (conj (newell_rotate E X T mhalf c p q) (newell_reverse E X T mhalf c p)).
Qed.
Print Assumptions C52_reverse_rotate.
(** the normal of a polygon in the plane { v | n . v = k } is parallel to n *)
Theorem C52_planar : forall (R : Type) (zero one : R) add mul sub opp req, is_ring zero one add mul sub opp req ->
  forall mhalf c n k l, (forall v, In v l -> req (dot3 add mul n v) k) ->
    req (cross3 mul sub c n (newell zero add mul sub mhalf l)) zero.
Proof. intros R zero one add mul sub opp req (E & X & T). exact (newell_planar E X T). Qed.
Print Assumptions C52_planar.
Example C52_example : (forall v, In v [sq 0 0; sq 2 0; sq 2 2; sq 0 2]%Z -> dot3 Z.add Z.mul (zv [1; 1; -1]%Z) v = 0%Z) /\
  map (newell 0%Z Z.add Z.mul Z.sub (-1)%Z [sq 0 0; sq 2 0; sq 2 2; sq 0 2]%Z) [0; 1; 2] = [-8; -8; 8]%Z.
Proof. exact planar_ex. Qed.
