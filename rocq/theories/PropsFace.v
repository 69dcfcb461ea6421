(** C63: the face predicates is_convex, is_planar, is_simple and the normal from three vertices. *)
From Coq Require Import List Arith QArith Qabs Lia.
From Verif Require Import Base Mesh MeshEx Alg Transform TransEx GeoSpec GeoMathSpec Face3 Face3Spec Face3Proofs Face3Ex.
Import ListNotations.
Local Open Scope Q_scope.

(** A planar face without straight corners is accepted iff all corners turn the same way or the turns
    alternate; the latter needs an even number of vertices. *)
Theorem C63_convex : forall FP (m : mesh (pnu Q) (curve Q) FP) f l o u v pos q,
  face_points m f = Ok l -> sign_test pos -> spans u v -> planar_as o u v l q -> no_straight q ->
  (face_is_convex pos m f = Ok true <-> same_way q \/ alternate q) /\
  (Nat.odd (length q) = true -> (face_is_convex pos m f = Ok true <-> same_way q)).
Proof. intros FP m f l o u v pos q FL. exact (@face_convex_iff FP m f l FL o u v pos q). Qed.
Print Assumptions C63_convex.

(** Planar faces are accepted. *)
Theorem C63_planar : forall FP (m : mesh (pnu Q) (curve Q) FP) f l o u v q eps,
  face_points m f = Ok l -> 0 < eps -> planar_as o u v l q -> (3 <= length l)%nat -> face_is_planar eps m f = Ok true.
Proof. intros FP m f l o u v q eps FL. exact (@face_planar FP m f l FL o u v q eps). Qed.
Print Assumptions C63_planar.

(** If the first three vertices are not on a line, every vertex of an accepted face is near their plane. *)
Theorem C63_planar_sound : forall FP (m : mesh (pnu Q) (curve Q) FP) f p0 p1 p2 r eps,
  face_points m f = Ok (p0 :: p1 :: p2 :: r) -> 0 < eps -> face_is_planar eps m f = Ok true ->
  let n := plane_normal (fun i => p1 i - p0 i) (fun i => p2 i - p0 i) in 0 < inner3 n n ->
  forall p, In p (p0 :: p1 :: p2 :: r) -> exists x,
    inner3 (fun i => x i - p0 i) n == 0 /\ inner3 (fun i => p i - x i) (fun i => p i - x i) * inner3 n n < eps * eps.
Proof. intros FP m f p0 p1 p2 r eps FL. exact (@face_planar_sound FP m f _ FL eps p0 p1 p2 r eq_refl). Qed.
Print Assumptions C63_planar_sound.

Theorem C63_planar_panics : forall FP (m : mesh (pnu Q) (curve Q) FP) f l eps,
  face_points m f = Ok l -> (face_is_planar eps m f = Panic <-> (length l < 3)%nat).
Proof. intros FP m f l eps FL. exact (@face_planar_panics FP m f l FL eps). Qed.
Print Assumptions C63_planar_panics.

(** The naive normal of a face whose corners all turn the same way; the debug assertions hold. *)
Theorem C63_naive_normal : forall FP (m : mesh (pnu Q) (curve Q) FP) f l o u v dbg pos eps q,
  face_points m f = Ok l -> sign_test pos -> spans u v -> 0 < eps -> planar_as o u v l q -> same_way q -> (3 <= length l)%nat ->
  exists n, face_normal_naive dbg pos eps m f = Ok n /\ forall i, (i < 3)%nat -> n i == turn q 0 * plane_normal u v i.
Proof. intros FP m f l o u v dbg pos eps q FL. exact (@face_naive_normal FP m f l FL o u v dbg pos eps q). Qed.
Print Assumptions C63_naive_normal.

(** Self-intersections are reported iff two edges that are not nearly parallel meet away from their ends;
    simple polygons are accepted. *)
Theorem C63_self_intersections : forall eps q, 0 <= eps -> (has_self_intersections eps q = true <-> crossing eps q).
Proof. exact crossing_exact. Qed.
Print Assumptions C63_self_intersections.

Theorem C63_simple : forall eps q, 0 < eps -> simple_polygon q -> is_simple eps q = true.
Proof. exact simple_accepted. Qed.
Print Assumptions C63_simple.

(** ** Wrong answers *)
(** A star is called convex, and its naive normal points to the wrong side. *)
Theorem C63_star_refuted : exists o u v l q, planar_as o u v l q /\ 0 < turn q 0 /\ turn q 1 < 0 /\
  (forall pos, sign_test pos -> is_convex pos l = true) /\
  (forall pos eps, sign_test pos -> 0 < eps -> exists n, normal_naive true pos eps l = Ok n /\
    inner3 n (newell 0 Qplus Qmult Qminus (-1 # 2) l) < 0).
Proof. exists p_o, p_u, p_v, (map lift star4), star4. exact star_accepted. Qed.
Print Assumptions C63_star_refuted.

(** So is a pentagram. *)
Theorem C63_pentagram_refuted : exists o u v l q, planar_as o u v l q /\ crossing (1 # 1000) q /\
  (forall pos, sign_test pos -> is_convex pos l = true).
Proof. exists p_o, p_u, p_v, (map lift pentagram), pentagram. exact pentagram_accepted. Qed.
Print Assumptions C63_pentagram_refuted.

(** With straight corners between the others an L is called convex if zero counts as positive; a square
    with one straight corner is rejected if zero counts as negative. *)
Theorem C63_straight_refuted :
  (exists o u v l q, planar_as o u v l q /\ 0 < turn q 1 /\ turn q 5 < 0 /\
     (forall pos, (forall x, x == 0 -> pos x = true) -> is_convex pos l = true)) /\
  (exists o u v l q, planar_as o u v l q /\ (forall i, 0 <= turn q i) /\
     exists pos, sign_test pos /\ is_convex pos l = false).
Proof.
  exact (conj (ex_intro _ p_o (ex_intro _ p_u (ex_intro _ p_v (ex_intro _ (map lift ell) (ex_intro _ ell straight_accepted)))))
              (ex_intro _ p_o (ex_intro _ p_u (ex_intro _ p_v (ex_intro _ (map lift box5) (ex_intro _ box5 straight_rejected)))))).
Qed.
Print Assumptions C63_straight_refuted.

(** Whatever the tolerance, small skew faces are called planar, and so is a face that begins with three
    vertices on a line. *)
Theorem C63_planar_small_refuted : forall eps, 0 < eps -> exists s, 0 < s /\ is_planar eps (map (scaled s) skew) = Ok true /\
  forall o u v q, ~ planar_as o u v (map (scaled s) skew) q.
Proof. exact small_accepted. Qed.
Print Assumptions C63_planar_small_refuted.

Theorem C63_planar_collinear_refuted : (forall eps, 0 < eps -> is_planar eps folded = Ok true) /\
  forall o u v q, spans u v -> ~ planar_as o u v folded q.
Proof. exact collinear_accepted. Qed.
Print Assumptions C63_planar_collinear_refuted.

(** Polygons with a vertex on another edge or with overlapping edges are called simple, whatever the
    tolerance; so are thin polygons with crossing edges. *)
Theorem C63_simple_refuted : forall eps, 0 < eps ->
  (~ simple_polygon touching /\ is_simple eps touching = true) /\
  (~ simple_polygon overlapping /\ is_simple eps overlapping = true).
Proof. exact contacts_missed. Qed.
Print Assumptions C63_simple_refuted.

Theorem C63_thin_refuted : forall eps, 0 < eps -> exists s, 0 < s /\ crossing 0 (bow s) /\ is_simple eps (bow s) = true.
Proof. exact thin_missed. Qed.
Print Assumptions C63_thin_refuted.

Example C63_example : (exists l, face_points ex_house 0 = Ok l /\ length l = 5%nat /\ planar_as p_o p_u p_v l house_read) /\
  spans p_u p_v /\ same_way house_read /\ no_straight star4 /\ alternate star4 /\ simple_polygon house.
Proof. exact (conj house_points (conj uv_spans (conj house_read_same (conj star4_ns (conj star4_alt house_simple))))). Qed.
