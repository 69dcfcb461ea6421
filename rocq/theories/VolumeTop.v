(** The volumes that the solids of the library enclose. *)
From Coq Require Import List Arith ZArith Lia Bool Reals Lra RealField Setoid Ring_theory Permutation.
From Verif Require Import Base DVec Mesh MeshMore Spec MeshSpec TopoSpec BuildSpec TriSpec AlgSpec AlgProofs Solid TriMeshSpec.
From Verif Require Import Sphere SphereSpec PartProofs ShapeProofs SphereProofs PlatonicProofs Regular RegularSpec RegularTrig RegularProofs RegularPlato RegularMore RegularTop VolumeSpec VolumeProofs VolumeMesh VolumeSolids SolidSpec.
Import ListNotations.
Set Implicit Arguments.
Unset Strict Implicit.
Local Arguments abs : simpl never.
Local Open Scope R_scope.

(** indices in range, at least three corners, none twice *)
Definition good_poly (k : nat) (l : list nat) : Prop := Forall (fun i => (i < k)%nat) l /\ (3 <= length l)%nat /\ NoDup l.
Lemma good_turn k l : good_poly k l -> good_poly k (turn l).
Proof.
  intros (A & B & C). destruct l as [|a t]; [split; auto|]. cbn [turn]. inversion A as [|? ? A1 A2]; subst. inversion C as [|? ? C1 C2]; subst. split; [|split].
  - constructor; auto. apply Forall_rev. auto.
  - cbn [length] in *. rewrite rev_length. auto.
  - constructor; [rewrite <- in_rev; auto|apply NoDup_rev; auto].
Qed.
Lemma good_seq k o n : (3 <= n)%nat -> (o + n <= k)%nat -> good_poly k (seq o n).
Proof. intros N H. split; [apply Forall_forall; intros i I; apply in_seq in I; lia|]. split; [rewrite seq_length; auto|apply seq_NoDup]. Qed.
Lemma good_three k a b c : (a < k)%nat -> (b < k)%nat -> (c < k)%nat -> a <> b -> b <> c -> a <> c -> good_poly k [a; b; c].
Proof. intros. split; [repeat constructor; auto|]. split; [cbn; auto|]. repeat constructor; cbn; intuition lia. Qed.
Lemma good_four k a b c d : (a < k)%nat -> (b < k)%nat -> (c < k)%nat -> (d < k)%nat -> NoDup [a; b; c; d] -> good_poly k [a; b; c; d].
Proof. intros. split; [repeat constructor; auto|]. split; [cbn; auto|auto]. Qed.
Lemma nxt_neq n k : (2 <= n)%nat -> nxt n k <> k.
Proof. intros N. unfold nxt. destruct (Nat.eqb_spec (S k) n); lia. Qed.

Lemma good_fans k o n v : (3 <= n)%nat -> (o + n <= k)%nat -> (v < k)%nat -> (v < o \/ o + n <= v)%nat -> Forall (good_poly k) (fans (seq o n) v).
Proof.
  intros N H V D. rewrite fans_seq by lia. apply Forall_forall. intros l I. apply in_map_iff in I as (i & <- & I). apply in_seq in I.
  assert (J : (i < n)%nat) by lia. pose proof (nxt_lt J). pose proof (@nxt_neq n i). apply good_three; lia.
Qed.
Lemma pyramid_good n : (3 <= n)%nat -> Forall (good_poly (S n)) (pyramid_polys n).
Proof. intros N. constructor; [apply good_turn, good_seq; lia|apply good_fans; lia]. Qed.
Lemma frustum_good n : (3 <= n)%nat -> Forall (good_poly (n + n)) (frustum_polys n).
Proof.
  intros N. constructor; [apply good_turn, good_seq; lia|]. apply Forall_app. split; [|constructor; [apply good_seq; lia|constructor]].
  rewrite quads_seq by lia. apply Forall_forall. intros l I. apply in_map_iff in I as (i & <- & I). apply in_seq in I.
  assert (J : (i < n)%nat) by lia. pose proof (nxt_lt J). pose proof (@nxt_neq n i). apply good_four; try lia. repeat constructor; cbn; intuition lia.
Qed.
Lemma antiprism_good n : (3 <= n)%nat -> Forall (good_poly (n + n)) (antiprism_polys n).
Proof.
  intros N. constructor; [apply good_turn, good_seq; lia|]. apply Forall_app. split; [|constructor; [apply good_seq; lia|constructor]].
  rewrite stands_seq, hangs_seq by lia. apply Forall_app. split; apply Forall_forall; intros l I; apply in_map_iff in I as (i & <- & I); apply in_seq in I;
  assert (J : (i < n)%nat) by lia; pose proof (nxt_lt J); pose proof (@nxt_neq n i); apply good_three; lia.
Qed.
Definition good_polyb (k : nat) (l : list nat) : bool := forallb (fun i => i <? k)%nat l && (3 <=? length l)%nat && (length (nodup Nat.eq_dec l) =? length l)%nat.
Lemma nodup_short l : (length (nodup Nat.eq_dec l) <= length l)%nat /\ (length (nodup Nat.eq_dec l) = length l -> NoDup l).
Proof.
  induction l as [|a l [I J]]; cbn [nodup length]; [split; auto; constructor|]. destruct (in_dec Nat.eq_dec a l) as [K|K]; cbn [length]; (split; [lia|]).
  - intros E. lia.
  - intros E. constructor; auto.
Qed.
Lemma good_polyb_ok k polys : forallb (good_polyb k) polys = true -> Forall (good_poly k) polys.
Proof.
  intros H. rewrite forallb_forall in H. apply Forall_forall. intros l I. specialize (H l I). unfold good_polyb in H.
  apply andb_true_iff in H as [H E]. apply andb_true_iff in H as [H F]. apply Nat.eqb_eq in E. apply Nat.leb_le in F.
  split; [|split; [auto|apply nodup_short; auto]]. apply Forall_forall. intros i J. rewrite forallb_forall in H. apply Nat.ltb_lt. auto.
Qed.

Section Top.
  Context {EP FP : Type}.
  Notation mesh := (mesh vec3 EP FP).
  Implicit Types (c : cfg) (m : mesh).
  Variable (dE : EP) (dF : FP).
  Notation ring r n s y := (circle_iter (circle_at r n s y) n).

  (** a convex solid encloses the sum of the cones over its faces *)
  Lemma convex_encloses m y pts polys ne : wf m -> solid (abs m) y pts polys ne -> convex_solid pts polys -> Forall (good_poly (length pts)) polys ->
    encloses m (solid_volume (map (map (pt pts)) polys)).
  Proof.
    intros Wm S C G. rewrite Forall_forall in G. apply (solid_encloses Wm S); apply Forall_forall; intros l I; destruct (G l I) as (A & B & D); auto.
    apply facet_flat; auto.
  Qed.
End Top.

(** ** rings *)
Lemma map_first r n s y l : map (pt (circle r n s y ++ l)) (seq 0 n) = circle r n s y.
Proof. unfold circle at 2. apply map_ext_in. intros k I. apply in_seq in I. rewrite circle_rp. apply pt_first. lia. Qed.
Lemma map_second r n s y r' s' y' : map (pt (circle r n s y ++ circle r' n s' y')) (seq n n) = circle r' n s' y'.
Proof.
  rewrite <- (app_nil_r (circle r' n s' y')) at 1. apply (@nth_seq_mid _ zero3 (circle r n s y) (circle r' n s' y') [] n n); rewrite circle_length; reflexivity.
Qed.
Lemma cyc_circle r n s y : (0 < n)%nat -> cyc (circle r n s y) = map (fun k => (rp r y (ang n s k), rp r y (ang n s k + 2 * (PI / INR n)))) (seq 0 n).
Proof.
  intros N. unfold circle. rewrite cyc_map, cyc_seq, map_map by auto. apply map_ext. intros k. cbn [fst snd]. rewrite !circle_rp, <- rp_nxt by auto. reflexivity.
Qed.
Lemma rp_det u r y a d : det3 u (rp r y a) (rp r y (a + d)) =
  snd (fst u) * (r * r * sin d) + y * ((fst (fst u) * (- r * sin (a + d)) - snd u * (r * cos (a + d))) - (fst (fst u) * (- r * sin a) - snd u * (r * cos a))).
Proof.
  destruct u as [[u1 u2] u3]. unfold rp, det3. cbn [fst snd].
  assert (E : cos a * sin (a + d) - sin a * cos (a + d) = sin d) by (transitivity (sin ((a + d) - a)); [rewrite sin_minus; ring|f_equal; ring]).
  rewrite <- E. ring.
Qed.
Lemma circle_area r n s y : (3 <= n)%nat -> area_vec (circle r n s y) = (0, regular_polygon_area r n, 0).
Proof.
  intros N. apply vdot_all. intros u. rewrite vdot_area_vec, poly_edges_cyc.
  set (f := fun p : vec3 => y * (fst (fst u) * snd p - snd u * fst (fst p))).
  assert (E : esum 0 Rplus (det3 u) (cyc (circle r n s y)) = esum 0 Rplus (fun p q => snd (fst u) * (r * r * sin (2 * (PI / INR n))) + (f q - f p)) (cyc (circle r n s y))).
  { apply esum_in. intros p q I. rewrite cyc_circle in I by lia. apply in_map_iff in I as (k & X & _). injection X as <- <-. rewrite rp_det. unfold f, rp. cbn [fst snd]. ring. }
  rewrite E, (esum_add RE RX RT (fun _ _ => snd (fst u) * (r * r * sin (2 * (PI / INR n))))), <- (poly_edges_cyc (circle r n s y)), (esum_tele RE RX RT f).
  assert (K : forall (es : list (vec3 * vec3)) x, esum 0 Rplus (fun _ _ => x) es = INR (length es) * x).
  { intros es x. induction es as [|[p q] es IH]; [cbn; ring|]. cbn [esum length]. rewrite IH, S_INR. ring. }
  rewrite K, poly_edges_cyc, cyc_circle, map_length, seq_length by lia. unfold regular_polygon_area. replace (2 * PI / INR n) with (2 * (PI / INR n)) by (unfold Rdiv; ring).
  destruct u as [[u1 u2] u3]. unfold vdot. cbn [fst snd]. field.
Qed.
Lemma circle_nil r n s y : (3 <= n)%nat -> circle r n s y <> [].
Proof. intros N E. pose proof (circle_length r n s y) as L. rewrite E in L. cbn in L. lia. Qed.
Lemma circle_hd r n s y : (3 <= n)%nat -> vdot (hd zero3 (circle r n s y)) (area_vec (circle r n s y)) = y * regular_polygon_area r n.
Proof. intros N. rewrite circle_area by auto. destruct n as [|n]; [lia|]. unfold circle. cbn [seq map hd]. rewrite circle_rp. unfold rp, vdot. ring. Qed.

Lemma pyramid_vol r h n : (3 <= n)%nat -> let pts := circle r n 0 0 ++ [(0, h, 0)] in
  solid_volume (map (map (pt pts)) (pyramid_polys n)) = / 3 * regular_polygon_area r n * h.
Proof.
  intros N pts. unfold pyramid_polys. cbn [map]. rewrite <- turn_map, <- fans_map. unfold pts. rewrite map_first.
  replace (pt (circle r n 0 0 ++ [(0, h, 0)]) n) with ((0, h, 0) : vec3).
  - rewrite pyramid_formula by (apply circle_nil; auto). rewrite vdot_sub_l, circle_hd, circle_area by auto. unfold vdot. ring.
  - unfold pt. rewrite app_nth2; rewrite circle_length; [|lia]. rewrite Nat.sub_diag. reflexivity.
Qed.
Lemma circle_copy r1 r2 h n s : r1 <> 0 -> circle r2 n s h = map (copy (0, h, 0) (r2 / r1)) (circle r1 n s 0).
Proof.
  intros R1. unfold circle. rewrite map_map. apply map_ext. intros k. rewrite !circle_rp. unfold copy, rp, vadd, vmul. f_equal; [f_equal|]; field; auto.
Qed.
Lemma area_scale r s n : regular_polygon_area (r * s) n = regular_polygon_area r n * (s * s).
Proof. unfold regular_polygon_area. ring. Qed.
Lemma frustum_vol0 r1 r2 h n : (3 <= n)%nat -> 0 < r1 -> let s := r2 / r1 in let pts := circle r1 n 0 0 ++ circle r2 n 0 h in
  solid_volume (map (map (pt pts)) (frustum_polys n)) = h / 3 * (1 + s + s * s) * regular_polygon_area r1 n.
Proof.
  intros N R1 s pts. unfold frustum_polys. cbn [map]. rewrite map_app. cbn [map]. rewrite <- turn_map, <- quads_map. unfold pts. rewrite map_first, map_second.
  rewrite (@circle_copy r1 r2) by lra. fold s. rewrite frustum_formula by (apply circle_nil; auto). rewrite circle_hd, circle_area by auto. unfold vdot. field.
Qed.
Lemma frustum_vol r1 r2 h n : (3 <= n)%nat -> 0 < r1 -> 0 < r2 -> let a1 := regular_polygon_area r1 n in let a2 := regular_polygon_area r2 n in
  solid_volume (map (map (pt (circle r1 n 0 0 ++ circle r2 n 0 h))) (frustum_polys n)) = h / 3 * (a1 + sqrt (a1 * a2) + a2).
Proof.
  intros N R1 R2 a1 a2. rewrite frustum_vol0 by auto. fold a1. set (s := r2 / r1). assert (S : 0 < s) by (apply Rdiv_lt_0_compat; auto).
  assert (E : a2 = a1 * (s * s)) by (unfold a1, a2; rewrite <- area_scale; f_equal; unfold s; field; lra).
  pose proof (area_pos N R1) as A1. fold a1 in A1. rewrite E. replace (a1 * (a1 * (s * s))) with ((s * a1) * (s * a1)) by ring.
  rewrite sqrt_square by (apply Rmult_le_pos; lra). ring.
Qed.
Lemma prism_vol r h n : (3 <= n)%nat -> 0 < r -> solid_volume (map (map (pt (circle r n 0 0 ++ circle r n 0 h))) (frustum_polys n)) = regular_polygon_area r n * h.
Proof. intros N HR. rewrite frustum_vol0 by auto. replace (r / r) with 1 by (field; lra). field. Qed.

Lemma stand_det r h a d : det3 (rp r 0 a) (rp r 0 (a + 2 * d)) (rp r h (a + d)) = h * (r * r * sin (2 * d)).
Proof.
  assert (E : sin (a + 2 * d) * cos a - cos (a + 2 * d) * sin a = sin (2 * d)) by (transitivity (sin ((a + 2 * d) - a)); [rewrite sin_minus; ring|f_equal; ring]).
  unfold rp, det3. rewrite <- E. ring.
Qed.
Lemma hang_det r h a d : det3 (rp r 0 (a + 2 * d)) (rp r h (a + d + 2 * d)) (rp r h (a + d)) = h * (r * r * (2 * sin d)).
Proof.
  set (b := a + 2 * d). replace (a + d + 2 * d) with (b + d) by (unfold b; ring). replace (a + d) with (b - d) by (unfold b; ring).
  pose proof (sin2_cos2 b) as Q. unfold Rsqr in Q. unfold rp, det3. rewrite sin_plus, cos_plus, sin_minus, cos_minus.
  transitivity (h * (r * r * (2 * sin d)) * (sin b * sin b + cos b * cos b)); [ring|rewrite Q; ring].
Qed.
Lemma solid_map (A : Type) (F : A -> list vec3) l x : (forall a, In a l -> cone_volume zero3 (F a) = x) -> solid_volume (map F l) = INR (length l) * x.
Proof.
  unfold solid_volume. induction l as [|a l IH]; intros H; [cbn; ring|]. cbn [map rsum fold_right length]. unfold rsum in IH. rewrite (H a (or_introl eq_refl)), IH, S_INR; [ring|].
  intros; apply H; right; auto.
Qed.
Lemma antiprism_vol r h n : (3 <= n)%nat -> solid_volume (map (map (pt (circle r n 0 0 ++ circle r n 1 h))) (antiprism_polys n)) =
  h / 3 * (2 * regular_polygon_area r n + regular_polygon_area r (2 * n)).
Proof.
  intros N. assert (NP : INR n <> 0) by (apply not_0_INR; lia). unfold antiprism_polys. cbn [map]. rewrite !map_app. cbn [map]. rewrite <- turn_map, map_first, map_second.
  rewrite solid_cons, !solid_app. rewrite (cone_any (turn_nil (circle_nil N))), hd_turn, turn_area, vdot_mul, circle_hd by auto.
  unfold solid_volume at 3. cbn [map rsum fold_right]. rewrite (cone_any (circle_nil N)), circle_hd by auto.
  rewrite stands_seq, hangs_seq, !map_map by lia. cbn [map]. rewrite (@solid_map _ _ _ (h * (r * r * sin (2 * (PI / INR n))) / 6)), (@solid_map _ _ _ (h * (r * r * (2 * sin (PI / INR n))) / 6)).
  - rewrite seq_length. unfold regular_polygon_area. rewrite mult_INR. change (INR 2) with 2.
    replace (2 * PI / INR n) with (2 * (PI / INR n)) by (field; auto). replace (2 * PI / (2 * INR n)) with (PI / INR n) by (field; auto). field.
  - intros k I. apply in_seq in I. assert (K : (k < n)%nat) by lia. pose proof (nxt_lt K). rewrite Nat.add_0_l, pt_first, !pt_second, cone_tri by auto.
    rewrite !rp_nxt, ang_half by lia. rewrite hang_det. reflexivity.
  - intros k I. apply in_seq in I. assert (K : (k < n)%nat) by lia. pose proof (nxt_lt K). rewrite !Nat.add_0_l, !pt_first, !pt_second, cone_tri by auto.
    rewrite !rp_nxt, ang_half by lia. rewrite stand_det. reflexivity.
Qed.

(** ** solids with fixed corners *)
Lemma box_vol x y z : solid_volume (map (map (pt (box_points x y z))) box_polys) = 8 * (x * y * z).
Proof. unfold box_polys, box_points, solid_volume, cone_volume, area_vec, pt. cbn. field. Qed.
Lemma octa_vol r : solid_volume (map (map (pt (octa_points r))) (bipyramid_polys 4)) = 4 / 3 * (r * r * r).
Proof.
  let l := eval vm_compute in (bipyramid_polys 4) in change (bipyramid_polys 4) with l. unfold octa_points, solid_volume, pt. cbn [map app nth rsum fold_right]. rewrite !cone_tri.
  unfold det3. field.
Qed.
Lemma tetra_vol l : 0 < l -> solid_volume (map (map (pt (tetra_points l))) (pyramid_polys 3)) = l * l * l / (6 * sqrt 2).
Proof.
  intros H. assert (S2 : sqrt 2 * sqrt 2 = 2) by (apply sqrt_sqrt; lra). assert (P2 : 0 < sqrt 2) by (apply sqrt_lt_R0; lra).
  let l := eval vm_compute in (pyramid_polys 3) in change (pyramid_polys 3) with l. unfold tetra_points, solid_volume, pt. cbv zeta. cbn [map app nth rsum fold_right]. rewrite !cone_tri.
  unfold det3. field. lra.
Qed.
Lemma icosa_vol L s : L * L = L * s + s * s -> solid_volume (map (map (pt (icosa_points L s))) (icosa_polys 5)) = 20 / 3 * (L * L * s).
Proof.
  intros G. let l := eval vm_compute in (icosa_polys 5) in change (icosa_polys 5) with l. change (icosa_points L s) with (icosa_list L s).
  unfold icosa_list, solid_volume, pt. cbn [map app nth rsum fold_right]. rewrite !cone_tri. unfold det3.
  assert (LLL : L * L * L = L * L * s + L * s * s) by (rewrite !Rmult_assoc, <- Rmult_plus_distr_l; rewrite G at 1; ring).
  assert (LLs : L * L * s = L * s * s + s * s * s) by (rewrite G; ring). lra.
Qed.
Lemma icosa_volume l : 20 / 3 * (l * golden * / 2 * (l * golden * / 2) * (l * / 2)) = 5 / 12 * (3 + sqrt 5) * (l * l * l).
Proof.
  destruct sqrt5 as [Q _]. unfold golden. transitivity (5 / 24 * (1 + 2 * sqrt 5 + sqrt 5 * sqrt 5) * (l * l * l)); [field|rewrite Q; field].
Qed.

Section Meshes.
  Context {EP FP : Type}.
  Notation mesh := (mesh vec3 EP FP).
  Implicit Types (c : cfg) (m : mesh).
  Variable (dE : EP) (dF : FP).

  Lemma pyramid_encloses c r h n : (3 <= n)%nat -> 0 < r -> 0 < h -> (4 * n <= capE c)%nat -> (S n <= capV c)%nat -> (S n <= capF c)%nat ->
    exists m, r_pyramid dE dF c r h n = Ok m /\ wf m /\ encloses m (/ 3 * regular_polygon_area r n * h).
  Proof.
    intros N HR HH A B D. destruct (@pyramid_top EP FP dE dF c r h n N HR HH A B D) as (m & E & W & S & C & _). exists m. split; auto. split; auto.
    rewrite <- (pyramid_vol r h N). apply (convex_encloses W S C). unfold circle_iter; rewrite app_length, map_length, seq_length; cbn [length]. rewrite Nat.add_1_r. apply pyramid_good; auto.
  Qed.
  Lemma frustum_encloses c r1 r2 h n : (3 <= n)%nat -> 0 < r1 -> 0 < r2 -> 0 < h -> (6 * n <= capE c)%nat -> (2 * n <= capV c)%nat -> (2 + n <= capF c)%nat ->
    let a1 := regular_polygon_area r1 n in let a2 := regular_polygon_area r2 n in
    exists m, r_frustum dE dF c r1 r2 h n false = Ok m /\ wf m /\ encloses m (h / 3 * (a1 + sqrt (a1 * a2) + a2)).
  Proof.
    intros N R1 R2 HH A B D a1 a2. destruct (@frustum_top EP FP dE dF c r1 r2 h n N R1 R2 HH A B D) as (m & E & W & S & C). exists m. split; auto. split; auto.
    unfold a1, a2. rewrite <- (frustum_vol h N R1 R2). apply (convex_encloses W S C). unfold circle_iter. rewrite app_length, !map_length, !seq_length. apply frustum_good; auto.
  Qed.
  Lemma prism_encloses c r h n : (3 <= n)%nat -> 0 < r -> 0 < h -> (6 * n <= capE c)%nat -> (2 * n <= capV c)%nat -> (2 + n <= capF c)%nat ->
    exists m, r_prism dE dF c r h n = Ok m /\ wf m /\ encloses m (regular_polygon_area r n * h).
  Proof.
    intros N HR HH A B D. destruct (@prism_top EP FP dE dF c r h n N HR HH A B D) as (m & E & W & S & C & _). exists m. split; auto. split; auto.
    rewrite <- (prism_vol h N HR). apply (convex_encloses W S C). unfold circle_iter. rewrite app_length, !map_length, !seq_length. apply frustum_good; auto.
  Qed.
  Lemma antiprism_encloses c r h n : (3 <= n)%nat -> 0 < r -> 0 < h -> (8 * n <= capE c)%nat -> (2 * n <= capV c)%nat -> (2 + 2 * n <= capF c)%nat ->
    exists m, r_antiprism dE dF c r h n = Ok m /\ wf m /\ encloses m (h / 3 * (2 * regular_polygon_area r n + regular_polygon_area r (2 * n))).
  Proof.
    intros N HR HH A B D. destruct (@antiprism_top EP FP dE dF c r h n N HR HH A B D) as (m & E & W & S & C & _). exists m. split; auto. split; auto.
    rewrite <- (antiprism_vol r h N). apply (convex_encloses W S C). unfold circle_iter. rewrite app_length, !map_length, !seq_length. apply antiprism_good; auto.
  Qed.
  Lemma cuboid_encloses c x y z : 0 < x -> 0 < y -> 0 < z -> (24 <= capE c)%nat -> (8 <= capV c)%nat -> (6 <= capF c)%nat ->
    exists m, r_cuboid dE dF c (x, y, z) = Ok m /\ wf m /\ encloses m (x * y * z).
  Proof.
    intros X Y Z A B D. destruct (@cuboid_top EP FP dE dF c x y z X Y Z A B D) as (m & E & W & S & C). exists m. split; auto. split; auto.
    replace (x * y * z) with (8 * (x / 2 * (y / 2) * (z / 2))) by field. rewrite <- box_vol. apply (convex_encloses W S C). apply good_polyb_ok. vm_compute. reflexivity.
  Qed.
  Lemma octahedron_encloses c r : 0 < r -> (24 <= capE c)%nat -> (6 <= capV c)%nat -> (8 <= capF c)%nat ->
    exists m, octahedron_mesh dE dF c r = Ok m /\ wf m /\ encloses m (4 / 3 * (r * r * r)).
  Proof.
    intros H A B D. pose proof (@bipyramid_solid _ _ _ dE dF c [(r, 0, 0); (0, 0, - r); (- r, 0, 0); (0, 0, r)] (0, r, 0) (0, - r, 0)) as X. cbv zeta in X. cbn [length] in X.
    destruct X as (m & E & W & SO); try lia. exists m. split; [unfold octahedron_mesh, regular_octahedron; rewrite circle_four; exact E|]. split; auto.
    rewrite <- octa_vol. apply (convex_encloses W SO (octa_convex H)). apply good_polyb_ok. cbn [app length]. vm_compute. reflexivity.
  Qed.
  Lemma tetrahedron_encloses c l : 0 < l -> (12 <= capE c)%nat -> (4 <= capV c)%nat -> (4 <= capF c)%nat ->
    exists m, regular_tetrahedron dE dF c l = Ok m /\ wf m /\ encloses m (l * l * l / (6 * sqrt 2)).
  Proof.
    intros H A B D.
    pose proof (@pyramid_solid _ _ _ dE dF c [(- (/ 2 * l), 0, - (/ 2 * l / sqrt 2)); (0, - (/ 2 * l), / 2 * l / sqrt 2); (/ 2 * l, 0, - (/ 2 * l / sqrt 2))] (0, / 2 * l, / 2 * l / sqrt 2)) as X.
    cbv zeta in X. cbn [length] in X.
    destruct X as (m & E & W & SO); try lia. exists m. split; [exact E|]. split; auto.
    rewrite <- (tetra_vol H). apply (convex_encloses W SO (tetra_convex H)). apply good_polyb_ok. cbn [app length]. vm_compute. reflexivity.
  Qed.
  Lemma icosahedron_encloses c l : 0 < l -> (60 <= capE c)%nat -> (12 <= capV c)%nat -> (20 <= capF c)%nat ->
    exists m, regular_icosahedron dE dF c l = Ok m /\ wf m /\ encloses m (5 / 12 * (3 + sqrt 5) * (l * l * l)).
  Proof.
    intros H A B D. destruct (golden_law H) as (S & LS & G). cbv zeta in *.
    pose proof (@icosa_solid _ _ _ dE dF c [(0, l * golden * / 2, - (l * / 2)); (l * golden * / 2, l * / 2, 0); (l * / 2, 0, l * golden * / 2); (- (l * / 2), 0, l * golden * / 2); (- (l * golden * / 2), l * / 2, 0)]
      [(l * / 2, 0, - (l * golden * / 2)); (l * golden * / 2, - (l * / 2), 0); (0, - (l * golden * / 2), l * / 2); (- (l * golden * / 2), - (l * / 2), 0); (- (l * / 2), 0, - (l * golden * / 2))]
      (0, l * golden * / 2, l * / 2) (0, - (l * golden * / 2), - (l * / 2))) as X. cbv zeta in X. cbn [length] in X.
    destruct X as (m & E & W & SO); try lia. exists m. split; [exact E|]. split; auto.
    rewrite <- icosa_volume, <- icosa_vol by auto. apply (convex_encloses W SO (icosa_convex S LS G)). apply good_polyb_ok. cbn [app length]. vm_compute. reflexivity.
  Qed.
End Meshes.
