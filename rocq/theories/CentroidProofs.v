(** Proofs for centroids. *)
From Coq Require Import List Arith Lia Bool Reals Lra Permutation Setoid Ring_theory RealField.
From Verif Require Import Base DVec DVecFacts Mesh Spec MeshSpec MeshMore MeshFacts TopoSpec BuildSpec BuildStep Rep Traverse MeshProofs IsoProofs Cycle CheckProofs SubdivFacts.
From Verif Require Import Alg AlgSpec AlgProofs Transform TransSpec TransProofs Normals NormalsSpec NormalsProofs PlaneSpec SolidSpec Centroid CentroidSpec.
Import ListNotations.
Set Implicit Arguments.
Unset Strict Implicit.
Local Arguments abs : simpl never.
Local Open Scope R_scope.

Notation rsum := (sum 0 Rplus).
Lemma rsum_cons x l : rsum (x :: l) = x + rsum l.
Proof. reflexivity. Qed.
Lemma rsum_perm l l' : Permutation l l' -> rsum l = rsum l'.
Proof. induction 1; rewrite ?rsum_cons; try lra. Qed.
Lemma dev_sum (ps : list rvec) c i : vsum (map (fun p => vsub p c) ps) i = vsum ps i - INR (length ps) * c i.
Proof.
  unfold vsum. induction ps as [|p ps IH]; [cbn; lra|]. cbn [map length]. rewrite !rsum_cons, S_INR, IH. unfold vsub. ring.
Qed.
Lemma centre_iff ps c : ps <> [] -> (centre ps c <-> forall i, (i < 3)%nat -> c i = vsum ps i / INR (length ps)).
Proof.
  intros N. assert (P : 0 < INR (length ps)). { apply lt_0_INR. destruct ps; [congruence|cbn; lia]. }
  unfold centre. split.
  - intros [_ H] i L. specialize (H i L). rewrite dev_sum in H. apply (Rmult_eq_reg_r (INR (length ps))); [|lra]. field_simplify; lra.
  - intros H. split; auto. intros i L. rewrite dev_sum, (H i L). field. lra.
Qed.
Lemma centre_unique ps c d i : centre ps c -> centre ps d -> (i < 3)%nat -> c i = d i.
Proof. intros C D L. pose proof (proj1 C) as N. pose proof (proj1 (centre_iff c N) C) as C'. pose proof (proj1 (centre_iff d N) D) as D'. rewrite C', D'; auto. Qed.
Lemma centre_perm ps qs c : Permutation ps qs -> centre ps c -> centre qs c.
Proof.
  intros P [N H]. split. { intros ->. apply Permutation_sym, Permutation_nil in P. auto. }
  intros i L. rewrite <- (H i L). unfold vsum. apply rsum_perm, Permutation_map, Permutation_map, Permutation_sym, P.
Qed.

Lemma mean_centre nan ps : ps <> [] -> centre ps (stable_mean nan ps).
Proof.
  intros N. apply centre_iff; auto. intros i _. unfold stable_mean.
  destruct (kahan_sum (@eq_equivalence R) (Eq_ext Rplus Rmult Ropp) RTheory (map (fun v : rvec => v i) ps)) as [A B].
  destruct (kahan _ _ _ _) as [s n]. cbn [fst snd] in *. rewrite map_length in B. subst n s.
  destruct ps; [congruence|]. reflexivity.
Qed.
Lemma mean_empty nan i : stable_mean nan [] i = nan i.
Proof. reflexivity. Qed.

(** ** Facts about centres *)
Lemma vdot_sum n ps : rsum (map (rdot n) ps) = rdot n (vsum ps).
Proof.
  unfold vsum. induction ps as [|p ps IH]; [unfold dot3; cbn; ring|]. cbn [map]. rewrite rsum_cons, IH. unfold dot3. rewrite !rsum_cons. ring.
Qed.
Lemma bound_sum n k ps : (forall p, In p ps -> rdot n p <= k) -> rsum (map (rdot n) ps) <= INR (length ps) * k.
Proof.
  induction ps as [|p ps IH]; intros H; [cbn; lra|]. cbn [map length]. rewrite rsum_cons, S_INR.
  pose proof (H p (or_introl eq_refl)). assert (rsum (map (rdot n) ps) <= INR (length ps) * k) by (apply IH; intros; apply H; right; auto). lra.
Qed.
Theorem centre_inside ps c n k : centre ps c -> (forall p, In p ps -> rdot n p <= k) -> rdot n c <= k.
Proof.
  intros C H. pose proof (proj1 C) as N. pose proof (proj1 (centre_iff c N) C) as C'. clear C. rename C' into C.
  assert (P : 0 < INR (length ps)). { apply lt_0_INR. destruct ps; [congruence|cbn; lia]. }
  apply (Rmult_le_reg_l (INR (length ps))); auto. eapply Rle_trans; [|apply bound_sum, H]. rewrite vdot_sum.
  unfold dot3. rewrite !C by lia. apply Req_le. field. lra.
Qed.
Lemma spread_shift ps c q : centre ps c -> spread ps q = spread ps c + INR (length ps) * rdot (vsub c q) (vsub c q).
Proof.
  intros [_ C]. assert (G : forall l, spread l q = spread l c + 2 * rdot (vsub c q) (vsum (map (fun p => vsub p c) l)) + INR (length l) * rdot (vsub c q) (vsub c q)).
  { clear. induction l as [|p l IH]; [unfold spread, dot3, vsum; cbn; ring|]. unfold spread in *. cbn [map length]. rewrite !rsum_cons, IH, S_INR.
    unfold dot3, vsum. cbn [map]. rewrite !rsum_cons. unfold vsub. ring. }
  rewrite G. unfold dot3 at 1. rewrite !C by lia. ring.
Qed.
Theorem centre_least ps c q : centre ps c -> spread ps c <= spread ps q.
Proof. intros C. rewrite (spread_shift q C). pose proof (rdot_nonneg (vsub c q)). pose proof (pos_INR (length ps)). nra. Qed.
Lemma apply_row t v i : a_apply 0 Rplus Rmult 3 t v i = rdot (a_mat t i) v + a_tr t i.
Proof. unfold a_apply. f_equal. unfold mvec, dot3. cbn. ring. Qed.
Theorem centre_image t ps c : centre ps c -> centre (map (a_apply 0 Rplus Rmult 3 t) ps) (a_apply 0 Rplus Rmult 3 t c).
Proof.
  intros [N C]. split; [destruct ps; cbn; congruence|]. intros i L.
  assert (G : forall l, vsum (map (fun p => vsub p (a_apply 0 Rplus Rmult 3 t c)) (map (a_apply 0 Rplus Rmult 3 t) l)) i =
    rdot (a_mat t i) (vsum (map (fun p => vsub p c) l))).
  { clear. unfold vsum. induction l as [|p l IH]; [unfold dot3; cbn; ring|]. cbn [map]. rewrite rsum_cons, IH. unfold dot3. rewrite !rsum_cons.
    unfold vsub. rewrite !apply_row. unfold dot3. ring. }
  rewrite G. unfold dot3. rewrite !C by lia. ring.
Qed.

(** ** Meshes *)
Section MeshC.
  Context {FP : Type}.
  Notation mesh := (mesh (pnu R) (curve R) FP).
  Implicit Types (m : mesh).
  Variable nan : rvec.
  Lemma pays_perm m vs ps : wf m -> exactly (lvv (abs m)) vs -> map (vp (abs m)) vs = map Some ps ->
    Permutation (map (fun x => u_pos (v_pay (snd x))) (d_iter (verts m))) (map (@u_pos R) ps).
  Proof.
    intros (OE & OV & OF & _) XV PV.
    assert (Q : Permutation (map fst (d_iter (verts m))) vs).
    { apply NoDup_Permutation; [apply ids_nodup; auto|apply XV|]. intros x. rewrite in_iter_has by auto. split; apply XV. }
    apply (Permutation_map (vp (abs m))) in Q. rewrite PV in Q.
    assert (E : map (vp (abs m)) (map fst (d_iter (verts m))) = map Some (map (fun x => v_pay (snd x)) (d_iter (verts m)))).
    { rewrite !map_map. apply map_ext_in. intros [i x] I. cbn [fst snd].
      apply (iter_look OV) in I. unfold abs. cbn [vp]. rewrite I. reflexivity. }
    rewrite E in Q. apply (Permutation_map (fun o => match o with Some p => u_pos p | None => fun _ => 0 end)) in Q. rewrite !map_map in Q. exact Q.
  Qed.
  Theorem mesh_centroid_ok m vs ps : wf m -> exactly (lvv (abs m)) vs -> map (vp (abs m)) vs = map Some ps ->
    (ps <> [] -> centre (map (@u_pos R) ps) (mesh_centroid nan m)) /\ (ps = [] -> forall i, mesh_centroid nan m i = nan i).
  Proof.
    intros Wm XV PV. pose proof (pays_perm Wm XV PV) as P. split.
    - intros N. eapply centre_perm; [exact P|]. apply mean_centre. intros Z. rewrite Z in P. apply Permutation_nil in P.
      destruct ps; [auto|discriminate].
    - intros -> i. apply Permutation_sym, Permutation_nil in P. unfold mesh_centroid. rewrite P. reflexivity.
  Qed.
  Lemma face_points_val m f vs ps : wf m -> lvf (abs m) f = true -> boundary_vertices (abs m) f vs -> map (vp (abs m)) vs = map Some ps ->
    face_points m f = Ok (map (@u_pos R) ps).
  Proof.
    intros Wm L B PV. unfold face_points. rewrite (boundary_face_vertices Wm L B). cbn [bind].
    pose proof (boundary_live Wm B) as F. clear B. destruct (wf_abs Wm) as [Rp W]. revert ps PV.
    induction F as [|v vs LV F IH]; intros [|p ps] PV; try discriminate; [reflexivity|]. cbn [map] in PV. assert (PV1 : vp (abs m) v = Some p) by congruence.
    assert (PVS : map (vp (abs m)) vs = map Some ps) by congruence.
    destruct (r_vertex_live Rp _ LV) as (x & X & _ & P). cbn [mapM map]. rewrite X. cbn [bind]. rewrite (IH _ PVS). cbn [bind].
    rewrite PV1 in P. injection P as ->. reflexivity.
  Qed.
  Lemma boundary_nonempty m f vs : wf m -> lvf (abs m) f = true -> boundary_vertices (abs m) f vs -> vs <> [].
  Proof.
    intros Wm L (es & LP & ->) Z. discriminate Z.
  Qed.
  Theorem face_centroid_ok m f vs ps : wf m -> lvf (abs m) f = true -> boundary_vertices (abs m) f vs -> map (vp (abs m)) vs = map Some ps ->
    exists c, face_centroid nan m f = Ok c /\ centre (map (@u_pos R) ps) c.
  Proof.
    intros Wm L B PV. unfold face_centroid. rewrite (face_points_val Wm L B PV). cbn [bind]. eexists. split; [reflexivity|].
    apply mean_centre. intros Z. apply map_eq_nil in Z. subst ps. apply map_eq_nil in PV. exact (boundary_nonempty Wm L B PV).
  Qed.
  Theorem edge_centroid_ok m e : wf m -> lv (abs m) e = true ->
    exists p q c, vp (abs m) (og (abs m) e) = Some p /\ vp (abs m) (target (abs m) e) = Some q /\
      edge_centroid m e = Ok c /\ centre [u_pos p; u_pos q] c.
  Proof.
    intros Wm L. destruct (wf_abs Wm) as [Rp W]. destruct (ends_ok Wm L) as (x & y & X & Y & E).
    destruct (r_vertex_live Rp _ (wf_og W _ L)) as (x' & X' & _ & PX). rewrite X in X'. injection X' as <-.
    assert (LT : lvv (abs m) (target (abs m) e) = true). { unfold target. apply W, W, L. }
    destruct (r_vertex_live Rp _ LT) as (y' & Y' & _ & PY). rewrite Y in Y'. injection Y' as <-.
    exists (v_pay x), (v_pay y). unfold edge_centroid. rewrite E. cbn [bind]. eexists. repeat split; [exact PX|exact PY|discriminate|].
    intros i _. rewrite dev_sum. unfold vsum. cbn. field.
  Qed.

  (** transformed meshes *)
  Lemma iter_map (A : Type) (g : A -> A) (d : dvec A) : d_iter (d_map g d) = map (fun x => (fst x, g (snd x))) (d_iter d).
  Proof.
    unfold d_iter, d_map. cbn [slots]. induction (slots d) as [|[p|] l IH]; cbn; auto. rewrite IH. reflexivity.
  Qed.
  Notation tr := (t_transform 0 Rplus Rmult 3).
  Theorem mesh_centroid_image t m v i : wf m -> lvv (abs m) v = true -> (i < 3)%nat ->
    mesh_centroid nan (tr t m) i = a_apply 0 Rplus Rmult 3 t (mesh_centroid nan m) i.
  Proof.
    intros Wm L I. unfold mesh_centroid. unfold t_transform, m_transform. cbn [verts]. rewrite iter_map, map_map. cbn [snd v_pay u_transform u_pos].
    set (l := map (fun x => u_pos (v_pay (snd x))) (d_iter (verts m))).
    assert (N : l <> []).
    { unfold l. intros Z. apply map_eq_nil in Z. pose proof (in_iter_has v (proj1 (proj2 Wm))) as H. rewrite Z in H. apply H. exact L. }
    replace (map _ (d_iter (verts m))) with (map (a_apply 0 Rplus Rmult 3 t) l) by (unfold l; rewrite map_map; reflexivity).
    eapply centre_unique; [apply mean_centre|apply centre_image, mean_centre, N|exact I]. destruct l; cbn; congruence.
  Qed.
  Theorem face_centroid_image t m f : wf m -> lvf (abs m) f = true ->
    exists c d, face_centroid nan m f = Ok c /\ face_centroid nan (tr t m) f = Ok d /\
      forall i, (i < 3)%nat -> d i = a_apply 0 Rplus Rmult 3 t c i.
  Proof.
    intros Wm L. unfold face_centroid.
    destruct (face_points_image 0 Rplus Rmult 3 t Wm L) as (l & H & H').
    destruct (boundary_exists Wm L) as (vs & B).
    rewrite H, H'. cbn [bind]. eexists. eexists. split; [reflexivity|]. split; [reflexivity|]. intros i I.
    assert (N : l <> []).
    { intros ->. pose proof (boundary_nonempty Wm L B) as NE. unfold face_points in H. rewrite (boundary_face_vertices Wm L B) in H. cbn [bind] in H.
      destruct vs; [auto|]. cbn [mapM] in H. destruct (m_vertex m n); try discriminate. cbn [bind] in H. destruct (mapM _ vs); discriminate. }
    eapply centre_unique; [apply mean_centre|apply centre_image, mean_centre, N|exact I]. destruct l; cbn; congruence.
  Qed.
  (** edges *)
  Lemma curve_at m e k x : wf m -> lv (abs m) e = true -> ep (abs m) e = Some k -> edge_centroid m e = Ok x ->
    exists a b, edge_point 1 Rplus Rmult Rminus m e (/ 2) = Ok (point_at 1 Rplus Rmult Rminus k a b (/ 2)) /\ x = (fun i => (a i + b i) * / 2).
  Proof.
    intros Wm L P E. destruct (wf_abs Wm) as [Rp W]. destruct (ends_ok Wm L) as (a & b & _ & _ & X). unfold edge_centroid in E. rewrite X in E.
    cbn [bind] in E. injection E as <-. unfold edge_point. destruct (r_edge_live Rp _ L) as (z & Z & HZ). rewrite Z. cbn [bind]. rewrite X. cbn [bind].
    assert (PZ : e_pay z = k). { destruct HZ as (_ & _ & _ & _ & _ & HZ). rewrite P in HZ. injection HZ as HZ. auto. }
    rewrite PZ. do 2 eexists. split; reflexivity.
  Qed.
  Theorem edge_centroid_straight m e x : wf m -> lv (abs m) e = true -> ep (abs m) e = Some (Linear R) -> edge_centroid m e = Ok x ->
    exists y, edge_point 1 Rplus Rmult Rminus m e (/ 2) = Ok y /\ forall i, x i = y i.
  Proof.
    intros Wm L P E. destruct (curve_at Wm L P E) as (a & b & Q & ->). rewrite Q. eexists. split; [reflexivity|]. intros i. unfold point_at, lerp. field.
  Qed.
  Theorem edge_centroid_curved m e x c : wf m -> lv (abs m) e = true -> ep (abs m) e = Some (Quadratic c) -> edge_centroid m e = Ok x ->
    exists y, edge_point 1 Rplus Rmult Rminus m e (/ 2) = Ok y /\ forall i, x i = y i <-> c i = x i.
  Proof.
    intros Wm L P E. destruct (curve_at Wm L P E) as (a & b & Q & ->). rewrite Q. eexists. split; [reflexivity|]. intros i. cbv zeta beta iota delta [point_at]. split; intros; lra.
  Qed.
End MeshC.

(** ** Polygons *)
Section Poly.
  Variable ge : R -> R -> bool.
  Notation signed_area := (signed_area 0 Rplus Rmult Rminus ge (/ 2)).
  Notation RE := (@eq_equivalence R).
  Notation RX := (Eq_ext Rplus Rmult Ropp).
  Theorem orientation_reverse p : exists b, is_ccw ge p = Ok b /\ is_cw ge (rev p) = Ok b.
  Proof.
    destruct (area_reverse RE RX RTheory ge (/ 2) p) as (a & b & A & B & E). unfold is_ccw, is_cw. rewrite A, B. cbn [bind]. subst b.
    destruct (Rle_dec 0 a), (Rle_dec (- a) 0); try (eexists; split; reflexivity); lra.
  Qed.
  Theorem orientation_rotate p q : exists b c, is_ccw ge (p ++ q) = Ok b /\ is_ccw ge (q ++ p) = Ok b /\ is_cw ge (p ++ q) = Ok c /\ is_cw ge (q ++ p) = Ok c.
  Proof.
    destruct (area_rotate RE RX RTheory ge (/ 2) p q) as (a & b & A & B & E). unfold is_ccw, is_cw. rewrite A, B. cbn [bind]. subst b. eauto 6.
  Qed.
  Theorem orientation_area p : exists a b c, poly_area ge p = Ok a /\ is_ccw ge p = Ok b /\ is_cw ge p = Ok c /\ orb b c = true /\
    (andb b c = true <-> area2 p = 0) /\ (b = true <-> 0 <= area2 p) /\ (c = true <-> area2 p <= 0) /\ a = Rabs (area2 p).
  Proof.
    destruct (area_ok RE RX RTheory ge (/ 2) p) as (a & A & E). fold (area2 p) in E. unfold poly_area, is_ccw, is_cw. rewrite A. cbn [bind].
    do 3 eexists. do 3 (split; [reflexivity|]). rewrite E.
    destruct (Rle_dec 0 (area2 p)), (Rle_dec (area2 p) 0); cbn [orb andb]; repeat split; auto; intros; try discriminate; try lra.
  Qed.
End Poly.

(** ** Segments *)
Theorem midpoint_ok p q : let c := seg_midpoint p q in
  seg_length p c = seg_length c q /\ seg_length p q = 2 * seg_length p c /\ seg_length p q * seg_length p q = seg_length_squared p q.
Proof.
  cbv zeta. set (c := seg_midpoint p q).
  assert (A : seg_length_squared p c = seg_length_squared c q) by (unfold seg_length_squared, c, seg_midpoint; cbn [fst snd]; field).
  assert (B : seg_length_squared p q = 2 * 2 * seg_length_squared p c) by (unfold seg_length_squared, c, seg_midpoint; cbn [fst snd]; field).
  assert (P : forall a b, 0 <= seg_length_squared a b).
  { intros a b. unfold seg_length_squared. pose proof (Rle_0_sqr (fst a - fst b)). pose proof (Rle_0_sqr (snd a - snd b)). unfold Rsqr in *. lra. }
  unfold seg_length. rewrite <- A. repeat split; auto.
  - rewrite B, sqrt_mult by (auto; lra). rewrite sqrt_square; lra.
  - apply sqrt_sqrt, P.
Qed.
