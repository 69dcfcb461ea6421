(** Geodesic spheres. *)
From Coq Require Import List Arith Lia Reals Lra Permutation.
From Verif Require Import Base DVec DVecFacts Mesh Spec MeshSpec MeshProofs MeshMore CheckProofs Solid BuildSpec SolidSpec
  ShapeProofs SphereProofs CountProofs SolidTri Subdivision SubdivSpec SubdivFacts SubdivArc Interpolate InterpolateFacts Sphere SphereSpec SphereFacts.
Import ListNotations.
Set Implicit Arguments.
Unset Strict Implicit.
Local Arguments abs : simpl never.

Section Geodesic.
  Context {EP FP : Type}.
  Notation mesh := (mesh vec3 EP FP).
  Implicit Types (c : cfg) (m : mesh).
  Variable (dE : EP) (dF : FP).
  Local Open Scope R_scope.

  Definition slerp_phi (o : vec3) (radius eps : R) (ps : list (nat * vec3)) : vec3 :=
    match ends ps with Some (p, q) => SphereFacts.arc o radius eps p q | None => o end.
  Notation call c eps o radius := (slerp_call (fun x => x) (fun x => x) vadd vsub vmul normalize (slerp c eps) o radius).

  Lemma orientation_weak c eps o P p q r : orientation c eps o P -> P p q r -> weakly_outward o p q r.
  Proof. intros [X|X Y] H; auto using outward_weakly. Qed.
  Lemma orientation_rot c eps o P p q r : orientation c eps o P -> P p q r -> P q r p.
  Proof. intros [X|X Y] H; auto using outward_rot, weakly_rot. Qed.
  Lemma orientation_dbg c eps o P : orientation c eps o P -> dbg c = true -> 0 < eps.
  Proof. intros [X|X Y] H; auto. congruence. Qed.
  Lemma orientation_survives c eps o radius P : 0 < radius -> orientation c eps o P -> survives (EP := EP) (FP := FP) P (slerp_phi o radius eps).
  Proof.
    intros R0 O. apply arc_survives with (arc := SphereFacts.arc o radius eps).
    - intros p q r. repeat split.
    - intros p q r. apply (orientation_rot O).
    - intros p q r x y z H A B C. destruct O as [E|E _].
      + apply (weakly_step R0 E H A B C).
      + apply outward_step with (radius := radius) (eps := eps) (q := q) (r := r); auto. lra.
  Qed.
  Lemma lt_b_true x y : x < y -> lt_b x y = true.
  Proof. intros H. unfold lt_b. destruct (Rlt_dec x y); auto. Qed.
  Lemma orientation_reads c eps o radius P : orientation c eps o P -> reads (EP := EP) (FP := FP) P (slerp_phi o radius eps) (call c eps o radius).
  Proof.
    intros O. apply slerp_reads. intros i j k a b d p q H E.
    destruct (orientation_weak O H) as (_ & h & HA & HB & HD).
    assert (X : 0 < vdot h (vsub p o) /\ 0 < vdot h (vsub q o)).
    { destruct i as [|[|]], j as [|[|]], k as [|[|]]; cbn in E; try discriminate; injection E as <- <-; auto. }
    destruct X as [HP HQ]. exists (slerp_value eps (normalize (vsub p o)) (normalize (vsub q o))). split.
    - unfold slerp, dassert. destruct (dbg c) eqn:D; auto. pose proof (orientation_dbg O D) as E0.
      pose proof (sqrt_lt_R0 _ E0) as SE. destruct (norm_mul HP) as (_ & LP & _). destruct (norm_mul HQ) as (_ & LQ & _).
      rewrite LP, LQ. cbn [bind]. rewrite lt_b_true by lra. reflexivity.
    - unfold slerp_phi. rewrite E. reflexivity.
  Qed.
  Lemma orientation_sphere c eps o radius P p q r : 0 < radius -> orientation c eps o P -> P p q r ->
    on_sphere o radius (SphereFacts.arc o radius eps p q) /\ on_sphere o radius (SphereFacts.arc o radius eps q p).
  Proof.
    intros R0 O H. destruct (orientation_weak O H) as (_ & h & HP & HQ & HR).
    assert (NE : 0 < eps \/ normalize (vsub p o) <> normalize (vsub q o)).
    { destruct O as [E|E _]; auto. right. apply (outward_apart H HP HQ). }
    split.
    - apply (arc_ok R0 HP HQ NE).
    - apply (@arc_ok o radius eps q p h); auto. destruct NE; auto.
  Qed.

  Lemma vp_live m v : lvv (abs m) v = true -> vp (abs m) v <> None.
  Proof.
    unfold abs. cbn [lvv vp]. unfold d_has, look. destruct (nth_error (slots (verts m)) v) as [[[k x]|]|]; cbn; try discriminate.
  Qed.

  Open Scope nat_scope.
  (** Subdivision with spherical interpolation. *)
  Lemma slerp_frequency c eps o radius P k m : (0 < radius)%R -> orientation c eps o P -> wf m -> triangles (abs m) -> every_face P (abs m) ->
    fits c m ((4 ^ k - 1) * num_edges m) ((4 ^ k - 1) / 3 * (num_edges m / 2)) ((4 ^ k - 1) * num_faces m) ->
    exists m', (let* d := sd_new (2 ^ k) 0 in subdivision_frequency dE (call c eps o radius) c m d) = Ok m' /\
      wf m' /\ triangles (abs m') /\ every_face P (abs m') /\
      (forall v, lvv (abs m) v = true -> lvv (abs m') v = true /\ vp (abs m') v = vp (abs m) v) /\
      (forall v, lvv (abs m') v = true -> lvv (abs m) v = true \/ exists p, vp (abs m') v = Some p /\ on_sphere o radius p) /\
      num_edges m' = 4 ^ k * num_edges m /\ num_vertices m' = num_vertices m + (4 ^ k - 1) / 3 * (num_edges m / 2) /\
      num_faces m' = 4 ^ k * num_faces m.
  Proof.
    intros R0 O Wm T EF F.
    pose proof (orientation_survives R0 O) as SV.
    destruct (@frequency_ok _ _ _ (slerp_phi o radius eps) dE (call c eps o radius) P (orientation_reads radius O) SV c k m Wm T EF F)
      as (m' & E & Wm' & T' & EF' & RF & C1 & C2 & C3).
    exists m'. split; auto. split; auto. split; auto. split; auto.
    destruct (wf_abs Wm) as [_ W].
    assert (PH : forall p q r, slerp_phi o radius eps [(1, p); (1, q); (0, r)] = SphereFacts.arc o radius eps p q /\
      slerp_phi o radius eps [(0, p); (1, q); (1, r)] = SphereFacts.arc o radius eps q r /\
      slerp_phi o radius eps [(1, p); (0, q); (1, r)] = SphereFacts.arc o radius eps r p) by (intros; repeat split).
    assert (HQ : forall p q r, P p q r -> on_sphere o radius (SphereFacts.arc o radius eps p q) /\ on_sphere o radius (SphereFacts.arc o radius eps q p)).
    { intros p q r H. apply (orientation_sphere R0 O H). }
    destruct (@refined_vertices _ _ _ _ _ PH P (on_sphere o radius) SV HQ k (abs m) (abs m') W T EF (@vp_live m) RF) as [A B].
    split; auto. split; auto. split; auto. split; auto. rewrite C3. f_equal. rewrite <- Nat.pow_mul_l. auto.
  Qed.

  Lemma fits_counts c m a b d : wf m -> fits c m 0 0 0 -> num_edges m + a <= capE c -> num_vertices m + b <= capV c -> num_faces m + d <= capF c ->
    fits c m a b d.
  Proof.
    intros (OE & OV & OF & _) ((A & _) & (B & _) & (D & _)). unfold num_edges, num_vertices, num_faces.
    rewrite (len_iter OE), (len_iter OV), (len_iter OF). cbn [length]. rewrite !Nat.add_0_r. intros. repeat split; auto.
  Qed.

  Lemma sum_perm l l' : Permutation l l' -> forall z, fold_left vadd l z = fold_left vadd l' z.
  Proof.
    induction 1 as [|x l l' _ IH|x y l|l l1 l2 _ IH1 _ IH2]; intros z; cbn; auto.
    - f_equal. vec. f_equal; [f_equal|]; ring.
    - rewrite IH1. auto.
  Qed.
  Lemma positions_perm m vs pts : wf m -> exactly (lvv (abs m)) vs -> map (vp (abs m)) vs = map Some pts ->
    Permutation (map (fun x => v_pay (snd x)) (d_iter (verts m))) pts.
  Proof.
    intros (OE & OV & OF & _) XV PV.
    assert (Q : Permutation (map fst (d_iter (verts m))) vs).
    { apply NoDup_Permutation; [apply ids_nodup; auto|apply XV|]. intros x. rewrite in_iter_has by auto. split; apply XV. }
    apply (Permutation_map (vp (abs m))) in Q. rewrite PV in Q.
    assert (E : map (vp (abs m)) (map fst (d_iter (verts m))) = map Some (map (fun x => v_pay (snd x)) (d_iter (verts m)))).
    { rewrite !map_map. apply map_ext_in. intros [i x] I. cbn [fst snd].
      apply (iter_look OV) in I. unfold abs. cbn [vp]. rewrite I. reflexivity. }
    rewrite E in Q. apply (Permutation_map (fun o => match o with Some p => p | None => zero3 end)) in Q. rewrite !map_map in Q.
    rewrite map_id in Q. exact Q.
  Qed.

  Lemma about_zero x eps : (x = 0 -> 0 < eps -> about x 0 eps = true)%R.
  Proof. intros -> E. apply lt_b_true. rewrite Rminus_0_r, Rabs_R0. auto. Qed.
  Lemma centroid_zero m vs pts eps : wf m -> exactly (lvv (abs m)) vs -> map (vp (abs m)) vs = map Some pts ->
    fold_left vadd pts zero3 = zero3 -> (0 < eps)%R -> vabout (centroid m) zero3 eps = true.
  Proof.
    intros Wm XV PV S E. unfold centroid. rewrite (sum_perm (positions_perm Wm XV PV)), S. unfold vdiv, zero3, vabout.
    rewrite !about_zero; auto; unfold Rdiv; ring.
  Qed.

  (** The three geodesic spheres: the solid may have any triangles that face outwards. *)
  Lemma geodesic_ok c eps radius P k m pts polys ne : (0 < radius)%R -> orientation c eps zero3 P -> wf m -> fits c m 0 0 0 ->
    solid (abs m) dF pts polys ne -> (forall l, In l polys -> tri_poly (length pts) l) -> fold_left vadd pts zero3 = zero3 ->
    (forall i j k p q r, In [i; j; k] polys -> nth_error pts i = Some p -> nth_error pts j = Some q -> nth_error pts k = Some r -> outward zero3 p q r) ->
    4 ^ k * (2 * ne) <= capE c -> length pts + (4 ^ k - 1) / 3 * ne <= capV c -> 4 ^ k * length polys <= capF c ->
    exists m', geodesic dE c eps radius (Ok m) (2 ^ k) = Ok m' /\ wf m' /\ triangles (abs m') /\ every_face P (abs m') /\
      (forall v p, lvv (abs m') v = true -> vp (abs m') v = Some p -> In p pts \/ on_sphere zero3 radius p) /\
      (forall p, In p pts -> exists v, lvv (abs m') v = true /\ vp (abs m') v = Some p) /\
      num_edges m' = 4 ^ k * (2 * ne) /\ num_vertices m' = length pts + (4 ^ k - 1) / 3 * ne /\ num_faces m' = 4 ^ k * length polys.
  Proof.
    intros R0 O Wm F0 S TP SUM OUT CE CV CF. destruct (solid_counts Wm S) as (N1 & N2 & N3).
    assert (P4 : 1 <= 4 ^ k) by (apply Nat.neq_0_lt_0, Nat.pow_nonzero; discriminate).
    assert (H2 : num_edges m / 2 = ne) by (rewrite N2, Nat.mul_comm; apply Nat.div_mul; discriminate).
    pose proof (solid_triangles Wm S TP) as T.
    assert (EF : every_face P (abs m)).
    { apply (solid_every_face Wm S TP).
      - intros p q r. apply (orientation_rot O).
      - intros a b d p q r I A B D. destruct O as [X|X Y]; [apply outward_weakly|]; eapply OUT; eauto. }
    destruct (@slerp_frequency c eps zero3 radius P k m R0 O Wm T EF) as (m' & E & Wm' & T' & EF' & OLD & NEW & C1 & C2 & C3).
    { apply fits_counts; auto; rewrite ?H2, ?N1, ?N2, ?N3; auto; nia. }
    exists m'. split; [|split; [auto|split; [auto|split; [auto|split; [|split; [|rewrite C1, C2, C3, H2, N1, N2, N3; auto]]]]]].
    - unfold geodesic. cbn [bind]. unfold dassert. destruct (dbg c) eqn:D; auto. cbn [bind].
      destruct S as (vs & fs & es & XV & PV & _). rewrite (centroid_zero Wm XV PV SUM (orientation_dbg O D)). exact E.
    - intros v p L V. destruct (NEW v L) as [L0|(p' & V' & Q)]; [left|right; congruence].
      destruct (OLD v L0) as [_ V0]. rewrite V in V0. destruct S as (vs & fs & es & XV & PV & _). apply XV in L0.
      apply (in_map (vp (abs m))) in L0. rewrite PV, <- V0 in L0. apply in_map_iff in L0 as (p' & [= <-] & I). exact I.
    - intros p I. destruct S as (vs & fs & es & XV & PV & _). apply (in_map Some) in I. rewrite <- PV in I.
      apply in_map_iff in I as (v & V & I). apply XV in I. destruct (OLD v I) as [L V']. exists v. split; congruence.
  Qed.
End Geodesic.
