(** Concrete cases for the geodesic spheres. *)
From Coq Require Import List Arith Lia Reals Lra.
From Verif Require Import Base DVec Mesh Spec MeshSpec MeshMore MeshEx Solid SolidSpec ShapeProofs CountProofs SolidTri
  Subdivision SubdivSpec SubdivFacts Interpolate Sphere SphereSpec SphereFacts GeodesicProofs PlatonicProofs.
Import ListNotations.
Set Implicit Arguments.
Unset Strict Implicit.
Local Arguments abs : simpl never.

Lemma geodesic_panics (EP FP : Type) (dE : EP) (c : cfg) (eps radius : R) (m : mesh vec3 EP FP) n :
  (forall k, n <> 2 ^ k) -> geodesic dE c eps radius (Ok m) n = Panic.
Proof.
  intros H. unfold geodesic. cbn [bind].
  rewrite (@frequency_panics vec3 EP FP dE) by (intros k [-> _]; apply (H k); auto).
  unfold dassert. destruct (dbg c); auto. cbn [bind]. destruct (vabout _ _ _); auto.
Qed.

Lemma sphere_example : (0 < 2)%R /\ orientation c0 (/ 1000) zero3 (weakly_outward zero3) /\
  orientation (mkCfg 255 255 255 false) 0 zero3 (outward zero3) /\
  60 * 4 ^ 1 <= capE c0 /\ 2 + 10 * 4 ^ 1 <= capV c0 /\ 20 * 4 ^ 1 <= capF c0 /\ (forall k, 6 <> 2 ^ k).
Proof.
  split; [lra|]. split; [apply rounded; lra|]. split; [apply exact; auto|].
  do 3 (split; [apply Nat.leb_le; vm_compute; reflexivity|]).
  intros k E. assert (H : Nat.land 6 (6 - 1) = 0) by (apply pow_land; [repeat constructor|eauto]). discriminate H.
Qed.

Lemma slerp_example : exists (o : vec3) (m : mesh vec3 nat nat), (o <> zero3) /\
  wf m /\ triangles (abs m) /\ every_face (outward o) (abs m) /\ every_face (weakly_outward o) (abs m) /\
  num_edges m = 12 /\ num_vertices m = 4 /\ num_faces m = 4 /\
  fits c0 m ((4 ^ 2 - 1) * 12) ((4 ^ 2 - 1) / 3 * (12 / 2)) ((4 ^ 2 - 1) * 4).
Proof.
  destruct (@pyramid_solid_fits vec3 nat nat 0 0 c0 [(-1, 0, -1); (0, -1, 1); (1, 0, -1)]%R (0, 1, 1)%R) as (m & E & Wm & S & F);
    [apply Nat.leb_le; vm_compute; reflexivity..|]. cbn [length] in S.
  exists (0, 0, / 4)%R, m.
  assert (TP : forall l, In l (pyramid_polys 3) -> tri_poly 4 l) by (apply tri_polyb_ok; reflexivity).
  assert (OUT : every_face (outward (0, 0, / 4)%R) (abs m)).
  { apply (solid_every_face Wm S TP); [intros p q r; apply outward_rot|].
    intros i j k p q r I. let l := eval vm_compute in (pyramid_polys 3) in change (pyramid_polys 3) with l in I.
    each I; injection I as <- <- <-; intros A B C; cbn [app] in A, B, C; points; unfold outward; unfold det3, vsub; lra. }
  destruct (solid_counts Wm S) as (N1 & N2 & N3).
  split; [intros [= X]; lra|]. split; [auto|]. split; [apply (solid_triangles Wm S TP)|]. split; [auto|].
  split; [intros h p q r L A B C; apply outward_weakly; eapply OUT; eauto|].
  rewrite N1, N2, N3. do 3 (split; [reflexivity|]).
  apply fits_counts; auto; rewrite ?N1, ?N2, ?N3; apply Nat.leb_le; vm_compute; reflexivity.
Qed.
