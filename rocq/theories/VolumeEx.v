(** Volumes: any triangulation, and examples. *)
From Coq Require Import List Arith ZArith Lia Bool Reals Lra Permutation.
From Verif Require Import Base DVec Mesh MeshMore Spec MeshSpec MeshFacts TopoSpec BuildSpec BuildStep TriSpec MeshProofs IsoProofs CheckProofs NetProofs MeshEx Solid.
From Verif Require Import Tess BufferSpec MinWeightSpec MinWeightProofs TriMesh TriMeshSpec TriMeshProofs TriMeshEx Sphere SphereSpec RegularMore VolumeSpec VolumeProofs VolumeMesh VolumeSolids VolumeTop SolidSpec.
Import ListNotations.
Set Implicit Arguments.
Unset Strict Implicit.
Local Arguments abs : simpl never.
Local Open Scope R_scope.

Section Any.
  Context {VP EP FP : Type}.
  Notation mesh := (mesh VP EP FP).
  Implicit Types (m : mesh).

  Lemma boundary_same m f l l' : wf m -> lvf (abs m) f = true -> boundary_vertices (abs m) f l -> boundary_vertices (abs m) f l' -> l = l'.
  Proof. intros Wm L B B'. pose proof (boundary_face_vertices Wm L B) as E. rewrite (boundary_face_vertices Wm L B') in E. injection E as ->. reflexivity. Qed.
  Lemma boundaries_same m fs ls ls' : wf m -> Forall (fun f => lvf (abs m) f = true) fs -> Forall2 (boundary_vertices (abs m)) fs ls -> Forall2 (boundary_vertices (abs m)) fs ls' -> ls = ls'.
  Proof.
    intros Wm LV F. revert ls'. induction F as [|f l fs ls B F IH]; intros ls' F'; inversion F' as [|? l' ? ? B' F'']; subst; [reflexivity|].
    inversion LV; subst. f_equal; [eapply boundary_same; eauto|apply IH; auto].
  Qed.
  Lemma boundaries m : wf m -> exists ls, Forall2 (boundary_vertices (abs m)) (face_ids m) ls.
  Proof.
    intros Wm. assert (LV : Forall (fun f => lvf (abs m) f = true) (face_ids m)) by (apply Forall_forall; intros f; apply face_ids_live; auto).
    induction LV as [|f fs L LV (ls & F)]; [exists []; constructor|]. destruct (boundary_exists Wm L) as (l & B). exists (l :: ls). constructor; auto.
  Qed.
  Lemma live_faces m : wf m -> Forall (fun f => lvf (abs m) f = true) (face_ids m).
  Proof. intros Wm. apply Forall_forall. intros f. apply face_ids_live; auto. Qed.

  (** [T] comes from some triangulation of the mesh *)
  Lemma any_run (P S W : Type) (pos2 : nat -> option (nat -> P)) planar convex_face simple (ds : P -> P -> S) le cv inside3 collinear rnd
      (addW : W -> W -> W) ltW zeroW (distance : P -> P -> W) valid_diagonal sweep delaunay m : wf m -> 
    weights addW ltW zeroW -> (forall k, sound (sweep k)) -> (forall f, sound (delaunay f)) -> forall dbg alg blank ix out, alg <> EarClipping ->
    triangulate pos2 planar convex_face simple ds le cv inside3 collinear rnd addW ltW zeroW distance valid_diagonal sweep delaunay dbg alg blank m = Ok (ix, out) ->
    exists T, ix = flatten T /\ forall pos ls, Forall2 (boundary_vertices (abs m)) (face_ids m) ls ->
      area_of pos T = vsum3 (map (fun l => area_vec (map pos l)) ls) /\
      (closed (abs m) -> area_of pos T = zero3 /\ forall o o', volume_of pos o T = volume_of pos o' T) /\
      (flat_faces (abs m) pos -> forall o, volume_of pos o T = rsum (map (fun l => cone_volume o (map pos l)) ls)).
  Proof.
    intros Wm GW GS GD dbg alg blank ix out NE E. destruct (triangulate_covers Wm GW GS GD NE E) as (T & EI & FB & _ & es & SI & _ & NT). exists T. split; auto.
    intros pos ls F. pose proof (live_faces Wm) as LV. split; [|split].
    - destruct (faces_area pos FB) as (ls' & F' & A). rewrite (boundaries_same Wm LV F F'). exact A.
    - intros C. assert (WT : watertight T) by (intros a b; rewrite NT; apply (closed_net Wm); auto). split; [apply watertight_area; auto|]. intros o o'. apply watertight_tip; auto.
    - intros FF o. destruct (faces_volume o FB LV FF) as (ls' & F' & A). rewrite (boundaries_same Wm LV F F'). exact A.
  Qed.
  Lemma solid_sizes m y pts polys ne (P : nat -> Prop) : wf m -> solid (abs m) y pts polys ne -> Forall (fun l => P (length l)) polys -> every_size (abs m) P.
  Proof.
    intros Wm (vs & fs & es & _ & _ & [_ XF] & F & _) G f n L (bl & B & <-). apply XF in L. clear XF. revert F G. generalize dependent polys.
    induction fs as [|f' fs IH]; intros polys F G; [destruct L|]. destruct polys as [|p polys]; [inversion F|]. cbn [map] in F. inversion F as [|? ? ? ? PO F']; subst. inversion G; subst.
    destruct L as [->|L]; [|eapply IH; eauto]. destruct (poly_vertices Wm PO) as (a & b & E & FV). pose proof PO as (es' & (LF & _) & _).
    rewrite (boundary_face_vertices Wm LF B) in FV. injection FV as ->. replace (length (b ++ a)) with (length p); auto.
    rewrite app_length, Nat.add_comm, <- app_length, <- E, map_length. reflexivity.
  Qed.
  Lemma flat_faces_by m pos fs : wf m -> map (fun f => face_vertices m f) (face_ids m) = map (@Ok _) fs -> Forall (fun l => flat (map pos l)) fs -> flat_faces (abs m) pos.
  Proof.
    intros Wm M F f l L B. apply (boundary_face_vertices Wm L) in B. pose proof (proj2 (face_ids_live f Wm) L) as I. rewrite Forall_forall in F. apply F.
    apply (in_map (fun f => face_vertices m f)) in I. cbv beta in I. rewrite M, B in I. apply in_map_iff in I as (l' & X & I). injection X as ->. exact I.
  Qed.
End Any.

(** a pyramid over a pentagon: the base is turned over by ear clipping *)
Definition penta_pts (v : nat) : vec3 := nth v [(4, 0, 0); (2, -3, 0); (-2, -2, 0); (-2, 2, 0); (2, 3, 0); (0, 0, -1)] zero3.
Lemma ear_volume :
  exists T out, wf ex_penta /\ closed (abs ex_penta) /\ flat_faces (abs ex_penta) penta_pts /\
    z_triangulate true EarClipping 0 ex_penta = Ok (flatten T, out) /\ area_of penta_pts T <> zero3 /\
    exists o o', volume_of penta_pts o T <> volume_of penta_pts o' T.
Proof.
  exists [(0, 3, 4); (0, 2, 3); (0, 1, 2); (5, 4, 0); (5, 3, 4); (5, 2, 3); (5, 1, 2); (1, 5, 0)]%nat, [0; 10; 20; 30; 40; 50]%nat.
  assert (Wm : wf ex_penta) by (apply wfb_ok; vm_compute; reflexivity).
  split; [auto|]. split; [apply closedb_ok; vm_compute; reflexivity|]. split; [|split; [vm_compute; reflexivity|split]].
  - apply (@flat_faces_by _ _ _ ex_penta penta_pts [[0; 4; 3; 2; 1]; [5; 4; 0]; [5; 3; 4]; [5; 2; 3]; [5; 1; 2]; [1; 5; 0]]%nat Wm); [vm_compute; reflexivity|].
    constructor; [|repeat (constructor; [apply tri_flat|]); constructor]. apply (@plane_flat (0, 0, 1) 0); [intros E; injection E; lra|].
    intros p I. repeat (destruct I as [<-|I]; [unfold penta_pts, vdot; cbn [nth]; ring|]). destruct I.
  - unfold area_of, tri_area, penta_pts. cbn. unfold zero3. intros E. injection E as E1 E2 E3. lra.
  - exists zero3, (0, 0, 1). unfold volume_of, tri_volume, penta_pts. cbn. lra.
Qed.

(** solids made of triangles can always be triangulated *)
Lemma triangles_succeed (VP EP FP P S W : Type) (m : mesh VP EP FP) y pts polys ne : wf m -> solid (abs m) y pts polys ne -> Forall (fun l => length l = 3%nat) polys ->
  forall (pos2 : nat -> option (nat -> P)) planar convex_face simple (ds : P -> P -> S) le cv inside3 collinear rnd
    (addW : W -> W -> W) ltW zeroW (distance : P -> P -> W) valid_diagonal sweep delaunay blank, exists ix out, forall dbg alg,
  triangulate pos2 planar convex_face simple ds le cv inside3 collinear rnd addW ltW zeroW distance valid_diagonal sweep delaunay dbg alg blank m = Ok (ix, out).
Proof.
  intros Wm SO L. intros. pose proof (@solid_sizes _ _ _ m y pts polys ne (fun n => n = 3%nat) Wm SO L) as ES.
  apply small_faces_succeed; [exact Wm| |].
  - intros f n LF SZ. left. exact (ES f n LF SZ).
  - intros f n LF SZ E. exfalso. pose proof (ES f n LF SZ) as X. cbv beta in X, E. lia.
Qed.
Lemma octa_all (EP FP : Type) (dE : EP) (dF : FP) c r : 0 < r -> (24 <= capE c)%nat -> (6 <= capV c)%nat -> (8 <= capF c)%nat ->
  exists m, octahedron_mesh dE dF c r = Ok m /\ wf m /\ encloses m (4 / 3 * (r * r * r)) /\
    forall (P S W : Type) (pos2 : nat -> option (nat -> P)) planar convex_face simple (ds : P -> P -> S) le cv inside3 collinear rnd
    (addW : W -> W -> W) ltW zeroW (distance : P -> P -> W) valid_diagonal sweep delaunay blank, exists ix out, forall dbg alg,
    triangulate pos2 planar convex_face simple ds le cv inside3 collinear rnd addW ltW zeroW distance valid_diagonal sweep delaunay dbg alg blank m = Ok (ix, out).
Proof.
  intros H A B D. destruct (octahedron_encloses dE dF H A B D) as (m & E & W & V). exists m. split; auto. split; auto. split; auto.
  destruct (@RegularTop.octa_top EP FP dE dF c r H A B D) as (m' & pts & E' & _ & S & _). rewrite E in E'. injection E' as <-.
  intros. eapply (triangles_succeed W S). let l := eval vm_compute in (bipyramid_polys 4) in change (bipyramid_polys 4) with l. repeat constructor.
Qed.
Lemma volume_examples :
  wf ex_penta /\ closed (abs ex_penta) /\ (exists ix out, z_triangulate true Fan 0 ex_penta = Ok (ix, out)) /\
  (3 <= length [(0, 0, 0); (1, 0, 0); (1, 1, 0); (0, 1, 0)] /\ 6 * 4 <= capE c0 /\ 2 * 4 <= capV c0 /\ 2 + 4 <= capF c0)%nat /\
  flat [(0, 0, 0); (1, 0, 0); (1, 1, 0); (0, 1, 0)] /\ area_vec [(0, 0, 0); (1, 0, 0); (1, 1, 0); (0, 1, 0)] = (0, 0, 1) /\
  ~ flat [(0, 0, 0); (1, 0, 0); (1, 1, 1); (0, 1, 0)].
Proof.
  split; [apply wfb_ok; vm_compute; reflexivity|]. split; [apply closedb_ok; vm_compute; reflexivity|].
  split; [do 2 eexists; vm_compute; reflexivity|]. split; [cbn; repeat split; repeat constructor|]. split; [|split].
  - apply (@plane_flat (0, 0, 1) 0); [intros E; injection E; lra|]. intros p I. repeat (destruct I as [<-|I]; [unfold vdot; ring|]). destruct I.
  - unfold area_vec. cbn. f_equal; [f_equal|]; field.
  - intros F. specialize (F (0, 0, 0) (1, 0, 0) (1, 1, 1) (0, 1, 0)). unfold tri_volume, det3, vsub in F.
    assert (Z : _ = 0) by (apply F; cbn; auto). lra.
Qed.
