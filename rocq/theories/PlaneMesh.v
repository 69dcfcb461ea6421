(** Faces that look down, and what they do to the triangulation of a mesh. *)
From Coq Require Import List Arith Lia Bool Reals Lra RealField Setoid Ring_theory Permutation.
From Verif Require Import Base DVec DVecFacts Mesh Spec MeshSpec MeshMore MeshFacts TopoSpec BuildSpec BuildStep Rep MeshProofs IsoProofs Cycle CheckProofs.
From Verif Require Import Tess Alg AlgSpec TriSpec AlgProofs Transform TransSpec Normals NormalsSpec NormalsProofs TriMesh TriMeshSpec TriMeshProofs Solid SolidSpec ShapeProofs RegularMore Plane PlaneSpec PlaneProofs.
Import ListNotations.
Set Implicit Arguments.
Unset Strict Implicit.
Local Arguments abs : simpl never.
Local Open Scope nat_scope.

(** a vertex at a point *)
Definition corner (nor uv : rvec) (x y z : R) : pnu R := mkP (r_new x y z) nor uv.

Section PlaneMesh.
  Context {FP : Type}.
  Notation mesh := (mesh (pnu R) (curve R) FP).
  Notation graph := (graph (pnu R) (curve R) FP).
  Implicit Types (m : mesh) (g : graph).

  (** [pos2] are the positions that [vertices_2d] gives *)
  Definition plane_pos (arc : rvec -> rvec -> option (rvec -> rvec)) planar c m (pos2 : nat -> option (nat -> R * R)) : Prop :=
    forall f vs, face_vertices m f = Ok vs -> vec2s pos2 f vs = vertices_2d arc planar c m f.

  Lemma poly_area m y f l ps : wf m -> poly (abs m) y f l -> map (vp (abs m)) l = map Some ps ->
    face_area (abs m) f (fun i => / 2 * esum 0 Rplus (cross3 Rmult Rminus i) (poly_edges (map (@u_pos R) ps)))%R /\ face_size (abs m) f (length l).
  Proof.
    intros Wm P M. pose proof P as (es & (LF & _) & _). destruct (poly_vertices Wm P) as (p & q & -> & FV).
    destruct (boundary_exists Wm LF) as (bl & B). rewrite (boundary_face_vertices Wm LF B) in FV. injection FV as ->. split.
    - exists (q ++ p). rewrite map_app in M.
      assert (X : exists ps1 ps2, ps = ps1 ++ ps2 /\ map (vp (abs m)) p = map Some ps1 /\ map (vp (abs m)) q = map Some ps2).
      { clear - M. revert ps M. generalize (map (vp (abs m)) q) as qq. induction p as [|v p IH]; intros qq ps M.
        - exists [], ps. auto.
        - destruct ps as [|x ps]; [discriminate M|]. cbn [map app] in M. pose proof (f_equal (hd None) M) as M1. pose proof (f_equal (@tl _) M) as M2. cbn [hd tl] in M1, M2.
          destruct (IH _ _ M2) as (ps1 & ps2 & -> & A & C). exists (x :: ps1), ps2. cbn [map app]. rewrite M1, A. auto. }
      destruct X as (ps1 & ps2 & -> & E1 & E2). exists (ps2 ++ ps1). split; auto. split; [rewrite !map_app, E1, E2; auto|].
      intros i _. cbv beta. f_equal. rewrite !map_app.
      apply (esum_perm' (@eq_equivalence R) (Eq_ext Rplus Rmult Ropp) RTheory), poly_edges_rot.
    - exists (q ++ p). split; auto. rewrite !app_length. lia.
  Qed.

  Lemma plane_pos_exists arc planar c m : wf m -> exists pos2, plane_pos arc planar c m pos2.
  Proof.
    intros Wm. destruct (wf_abs Wm) as [Rp W].
    exists (fun f => match unit_normal planar c m f with
      | Ok n => match arc n (r_normalize (r_new 0 0 1)) with
        | Some h => Some (fun v => match vp (abs m) v with Some p => (h (@u_pos R p) 0, h (u_pos p) 1) | None => (0%R, 0%R) end)
        | None => None end
      | _ => None end).
    intros f vs FV. unfold vec2s, vertices_2d.
    destruct (unit_normal planar c m f) as [n| |] eqn:UN; cbn [bind].
    - destruct (arc n (r_normalize (r_new 0 0 1))) as [h|]; cbn [unwrap bind]; [|reflexivity]. rewrite FV. cbn [bind].
      assert (F : Forall (fun v => lvv (abs m) v = true) vs).
      { assert (L : lvf (abs m) f = true).
        { unfold face_vertices, face_edges in FV. destruct (lvf (abs m) f) eqn:LF; auto. exfalso.
          unfold abs in LF. cbn [lvf] in LF. unfold m_face in FV. rewrite get_look in FV. rewrite has_look_b in LF.
          destruct (look (faces m) f); [discriminate LF|]. discriminate FV. }
        destruct (boundary_exists Wm L) as (bl & B). rewrite (boundary_face_vertices Wm L B) in FV. injection FV as <-. eapply boundary_live; eauto. }
      match goal with |- _ = mapM ?f vs => set (G := f) end. clear FV.
      induction F as [|v vs LV F IH]; [reflexivity|]. cbn [mapM map]. rewrite <- IH. unfold G.
      destruct (r_vertex_live Rp _ LV) as (x & X & _ & P). rewrite X, P. reflexivity.
    - reflexivity.
    - exfalso. unfold unit_normal in UN. destruct (negb (dbg c) || planar f); [|discriminate UN]. cbn [assert] in UN.
      unfold face_normal, face_points in UN. rewrite FV in UN. cbn [bind] in UN.
      match goal with H : context [mapM ?f vs] |- _ => assert (D : mapM f vs <> Diverge) end.
      { clear. induction vs as [|v vs IH]; [discriminate|]. cbn [mapM]. unfold m_vertex. rewrite get_look. destruct (look (verts m) v); cbn; [|discriminate].
        intros E. destruct (mapM _ vs) eqn:Q; try discriminate E. tauto. }
      destruct (mapM _ vs); [discriminate UN|discriminate UN|tauto].
  Qed.
  Lemma pos_none arc planar c m pos2 f : wf m -> lvf (abs m) f = true -> plane_pos arc planar c m pos2 -> vertices_2d arc planar c m f = Panic -> pos2 f = None.
  Proof.
    intros Wm L P V. destruct (boundary_exists Wm L) as (vs & B). pose proof (P f vs (boundary_face_vertices Wm L B)) as E. rewrite V in E.
    unfold vec2s in E. destruct (pos2 f); [discriminate E|auto].
  Qed.
  Lemma pos_some arc planar c m pos2 f out : wf m -> lvf (abs m) f = true -> plane_pos arc planar c m pos2 -> vertices_2d arc planar c m f = Ok out -> pos2 f <> None.
  Proof.
    intros Wm L P V X. destruct (boundary_exists Wm L) as (vs & B). pose proof (P f vs (boundary_face_vertices Wm L B)) as E. rewrite V in E.
    unfold vec2s in E. rewrite X in E. discriminate E.
  Qed.

  Lemma downward (S W : Type) eps planar cc c m pos2 convex_face simple (ds : R * R -> R * R -> S) le cv inside3 collinear rnd
      (addW : W -> W -> W) ltW zeroW distance valid_diagonal sweep delaunay f a n :
    (0 <= eps)%R -> wf m -> lvf (abs m) f = true -> face_size (abs m) f n -> 4 <= n <= 6 -> face_area (abs m) f a -> looks_down eps a ->
    plane_pos (arc_nalgebra eps) planar cc m pos2 ->
    forall dbg alg blank r, triangulate pos2 c convex_face simple ds le cv inside3 collinear rnd addW ltW zeroW distance valid_diagonal sweep delaunay dbg alg blank m <> Ok r.
  Proof.
    intros E0 Wm L SZ N A D P dbg alg blank r. eapply unplaced; eauto. eapply pos_none; eauto. eapply down_panics; eauto.
  Qed.
  Lemma nalgebra_placed eps planar c m pos2 : (0 <= eps)%R -> wf m -> plane_pos (arc_nalgebra eps) planar c m pos2 ->
    (forall f n a, lvf (abs m) f = true -> face_size (abs m) f n -> 4 <= n <= 6 -> face_area (abs m) f a -> (dbg c = true -> planar f = true) /\ ~ looks_down eps a) ->
    placed pos2 (abs m) (fun n => 4 <= n <= 6).
  Proof.
    intros E0 Wm P H f n L SZ N. destruct (fnormal_area Wm L) as (a & _ & A). destruct (H f n a L SZ N A) as [PL ND].
    destruct (panic_iff planar c E0 Wm L A) as [(_ & [[X Y]|X])|[(out & V) _]]; [rewrite PL in Y by auto; discriminate|tauto|].
    eapply pos_some; eauto.
  Qed.
  Lemma bevy_placed eps planar c m pos2 : wf m -> plane_pos (arc_bevy eps) planar c m pos2 ->
    (forall f n, lvf (abs m) f = true -> face_size (abs m) f n -> 4 <= n <= 6 -> dbg c = true -> planar f = true) ->
    placed pos2 (abs m) (fun n => 4 <= n <= 6).
  Proof.
    intros Wm P H f n L SZ N. destruct (fnormal_area Wm L) as (a & E & A).
    assert (U : exists u, unit_normal planar c m f = Ok u).
    { unfold unit_normal. rewrite E. specialize (H f n L SZ N). destruct (dbg c); [rewrite H by auto|]; cbn; eauto. }
    destruct U as (u & U). pose proof (v2d_run (arc_bevy eps) Wm L U) as V. cbn [arc_bevy] in V. destruct V as (out & V & _). eapply pos_some; eauto.
  Qed.

  (** the bottom of a cuboid *)
  Lemma cuboid_bottom (dE : curve R) (dF : FP) c x y z nor uv : (0 < x)%R -> (0 < y)%R -> (0 < z)%R -> 24 <= capE c -> 8 <= capV c -> 6 <= capF c ->
    let p := corner nor uv in
    exists m, cuboid dE dF c (p (- x) (- y) (- z))%R (p x (- y) (- z))%R (p x y (- z))%R (p (- x) y (- z))%R
        (p (- x) (- y) z)%R (p x (- y) z)%R (p x y z) (p (- x) y z)%R = Ok m /\
      wf m /\ exists f a, lvf (abs m) f = true /\ face_size (abs m) f 4 /\ face_area (abs m) f a /\ a 0 = 0%R /\ a 1 = 0%R /\ a 2 = (- (4 * x * y))%R.
  Proof.
    intros X Y Z A B D p.
    destruct (@cuboid_solid _ _ _ dE dF c (p (- x) (- y) (- z))%R (p x (- y) (- z))%R (p x y (- z))%R (p (- x) y (- z))%R (p (- x) (- y) z)%R (p x (- y) z)%R (p x y z) (p (- x) y z)%R A B D) as (m & E & Wm & S).
    exists m. split; [exact E|]. split; auto. destruct S as (vs & fs & es & _ & PV & _ & F & _).
    do 8 (destruct vs as [|? vs]; [discriminate PV|]). cbn [map nth] in *. inversion F as [|f l fs' ls P F']; subst. exists f.
    assert (M : map (vp (abs m)) [n; n2; n1; n0] = map Some [p (- x) (- y) (- z); p (- x) y (- z); p x y (- z); p x (- y) (- z)]%R%list).
    { cbn [map]. pose proof (f_equal (fun l => nth 0 l None) PV) as Q0. pose proof (f_equal (fun l => nth 1 l None) PV) as Q1.
      pose proof (f_equal (fun l => nth 2 l None) PV) as Q2. pose proof (f_equal (fun l => nth 3 l None) PV) as Q3. cbn [nth] in *. rewrite Q0, Q1, Q2, Q3. reflexivity. }
    destruct (poly_area Wm P M) as [AR SZ]. destruct P as (? & (LF & _) & _). eexists. split; [exact LF|]. split; [exact SZ|]. split; [exact AR|].
    cbn. unfold cross3. cbn. repeat split; field.
  Qed.
End PlaneMesh.
