(** Areas and volumes of triangulated meshes and solids. *)
From Coq Require Import List Arith ZArith Lia Bool Reals Lra RealField Setoid Ring_theory Permutation.
From Verif Require Import Base DVec Mesh MeshMore Spec MeshSpec MeshFacts TopoSpec BuildSpec TriSpec TriFacts AlgSpec AlgProofs MeshProofs IsoProofs CheckProofs NetProofs  NetProofs .
From Verif Require Import Sphere SphereSpec SolidSpec RegularSpec RegularMore TriMeshSpec TriMeshProofs VolumeSpec VolumeProofs.
Import ListNotations.
Set Implicit Arguments.
Unset Strict Implicit.
Local Arguments abs : simpl never.
Local Open Scope R_scope.

Lemma vsum3_app l l' : vsum3 (l ++ l') = vadd (vsum3 l) (vsum3 l').
Proof. apply vdot_all. intros u. rewrite vdot_add, !vdot_sum, map_app. apply rsum_app. Qed.
Lemma rsum_perm l l' : Permutation l l' -> rsum l = rsum l'.
Proof. induction 1; cbn [rsum fold_right] in *; unfold rsum in *; cbn; try lra. Qed.
Lemma area_rot p q : area_vec (p ++ q) = area_vec (q ++ p).
Proof. apply vdot_all. intros u. rewrite !vdot_area_vec. f_equal. apply (esum_perm' RE RX RT), poly_edges_rot. Qed.
Lemma area_rev l : area_vec (rev l) = vmul (area_vec l) (- 1).
Proof.
  apply vdot_all. intros u. rewrite vdot_mul, !vdot_area_vec, (esum_perm' RE RX RT (det3 u) (poly_edges_rev l)), (esum_flip RE RX RT (det3_anti u)). ring.
Qed.

Section Faces.
  Context {VP EP FP : Type}.
  Notation graph := (graph VP EP FP).
  Implicit Types (g : graph).
  Variable pos : nat -> vec3.
  Lemma faces_area g fs T : face_by_face g (fun _ => false) fs T ->
    exists ls, Forall2 (boundary_vertices g) fs ls /\ area_of pos T = vsum3 (map (fun l => area_vec (map pos l)) ls).
  Proof.
    intros (Ts & -> & F). induction F as [|f t fs Ts (l & B & H) F (ls & FL & A)].
    - exists []. split; [constructor|reflexivity].
    - exists (l :: ls). split; [constructor; auto|]. cbn [concat map vsum3 fold_right].
      rewrite <- (polygon_area pos H). unfold area_of in *. rewrite map_app, vsum3_app, A. reflexivity.
  Qed.
  Lemma faces_volume g fs T o : face_by_face g (fun _ => false) fs T -> Forall (fun f => lvf g f = true) fs -> flat_faces g pos ->
    exists ls, Forall2 (boundary_vertices g) fs ls /\ volume_of pos o T = rsum (map (fun l => cone_volume o (map pos l)) ls).
  Proof.
    intros (Ts & -> & F) LV FF. induction F as [|f t fs Ts (l & B & H) F IH].
    - exists []. split; [constructor|reflexivity].
    - inversion LV as [|? ? L LV']; subst. destruct (IH LV') as (ls & FL & A). exists (l :: ls). split; [constructor; auto|].
      cbn [concat]. rewrite volume_app, A, (polygon_cone o H (FF _ _ L B)). reflexivity.
  Qed.
End Faces.

(** ** cones over flat polygons *)
Lemma poly_edges_in (A : Type) (l : list A) x y : In (x, y) (poly_edges l) -> In x l /\ In y l.
Proof.
  destruct l as [|a r]; [intros []|]. cbn [poly_edges]. intros I. split; [eapply in_combine_l; eauto|].
  apply in_combine_r in I. apply in_app_or in I as [I|[<-|[]]]; [right; auto|left; auto].
Qed.
Lemma esum_in (A : Type) (w w' : A -> A -> R) es : (forall x y, In (x, y) es -> w x y = w' x y) -> esum 0 Rplus w es = esum 0 Rplus w' es.
Proof.
  induction es as [|[x y] es IH]; intros H; [reflexivity|]. cbn [esum]. rewrite (H x y (or_introl eq_refl)), IH; [reflexivity|]. intros; apply H; right; auto.
Qed.
Lemma flat_any ps p q : flat ps -> In p ps -> In q ps -> vdot p (area_vec ps) = vdot q (area_vec ps).
Proof.
  intros F P Q. enough (H : vdot (vsub p q) (area_vec ps) = 0) by (rewrite vdot_sub_l in H; lra).
  rewrite vdot_area_vec, (@esum_in _ (det3 (vsub p q)) (fun a b => det3 (vsub p q) q b - det3 (vsub p q) q a)).
  - rewrite (esum_tele RE RX RT (det3 (vsub p q) q)). ring.
  - intros a b I. destruct (poly_edges_in I) as [A B].
    assert (Z : det3 (vsub p q) (vsub a q) (vsub b q) = 0) by (pose proof (F q p a b Q P A B) as Z; unfold tri_volume in Z; lra).
    revert Z. clear. intros Z. vec3s. lra.
Qed.
Lemma cone_rot o p q : flat (p ++ q) -> cone_volume o (p ++ q) = cone_volume o (q ++ p).
Proof.
  intros F. unfold cone_volume. rewrite (area_rot q p), !vdot_sub_l. destruct p as [|x p]; [rewrite app_nil_r; reflexivity|]. destruct q as [|y q]; [rewrite app_nil_r; reflexivity|].
  assert (E : vdot x (area_vec ((x :: p) ++ y :: q)) = vdot y (area_vec ((x :: p) ++ y :: q))) by (apply flat_any; [exact F|left; auto|apply in_or_app; right; left; auto]).
  cbn [app hd] in *. rewrite E. ring.
Qed.

Section Solids.
  Context {EP FP : Type}.
  Notation mesh := (mesh vec3 EP FP).
  Implicit Types (m : mesh).

  Lemma nth_points m vs pts i pos : map (vp (abs m)) vs = map Some pts -> (forall v p, vp (abs m) v = Some p -> pos v = p) -> (i < length pts)%nat ->
    pos (nth i vs 0%nat) = pt pts i.
  Proof.
    intros M A I. assert (L : length vs = length pts) by (rewrite <- (map_length (vp (abs m)) vs), M, map_length; auto). apply A.
    pose proof (f_equal (fun l => nth i l None) M) as E. cbv beta in E.
    rewrite (nth_indep _ None (vp (abs m) 0%nat)), map_nth in E by (rewrite map_length; lia). rewrite E.
    rewrite (nth_indep _ None (Some zero3)), map_nth by (rewrite map_length; lia). reflexivity.
  Qed.
  Lemma solid_faces m y pts polys ne pos : wf m -> solid (abs m) y pts polys ne -> (forall v p, vp (abs m) v = Some p -> pos v = p) ->
    Forall (Forall (fun i => (i < length pts)%nat)) polys -> Forall (fun l => flat (map (pt pts) l)) polys ->
    flat_faces (abs m) pos /\ closed (abs m) /\
    exists fs, Permutation fs (face_ids m) /\ Forall2 (fun f l => forall bl o, boundary_vertices (abs m) f bl -> cone_volume o (map pos bl) = cone_volume o (map (pt pts) l)) fs polys.
  Proof.
    intros Wm (vs & fs & es & _ & MP & [NF XF] & F & _ & _ & CL) A RG FL.
    assert (K : forall f l, Forall (fun i => (i < length pts)%nat) l -> flat (map (pt pts) l) -> poly (abs m) y f (map (fun i => nth i vs 0%nat) l) ->
      forall bl, boundary_vertices (abs m) f bl -> flat (map pos bl) /\ forall o, cone_volume o (map pos bl) = cone_volume o (map (pt pts) l)).
    { intros f l R FT P bl B. destruct (poly_vertices Wm P) as (p & q & E & FV). pose proof P as (es' & (LF & _) & _).
      rewrite (boundary_face_vertices Wm LF B) in FV. injection FV as ->.
      assert (EL : map (pt pts) l = map pos p ++ map pos q).
      { rewrite <- map_app, <- E, map_map. apply map_ext_in. intros i I. symmetry. rewrite Forall_forall in R. eapply nth_points; eauto. }
      rewrite EL in *. rewrite map_app. split.
      - assert (SW : forall x, In x (map pos q ++ map pos p) -> In x (map pos p ++ map pos q)) by (intros x; rewrite !in_app_iff; tauto).
        intros a b c d Ia Ib Ic Id. apply FT; auto.
      - intros o. symmetry. apply cone_rot. auto. }
    assert (PF : Permutation fs (face_ids m)).
    { apply NoDup_Permutation; auto; [apply face_ids_nodup; auto|]. intros f. rewrite <- XF. split; intros H; apply face_ids_live; auto. }
    split; [|split; [exact CL|exists fs; split; auto]].
    - intros f l L B. apply XF in L. clear PF XF NF. revert F RG FL. generalize dependent polys. induction fs as [|f' fs IH]; intros polys F RG FL; [destruct L|].
      destruct polys as [|p polys]; [inversion F|]. cbn [map] in F. inversion F; subst. inversion RG; subst. inversion FL; subst.
      destruct L as [->|L]; [eapply (K f p); eauto|eapply IH; eauto].
    - clear PF XF NF. revert F RG FL. generalize dependent polys. induction fs as [|f' fs IH]; intros polys F RG FL; destruct polys as [|p polys]; cbn [map] in F; try (inversion F; fail); [constructor|].
      inversion F; subst. inversion RG; subst. inversion FL; subst. constructor; [|eapply IH; eauto]. intros bl o B. eapply (K f' p); eauto.
  Qed.
  Lemma solid_volume_ok m y pts polys ne pos T : wf m -> solid (abs m) y pts polys ne -> (forall v p, vp (abs m) v = Some p -> pos v = p) ->
    Forall (Forall (fun i => (i < length pts)%nat)) polys -> Forall (fun l => flat (map (pt pts) l)) polys ->
    face_by_face (abs m) (fun _ => false) (face_ids m) T -> volume_of pos zero3 T = solid_volume (map (map (pt pts)) polys).
  Proof.
    intros Wm S A RG FL FB. destruct (solid_faces Wm S A RG FL) as (FF & CL & fs & P & F).
    destruct (@faces_volume _ _ _ pos (abs m) (face_ids m) T zero3) as (ls & B & ->); auto.
    { apply Forall_forall. intros f. apply face_ids_live; auto. }
    set (G := fun f => match face_vertices m f with Ok l => cone_volume zero3 (map pos l) | _ => 0 end).
    assert (LV : forall f, In f (face_ids m) -> lvf (abs m) f = true) by (intros f; apply face_ids_live; auto).
    assert (GB : forall f l, lvf (abs m) f = true -> boundary_vertices (abs m) f l -> G f = cone_volume zero3 (map pos l)).
    { intros f l L X. unfold G. rewrite (boundary_face_vertices Wm L X). reflexivity. }
    transitivity (rsum (map G (face_ids m))).
    - clear - B LV GB. f_equal. induction B as [|f l fs ls X B IH]; [reflexivity|]. cbn [map]. rewrite (GB f l), IH; auto.
      + intros f' I. apply LV. right; auto.
      + apply LV. left; auto.
    - rewrite <- (rsum_perm (Permutation_map G P)). unfold solid_volume. f_equal. rewrite map_map.
      assert (LV' : forall f, In f fs -> lvf (abs m) f = true) by (intros f I; apply LV; eapply Permutation_in; eauto).
      clear - F LV' GB Wm. induction F as [|f l fs ps X F IH]; [reflexivity|]. cbn [map]. rewrite IH by (intros f' I; apply LV'; right; auto). f_equal.
      destruct (boundary_exists Wm (LV' f (or_introl eq_refl))) as (bl & B). rewrite (GB f bl), (X bl zero3); auto. apply LV'. left; auto.
  Qed.
End Solids.
