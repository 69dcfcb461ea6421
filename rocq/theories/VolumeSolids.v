(** Volumes of pyramids, frusta, prisms and other solids. *)
From Coq Require Import List Arith ZArith Lia Bool Reals Lra RealField Setoid Ring_theory Permutation.
From Verif Require Import Base DVec Mesh MeshMore Spec MeshSpec TopoSpec BuildSpec TriSpec AlgSpec AlgProofs.
From Verif Require Import Sphere SphereSpec PartProofs ShapeProofs SphereProofs Solid RegularSpec TriMesh TriMeshSpec TriMeshProofs VolumeSpec VolumeProofs VolumeMesh SolidSpec.
Import ListNotations.
Set Implicit Arguments.
Unset Strict Implicit.
Local Arguments abs : simpl never.
Local Open Scope R_scope.

Lemma poly_edges_cyc (A : Type) (l : list A) : poly_edges l = cyc l.
Proof. destruct l; reflexivity. Qed.
Lemma turn_area l : area_vec (turn l) = vmul (area_vec l) (- 1).
Proof.
  destruct l as [|a t].
  - unfold area_vec. cbn. unfold zero3. cbn. f_equal; [f_equal|]; ring.
  - rewrite <- area_rev. cbn [rev turn]. change (a :: rev t) with ([a] ++ rev t). apply area_rot.
Qed.
Lemma hd_turn (A : Type) (d : A) l : hd d (turn l) = hd d l.
Proof. destruct l; reflexivity. Qed.
Lemma solid_app ps qs : solid_volume (ps ++ qs) = solid_volume ps + solid_volume qs.
Proof. unfold solid_volume. rewrite map_app. apply rsum_app. Qed.
Lemma solid_cons p qs : solid_volume (p :: qs) = cone_volume zero3 p + solid_volume qs.
Proof. reflexivity. Qed.
Lemma solid_edges (es : list (vec3 * vec3)) (F : vec3 * vec3 -> list vec3) k u :
  (forall p q, In (p, q) es -> cone_volume zero3 (F (p, q)) = k * det3 u p q) -> solid_volume (map F es) = k * esum 0 Rplus (det3 u) es.
Proof.
  unfold solid_volume. induction es as [|[p q] es IH]; intros H; cbn [map rsum fold_right esum]; [ring|].
  rewrite (H p q (or_introl eq_refl)). unfold rsum in IH. rewrite IH; [ring|]. intros; apply H; right; auto.
Qed.
Lemma cone_tri p q a : cone_volume zero3 [p; q; a] = det3 p q a / 6.
Proof. unfold cone_volume, area_vec. cbn [poly_edges combine app map vsum3 fold_right fst snd hd]. vec3s. field. Qed.
Lemma fan_volume ps a : solid_volume (fans ps a) = / 3 * vdot a (area_vec ps).
Proof.
  unfold fans. rewrite (@solid_edges _ _ (/ 6) a).
  - rewrite vdot_area_vec, poly_edges_cyc. field.
  - intros p q _. cbn [fst snd]. rewrite cone_tri. vec3s. field.
Qed.
Lemma cone_hd p ps : cone_volume zero3 (p :: ps) = / 3 * vdot p (area_vec (p :: ps)).
Proof. unfold cone_volume. cbn [hd]. rewrite vdot_sub_l. f_equal. replace (vdot zero3 (area_vec (p :: ps))) with 0; [ring|]. generalize (area_vec (p :: ps)). intros. vec3s. ring. Qed.
Lemma cone_any ps : ps <> [] -> cone_volume zero3 ps = / 3 * vdot (hd zero3 ps) (area_vec ps).
Proof. destruct ps; [tauto|]. intros _. apply cone_hd. Qed.
Lemma turn_nil (A : Type) (l : list A) : l <> [] -> turn l <> [].
Proof. destruct l; [tauto|discriminate]. Qed.

Lemma pyramid_formula ps a : ps <> [] -> solid_volume (turn ps :: fans ps a) = / 3 * vdot (vsub a (hd zero3 ps)) (area_vec ps).
Proof.
  intros N. rewrite solid_cons, fan_volume, cone_any, hd_turn, turn_area, vdot_mul, vdot_sub_l by (apply turn_nil; auto). ring.
Qed.
Lemma bipyramid_formula ps a b : solid_volume (fans ps a ++ fans (turn ps) b) = / 3 * vdot (vsub a b) (area_vec ps).
Proof. rewrite solid_app, !fan_volume, turn_area, vdot_mul, vdot_sub_l. ring. Qed.

(** a scaled and moved copy *)
Definition copy (h : vec3) (s : R) (p : vec3) : vec3 := vadd h (vmul p s).
Lemma copy_area h s ps : area_vec (map (copy h s) ps) = vmul (area_vec ps) (s * s).
Proof.
  apply vdot_all. intros u. rewrite vdot_mul, !vdot_area_vec, poly_edges_map, esum_map.
  rewrite (@esum_in _ _ ( fun x y => s * s * det3 u x y + (s * det3 u h y - s * det3 u h x))).
  - rewrite (esum_add RE RX RT (fun x y => s * s * det3 u x y)), (esum_scale RE RX RT (s * s) (det3 u)), (esum_tele RE RX RT (fun x => s * det3 u h x)). ring.
  - intros x y _. unfold copy. vec3s. ring.
Qed.
Lemma quads_copy h s ps : quads ps (map (copy h s) ps) = map (fun e => [fst e; snd e; copy h s (snd e); copy h s (fst e)]) (cyc ps).
Proof.
  unfold quads. rewrite cyc_map. induction (cyc ps) as [|e l IH]; [reflexivity|]. cbn [combine map fst snd]. rewrite IH. reflexivity.
Qed.
Lemma band_volume h s ps : solid_volume (quads ps (map (copy h s) ps)) = (1 + s) / 3 * vdot h (area_vec ps).
Proof.
  rewrite quads_copy, (@solid_edges _ _ ((1 + s) / 6) h).
  - rewrite vdot_area_vec, poly_edges_cyc. field.
  - intros p q _. cbn [fst snd]. unfold cone_volume, area_vec, copy. cbn [poly_edges combine app map vsum3 fold_right fst snd hd]. vec3s. field.
Qed.
Lemma frustum_formula h s ps : ps <> [] -> let qs := map (copy h s) ps in
  solid_volume (turn ps :: quads ps qs ++ [qs]) = / 3 * ((1 + s + s * s) * vdot h (area_vec ps) + (s * s * s - 1) * vdot (hd zero3 ps) (area_vec ps)).
Proof.
  intros N qs. rewrite solid_cons, solid_app. unfold qs at 1. rewrite band_volume, (cone_any (turn_nil N)), hd_turn, turn_area, vdot_mul.
  unfold solid_volume. cbn [map rsum fold_right]. rewrite cone_any by (unfold qs; destruct ps; [tauto|discriminate]). unfold qs. rewrite copy_area, vdot_mul.
  assert (E : vdot (hd zero3 (map (copy h s) ps)) (area_vec ps) = vdot h (area_vec ps) + s * vdot (hd zero3 ps) (area_vec ps)).
  { destruct ps as [|p ps]; [tauto|]. cbn [map hd]. generalize (area_vec (p :: ps)). intros. unfold copy. vec3s. ring. }
  rewrite E. field.
Qed.

(** ** from meshes to formulas *)
Section Top.
  Context {EP FP : Type}.
  Notation mesh := (mesh vec3 EP FP).
  Lemma solid_encloses (m : mesh) y pts polys ne : wf m -> solid (abs m) y pts polys ne ->
    Forall (Forall (fun i => (i < length pts)%nat)) polys -> Forall (fun l => flat (map (pt pts) l)) polys ->
    encloses m (solid_volume (map (map (pt pts)) polys)).
  Proof.
    intros Wm S RG FL. unfold encloses. intros until out. intros GW GS GD NE E.
    assert (CL : closed (abs m)) by (destruct S as (? & ? & ? & _ & _ & _ & _ & _ & _ & CL); exact CL).
    destruct (triangulate_covers Wm GW GS GD NE E) as (T & EI & FB & _ & es & SI & _ & NT). exists T. split; auto.
    assert (WT : watertight T) by (intros a b; rewrite NT; apply (closed_net Wm); auto). split; auto.
    intros pos o A. rewrite (watertight_tip pos o zero3 WT). eapply solid_volume_ok; eauto.
  Qed.
End Top.

Lemma facet_flat pts l : facet pts l -> (3 <= length l)%nat -> NoDup l -> flat (map (pt pts) l).
Proof.
  intros (v & c & P & _ & D) L N. apply (@plane_flat v c).
  - intros ->. destruct l as [|i [|j [|k l]]]; cbn [length] in L; try lia.
    assert (H : 0 < det3 zero3 (vsub (pt pts j) (pt pts i)) (vsub (pt pts k) (pt pts i))).
    { apply (D i j k); [left; reflexivity|right; right; left; auto| |]; intros ->; inversion N as [|? ? N1 N2]; subst; [apply N1; right; left; auto|].
      inversion N2 as [|? ? N3 _]; subst. apply N3. left; auto. }
    revert H. generalize (vsub (pt pts j) (pt pts i)) (vsub (pt pts k) (pt pts i)). intros. vec3s. lra.
  - intros p I. apply in_map_iff in I as (i & <- & I). auto.
Qed.

Section Shapes.
  Context {EP FP : Type}.
  Notation mesh := (mesh vec3 EP FP).
  Implicit Types (c : cfg) (m : mesh).
  Variable (dE : EP) (dF : FP).
  Lemma map_pt_first ps qs : map (pt (ps ++ qs)) (seq 0 (length ps)) = ps.
  Proof. apply (nth_seq_app zero3). Qed.
  Lemma map_pt_second ps qs : length qs = length ps -> map (pt (ps ++ qs)) (seq (length ps) (length ps)) = qs.
  Proof. intros L. rewrite <- (app_nil_r qs) at 1. apply (@nth_seq_mid _ zero3 ps qs []); auto. Qed.
  Lemma flat_sub ps qs : flat ps -> (forall x, In x qs -> In x ps) -> flat qs.
  Proof. intros F S a b c d A B C D. apply F; auto. Qed.
  Lemma in_turn (A : Type) (l : list A) x : In x (turn l) -> In x l.
  Proof. destruct l as [|a t]; auto. cbn [turn]. intros [->|I]; [left; auto|right; apply in_rev; auto]. Qed.
  Lemma cyc_in (A : Type) (l : list A) x y : In (x, y) (cyc l) -> In x l /\ In y l.
  Proof. rewrite <- poly_edges_cyc. apply poly_edges_in. Qed.
  Lemma fans_range us v k : Forall (fun i => (i < k)%nat) us -> (v < k)%nat -> Forall (Forall (fun i => (i < k)%nat)) (fans us v).
  Proof.
    intros U V. unfold fans. apply Forall_forall. intros l I. apply in_map_iff in I as ([x y] & <- & I). apply cyc_in in I as [X Y]. rewrite Forall_forall in U.
    cbn [fst snd]. repeat constructor; auto.
  Qed.
  Lemma fans_flat pts us v : Forall (fun l => flat (map (pt pts) l)) (fans us v).
  Proof. apply Forall_forall. intros l I. apply in_map_iff in I as ([x y] & <- & I). cbn [fst snd map]. apply tri_flat. Qed.
  Lemma seq_range o n k : (o + n <= k)%nat -> Forall (fun i => (i < k)%nat) (seq o n).
  Proof. intros H. apply Forall_forall. intros i I. apply in_seq in I. lia. Qed.
  Lemma turn_range l k : Forall (fun i => (i < k)%nat) l -> Forall (fun i => (i < k)%nat) (turn l).
  Proof. intros H. rewrite Forall_forall in *. intros i I. apply H, in_turn, I. Qed.

  Lemma any_pyramid c ps a : let n := length ps in (3 <= n)%nat -> flat ps -> (4 * n <= capE c)%nat -> (S n <= capV c)%nat -> (S n <= capF c)%nat ->
    exists m, pyramid dE dF c ps a = Ok m /\ wf m /\ encloses m (/ 3 * vdot (vsub a (hd zero3 ps)) (area_vec ps)).
  Proof.
    intros n N F A B D. destruct (@pyramid_solid _ _ _ dE dF c ps a N A B D) as (m & E & W & S). exists m. split; auto. split; auto.
    rewrite <- pyramid_formula by (intros ->; cbn in *; lia).
    assert (M : map (map (pt (ps ++ [a]))) (pyramid_polys n) = turn ps :: fans ps a).
    { unfold pyramid_polys. cbn [map]. rewrite <- turn_map, <- fans_map. unfold n. rewrite map_pt_first. f_equal. f_equal.
      unfold pt. rewrite app_nth2 by auto. rewrite Nat.sub_diag. reflexivity. }
    rewrite <- M. apply (solid_encloses W S).
    - rewrite app_length. cbn [length]. unfold pyramid_polys. constructor; [apply turn_range, seq_range; unfold n; lia|apply fans_range; [apply seq_range|]; fold n; lia].
    - unfold pyramid_polys. constructor; [|apply fans_flat]. rewrite <- turn_map. unfold n. rewrite map_pt_first. apply (flat_sub F). apply in_turn.
  Qed.
  Lemma any_bipyramid c ps a b : let n := length ps in (3 <= n)%nat -> (6 * n <= capE c)%nat -> (2 + n <= capV c)%nat -> (2 * n <= capF c)%nat -> (S n <= capF c)%nat ->
    exists m, bipyramid dE dF c ps a b = Ok m /\ wf m /\ encloses m (/ 3 * vdot (vsub a b) (area_vec ps)).
  Proof.
    intros n N A B D G. destruct (@bipyramid_solid _ _ _ dE dF c ps a b N A B D G) as (m & E & W & S). exists m. split; auto. split; auto.
    rewrite <- bipyramid_formula.
    assert (M : map (map (pt (ps ++ [a; b]))) (bipyramid_polys n) = fans ps a ++ fans (turn ps) b).
    { unfold bipyramid_polys. rewrite map_app, <- !fans_map, <- turn_map. unfold n. rewrite map_pt_first. f_equal; f_equal.
      - unfold pt. rewrite app_nth2 by auto. rewrite Nat.sub_diag. reflexivity.
      - unfold pt. rewrite app_nth2 by lia. replace (Datatypes.S (length ps) - length ps)%nat with 1%nat by lia. reflexivity. }
    rewrite <- M. apply (solid_encloses W S); unfold bipyramid_polys; apply Forall_app; split; try apply fans_flat; rewrite app_length; cbn [length]; fold n;
      apply fans_range; try lia; [apply seq_range; lia|apply turn_range, seq_range; lia].
  Qed.
  (** a band of quads between a polygon and its scaled copy *)
  Lemma quad_flat h s p q : flat [p; q; copy h s q; copy h s p].
  Proof.
    intros a b c d A B C D. unfold tri_volume. enough (E : det3 (vsub b a) (vsub c a) (vsub d a) = 0) by (rewrite E; field).
    destruct A as [<-|[<-|[<-|[<-|[]]]]], B as [<-|[<-|[<-|[<-|[]]]]], C as [<-|[<-|[<-|[<-|[]]]]], D as [<-|[<-|[<-|[<-|[]]]]]; unfold copy; vec3s; ring.
  Qed.
  Lemma copy_flat h s ps : flat ps -> flat (map (copy h s) ps).
  Proof.
    intros F a b c d A B C D. apply in_map_iff in A as (a' & <- & A), B as (b' & <- & B), C as (c' & <- & C), D as (d' & <- & D).
    pose proof (F a' b' c' d' A B C D) as Z. unfold tri_volume in *.
    replace (det3 (vsub (copy h s b') (copy h s a')) (vsub (copy h s c') (copy h s a')) (vsub (copy h s d') (copy h s a'))) with (s * s * s * det3 (vsub b' a') (vsub c' a') (vsub d' a')) by (unfold copy; vec3s; ring).
    assert (Y : det3 (vsub b' a') (vsub c' a') (vsub d' a') = 0) by lra. rewrite Y. field.
  Qed.
  Lemma copied_encloses m ps h s : wf m -> flat ps -> let n := length ps in (3 <= n)%nat -> solid (abs m) dF (ps ++ map (copy h s) ps) (frustum_polys n) (3 * n) ->
    encloses m (/ 3 * ((1 + s + s * s) * vdot h (area_vec ps) + (s * s * s - 1) * vdot (hd zero3 ps) (area_vec ps))).
  Proof.
    intros W F n N S. rewrite <- frustum_formula by (intros ->; cbn in *; lia). set (qs := map (copy h s) ps) in *.
    assert (LQ : length qs = length ps) by (apply map_length).
    assert (M : map (map (pt (ps ++ qs))) (frustum_polys n) = turn ps :: quads ps qs ++ [qs]).
    { unfold frustum_polys. cbn [map]. rewrite map_app. cbn [map]. rewrite <- turn_map, <- quads_map. unfold n. rewrite map_pt_first, map_pt_second by auto. reflexivity. }
    rewrite <- M. apply (solid_encloses W S).
    - rewrite app_length, LQ. fold n. unfold frustum_polys. constructor; [apply turn_range, seq_range; lia|]. apply Forall_app. split; [|constructor; [apply seq_range; lia|constructor]].
      unfold quads. apply Forall_forall. intros l I. apply in_map_iff in I as ([[x y] [z w]] & <- & I). pose proof (in_combine_l _ _ _ _ I) as I1. pose proof (in_combine_r _ _ _ _ I) as I2.
      apply cyc_in in I1 as [X Y], I2 as [Z U]. apply in_seq in X, Y, Z, U. cbn [fst snd]. repeat constructor; lia.
    - assert (K : forall l, In l (map (map (pt (ps ++ qs))) (frustum_polys n)) -> flat l).
      { rewrite M. intros l [<-|I]; [apply (flat_sub F), in_turn|].
        apply in_app_or in I as [I|[<-|[]]]; [|apply copy_flat; auto]. unfold qs in I. rewrite quads_copy in I. apply in_map_iff in I as ([p q] & <- & I). apply quad_flat. }
      apply Forall_forall. intros l I. apply K. apply (in_map (map (pt (ps ++ qs)))). exact I.
  Qed.
  Lemma any_frustum c ps h s : let n := length ps in (3 <= n)%nat -> flat ps -> (6 * n <= capE c)%nat -> (2 * n <= capV c)%nat -> (2 + n <= capF c)%nat ->
    exists m, frustum dE dF c ps (map (copy h s) ps) false = Ok m /\ wf m /\
      encloses m (/ 3 * ((1 + s + s * s) * vdot h (area_vec ps) + (s * s * s - 1) * vdot (hd zero3 ps) (area_vec ps))).
  Proof.
    intros n N F A B D. destruct (@frustum_solid _ _ _ dE dF c ps (map (copy h s) ps) N (map_length _ _) A B D) as (m & E & W & S). exists m. split; auto. split; auto.
    apply copied_encloses; auto.
  Qed.
  Lemma any_prism c ps h : let n := length ps in (3 <= n)%nat -> flat ps -> (6 * n <= capE c)%nat -> (2 * n <= capV c)%nat -> (2 + n <= capF c)%nat ->
    exists m, frustum dE dF c ps (map (vadd h) ps) false = Ok m /\ wf m /\ encloses m (vdot h (area_vec ps)).
  Proof.
    intros n N F A B D. destruct (@any_frustum c ps h 1 N F A B D) as (m & E & W & S). exists m.
    assert (M : map (copy h 1) ps = map (vadd h) ps) by (apply map_ext; intros p; unfold copy; vec3s; f_equal; [f_equal|]; ring). rewrite M in E. split; auto. split; auto.
    replace (vdot h (area_vec ps)) with (/ 3 * ((1 + 1 + 1 * 1) * vdot h (area_vec ps) + (1 * 1 * 1 - 1) * vdot (hd zero3 ps) (area_vec ps))) by field. exact S.
  Qed.
End Shapes.
