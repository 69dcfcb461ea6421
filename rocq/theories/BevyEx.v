(** Concrete exports to Bevy meshes, and the triangulation of faces that they use. *)
From Coq Require Import List Arith ZArith Bool NArith Lia.
From Verif Require Import Base DVec Mesh MeshMore Spec MeshSpec MeshProofs MeshEx TriSpec TessProofs TopoSpec TriMeshSpec BufferSpec Tess MinWeightSpec MinWeightProofs TriMesh TriMeshProofs TriMeshEx Solid ShapeProofs Bevy BevySpec BevyProofs IsoProofs NetProofs.
Import ListNotations.
Set Implicit Arguments.
Unset Strict Implicit.
Local Arguments abs : simpl never.

(** TriMesh.v: what the algorithms do to a face *)
Section Link.
  Variables (P S W : Type) (pos2 : nat -> option (nat -> P)) (planar convex_face simple : nat -> bool).
  Variables (ds : P -> P -> S) (le : S -> S -> bool) (cv : P -> P -> P -> bool).
  Variables (inside3 : P -> P -> P -> P -> bool) (collinear : P -> P -> P -> bool) (rnd : nat -> nat).
  Variables (addW : W -> W -> W) (ltW : W -> W -> bool) (zeroW : W) (distance : P -> P -> W).
  Variable valid_diagonal : nat -> nat -> nat -> bool.
  Variables (sweep : mono -> list (P * nat) -> res (list tri3)) (delaunay : nat -> list (P * nat) -> res (list tri3)).
  Context {V3 V2 EP FP : Type}.
  Variable m : mesh (payload V3 V2) EP FP.
  Notation faces := (face_triangles pos2 planar convex_face simple ds le cv inside3 collinear rnd addW ltW zeroW distance valid_diagonal sweep delaunay).
  Notation whole := (triangulate pos2 planar convex_face simple ds le cv inside3 collinear rnd addW ltW zeroW distance valid_diagonal sweep delaunay).
  Lemma faces_sound dbg alg : wf m -> weights addW ltW zeroW -> (forall k, sound (sweep k)) -> (forall f, sound (delaunay f)) -> alg <> EarClipping ->
    face_sound (abs m) (fun _ => false) (faces dbg alg m).
  Proof.
    intros Wm GW GS GD NE f l t L B E. erewrite face_eq in E by eauto.
    apply (tface_ok GW GS GD) in E as [_ T]. destruct alg; try exact T. tauto.
  Qed.
  Lemma whole_mesh dbg alg blank : whole dbg alg blank m = triangulate_mesh (faces dbg alg m) blank m.
  Proof. reflexivity. Qed.
End Link.

Definition ex_pay (x : nat) : payload nat nat := mkPay x (x + 1) (x + 2).
Definition ex_bevy : mesh (payload nat nat) nat nat := get_ok empty_mesh (pyramid 0 7 c0 (map ex_pay [0; 10; 20; 30; 40]) (ex_pay 50)).
Definition ex_faces (f : nat) : res (list tri3) := @face_triangles (Z * Z) Z nat penta_pos yes yes yes z_ds Z.leb z_convex z_inside z_collinear (fun _ => 0)
  Nat.add Nat.ltb 0 (fun _ _ => 1) (fun _ _ _ => true) (fun _ => z_fan) (fun _ => z_fan) _ _ _ true Fan ex_bevy f.
Definition ex_normal (f : nat) : res nat := Ok (100 + f).
Lemma ex_wf : wf ex_bevy.
Proof. apply wfb_ok. vm_compute. reflexivity. Qed.
Lemma ex_sound : face_sound (abs ex_bevy) (fun _ => false) ex_faces.
Proof. apply faces_sound; [exact ex_wf|exact nat_weights|intros k; exact z_fan_sound|intros k; exact z_fan_sound|discriminate]. Qed.
Lemma ex_all f : lvf (abs ex_bevy) f = true -> (exists n, ex_normal f = Ok n) /\ exists t, ex_faces f = Ok t.
Proof.
  intros L. split; [unfold ex_normal; eauto|]. pose proof (proj2 (face_ids_live f ex_wf) L) as L'. clear L. rename L' into L.
  assert (E : face_ids ex_bevy = [0; 1; 2; 3; 4; 5]) by (vm_compute; reflexivity). rewrite E in L.
  assert (K : forallb (fun f => match ex_faces f with Ok _ => true | _ => false end) [0; 1; 2; 3; 4; 5] = true) by (vm_compute; reflexivity).
  rewrite forallb_forall in K. specialize (K _ L). cbv beta in K. clear E. destruct (ex_faces f) as [t| |]; [exists t; reflexivity|discriminate K|discriminate K].
Qed.
Lemma corner_by {V3 V2 EP FP} (m : mesh (payload V3 V2) EP FP) ls : wf m -> mapM (face_vertices m) (face_ids m) = Ok ls -> corner_count (abs m) (face_ids m) (length (concat ls)).
Proof.
  intros Wm Y. destruct (counted Wm) as (k & ls' & F & E). exists ls'. split; auto.
  assert (LV : Forall (fun f => lvf (abs m) f = true) (face_ids m)) by (apply Forall_forall; intros f I; exact (proj1 (face_ids_live f Wm) I)).
  assert (X : mapM (face_vertices m) (face_ids m) = Ok ls').
  { clear E Y. revert LV. generalize dependent ls'. generalize (face_ids m). induction l as [|f fs IH]; intros ls' F LV; inversion F as [|? l ? ls2 B F']; subst; [reflexivity|]. inversion LV as [|? ? L LV']; subst. cbn [mapM].
    rewrite (boundary_face_vertices Wm L B). cbn [bind]. rewrite (IH _ F' LV'). reflexivity. }
  congruence.
Qed.
Lemma ex_corners : corner_count (abs ex_bevy) (face_ids ex_bevy) 20.
Proof. apply (@corner_by _ _ _ _ ex_bevy [[0; 4; 3; 2; 1]; [5; 4; 0]; [5; 3; 4]; [5; 2; 3]; [5; 1; 2]; [1; 5; 0]] ex_wf). vm_compute. reflexivity. Qed.

(** a pyramid with 65 sides: 66 vertices, 260 corners *)
Definition ex_big : mesh (payload nat nat) nat nat := get_ok empty_mesh (pyramid 0 7 (mkCfg 400 255 255 true) (map ex_pay (seq 0 65)) (ex_pay 50)).
Definition ex_fans (f : nat) : res (list tri3) := let* l := face_vertices ex_big f in fan_triangulation false true l.
Definition ex_big_vertices : list (list nat) := get_ok [] (mapM (face_vertices ex_big) (face_ids ex_big)).
Lemma big_wf : wf ex_big.
Proof.
  destruct (@pyramid_solid _ nat nat 0 7 (mkCfg 400 255 255 true) (map ex_pay (seq 0 65)) (ex_pay 50)) as (m & E & W & _); try (apply Nat.leb_le; vm_compute; reflexivity).
  unfold ex_big. rewrite E. exact W.
Qed.
Lemma big_corners : corner_count (abs ex_big) (face_ids ex_big) 260.
Proof.
  replace 260 with (length (concat ex_big_vertices)) by (vm_compute; reflexivity). apply (corner_by big_wf). vm_compute. reflexivity.
Qed.
Lemma big_sound : face_sound (abs ex_big) (fun _ => false) ex_fans.
Proof.
  intros f l t L B E. unfold ex_fans in E. rewrite (boundary_face_vertices big_wf L B) in E. cbn [bind] in E. eapply fan_ok; [exact E|].
  assert (K : forallb (fun f => match face_vertices ex_big f with Ok l => 3 <=? length l | _ => false end) (face_ids ex_big) = true) by (vm_compute; reflexivity).
  rewrite forallb_forall in K. specialize (K _ (proj2 (face_ids_live f big_wf) L)). cbv beta in K. rewrite (boundary_face_vertices big_wf L B) in K. apply Nat.leb_le in K. lia.
Qed.
Lemma big_all f : lvf (abs ex_big) f = true -> (exists n, ex_normal f = Ok n) /\ exists t, ex_fans f = Ok t.
Proof.
  intros L. split; [exists (100 + f); reflexivity|].
  assert (K : forallb (fun f => match ex_fans f with Ok l => true | _ => false end) (face_ids ex_big) = true) by (vm_compute; reflexivity).
  rewrite forallb_forall in K. specialize (K _ (proj2 (face_ids_live f big_wf) L)). cbv beta in K. destruct (ex_fans f) as [t| |]; [exists t; reflexivity|discriminate K|discriminate K].
Qed.
