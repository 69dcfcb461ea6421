(** Concrete meshes for the examples on smooth normals; positions are arbitrary real vectors. *)
From Coq Require Import List Arith Lia Bool Reals Lra.
From Verif Require Import Base DVec Mesh Spec MeshSpec TopoSpec MeshMore MeshEx BuildStep IsoProofs Alg AlgSpec TriSpec Transform TransSpec Normals NormalsSpec NormalsProofs NormalsMore.
Import ListNotations.
Set Implicit Arguments.
Unset Strict Implicit.
Local Open Scope nat_scope.

Definition r_zero : rvec := fun _ => 0%R.
Definition r_at (p : rvec) : pnu R := mkP p r_zero r_zero.
Definition rv (x y z : R) : rvec := fun i => match i with 0 => x | 1 => y | _ => z end.

(** a triangle with a face on one side *)
Definition tri1 (a b c : pnu R) : mesh (pnu R) (curve R) nat := get_ok empty_mesh
  (let* (m, _) := insert_polygon (Linear R) 7 c0 empty_mesh [a; b; c] in Ok m).
(** a triangle with a face on either side *)
Definition tri2 (a b c : pnu R) : mesh (pnu R) (curve R) nat := get_ok empty_mesh
  (let* (m, _) := insert_polygon (Linear R) 7 c0 empty_mesh [a; b; c] in let* (m, _) := close_hole c0 m 0 7 false in Ok m).
(** a triangle and a vertex without edges *)
Definition tri_lone (a b c d : pnu R) : mesh (pnu R) (curve R) nat := get_ok empty_mesh
  (let* (m, _) := insert_polygon (Linear R) 7 c0 empty_mesh [a; b; c] in let* (m, _) := add_vertex c0 m d in Ok m).

Section Dec.
  Context {FP : Type}.
  Notation mesh := (mesh (pnu R) (curve R) FP).
  Implicit Types (m : mesh).
  Definition cornersb m (v : nat) (l : list nat) : bool :=
    forallb (fun e => e <? length (slots (edges m))) l &&
    all_below (length (slots (edges m))) (fun e =>
      Bool.eqb (lv (abs m) e && (og (abs m) e =? v) && negb (is_none (fc (abs m) e))) (inb e l)).
  Lemma cornersb_ok m v l : cornersb m v l = true -> forall e, lv (abs m) e = true /\ og (abs m) e = v /\ fc (abs m) e <> None <-> In e l.
  Proof.
    unfold cornersb. intros H e. apply andb_prop in H as [B H]. rewrite forallb_forall in B.
    assert (K : e < length (slots (edges m)) -> (lv (abs m) e && (og (abs m) e =? v) && negb (is_none (fc (abs m) e))) = inb e l)
      by (intros L; apply eqb_prop; exact (all_below_ok H L)).
    split.
    - intros (L & O & F). assert (LT : e < length (slots (edges m))) by (apply has_lt; exact L). apply inb_in. rewrite <- (K LT), L.
      rewrite O, Nat.eqb_refl. destruct (fc (abs m) e); [reflexivity|congruence].
    - intros I. pose proof (B e I) as LT. apply Nat.ltb_lt in LT. apply inb_in in I. rewrite <- (K LT) in I.
      apply andb_prop in I as [I F]. apply andb_prop in I as [L O]. apply Nat.eqb_eq in O. split; [exact L|]. split; [exact O|].
      destruct (fc (abs m) e); [discriminate|discriminate F].
  Qed.
  Lemma face_boundary m f vs ps vs' ps' : wf m -> lvf (abs m) f = true -> face_vertices m f = Ok vs -> map (vp (abs m)) vs = map Some ps ->
    boundary_vertices (abs m) f vs' -> map (vp (abs m)) vs' = map Some ps' -> ps' = ps.
  Proof.
    intros Wm L F M B P. rewrite (boundary_face_vertices Wm L B) in F. injection F as ->. rewrite M in P. clear - P.
    revert ps' P. induction ps as [|x l IH]; intros [|y ps'] P; try discriminate P; auto. cbn [map] in P. injection P as -> P. f_equal. auto.
  Qed.
  Lemma area_of m f vs ps a i : wf m -> lvf (abs m) f = true -> face_vertices m f = Ok vs -> map (vp (abs m)) vs = map Some ps -> i < 3 ->
    face_area (abs m) f a -> a i = (/ 2 * esum 0 Rplus (cross3 Rmult Rminus i) (poly_edges (map (@u_pos R) ps)))%R.
  Proof.
    intros Wm L F M Hi (vs' & ps' & B & P & A). rewrite (face_boundary Wm L F M B P) in A. apply A; auto.
  Qed.
End Dec.

Section Tri.
  Variables (a b c d : pnu R).
  Lemma tri1_wf : wf (tri1 a b c).
  Proof. apply wfb_ok; vm_compute; reflexivity. Qed.
  Lemma tri2_wf : wf (tri2 a b c).
  Proof. apply wfb_ok; vm_compute; reflexivity. Qed.
  Lemma lone_wf : wf (tri_lone a b c d).
  Proof. apply wfb_ok; vm_compute; reflexivity. Qed.

  Lemma tri2_areas x y i : face_area (abs (tri2 a b c)) 0 x -> face_area (abs (tri2 a b c)) 1 y -> i < 3 -> (x i + y i = 0)%R.
  Proof.
    intros X Y Hi.
    assert (F0 : face_vertices (tri2 a b c) 0 = Ok [0; 2; 1]) by (vm_compute; reflexivity).
    assert (F1 : face_vertices (tri2 a b c) 1 = Ok [1; 2; 0]) by (vm_compute; reflexivity).
    rewrite (area_of (f := 0) (ps := [a; c; b]) tri2_wf eq_refl F0 ltac:(vm_compute; reflexivity) Hi X).
    rewrite (area_of (f := 1) (ps := [b; c; a]) tri2_wf eq_refl F1 ltac:(vm_compute; reflexivity) Hi Y).
    destruct i as [|[|[|i]]]; try lia; cbn; lra.
  Qed.
  Lemma tri2_zero nan g v q : smoothed nan (abs (tri2 a b c)) g -> v < 3 -> vp g v = Some q -> forall i, i < 3 -> u_nor q i = 0%R.
  Proof.
    intros S Hv Q.
    assert (K : forall e1 e2, cornersb (tri2 a b c) v [e1; e2] = true -> fc (abs (tri2 a b c)) e1 = Some 0 -> fc (abs (tri2 a b c)) e2 = Some 1 ->
      e1 <> e2 -> forall i, i < 3 -> u_nor q i = 0%R).
    { intros e1 e2 C F1 F2 NE. apply (@smooth_cancel _ nan (abs (tri2 a b c)) g v q e1 e2 0 1 S Q NE); auto.
      - intros e. rewrite (cornersb_ok C). cbn. intuition congruence.
      - intros x y X Y i Hi. apply (tri2_areas X Y Hi). }
    destruct v as [|[|[|v]]]; [apply (K 4 0)|apply (K 1 2)|apply (K 3 5)|lia]; try discriminate; vm_compute; reflexivity.
  Qed.
  Lemma lone_nan nan g q : smoothed nan (abs (tri_lone a b c d)) g -> vp g 3 = Some q -> u_nor q = nan.
  Proof.
    intros (_ & _ & _ & S) Q. specialize (S 3). rewrite Q in S. unfold related in S. destruct (vp (abs (tri_lone a b c d)) 3); [|destruct S].
    destruct S as (_ & _ & l & C & N & _). apply N.
    assert (K : cornersb (tri_lone a b c d) 3 [] = true) by (vm_compute; reflexivity).
    destruct l as [|e l]; auto. destruct (proj1 (cornersb_ok K e)). apply C. left; auto.
  Qed.
End Tri.

(** flat: a triangle in the plane z = 0 *)
Definition flat3 := tri1 (r_at (rv 0 0 0)) (r_at (rv 0 1 0)) (r_at (rv 1 0 0)).
Lemma flat3_at : exists e, lv (abs flat3) e = true /\ og (abs flat3) e = 1 /\ fc (abs flat3) e <> None.
Proof. exists 1. split; [vm_compute; reflexivity|]. split; [vm_compute; reflexivity|]. intros H. vm_compute in H. discriminate H. Qed.
Lemma one_corner a b c e f : lv (abs (tri1 a b c)) e = true -> fc (abs (tri1 a b c)) e = Some f -> f = 0.
Proof.
  intros L F. destruct (wf_fc (wfW (tri1_wf a b c)) _ L F) as [LF _].
  assert (LT : f < length (slots (faces (tri1 a b c)))) by (apply has_lt; exact LF).
  change (f < 1) in LT. lia.
Qed.
Lemma tri1_area a b c x i : face_area (abs (tri1 a b c)) 0 x -> i < 3 ->
  x i = (/ 2 * esum 0 Rplus (cross3 Rmult Rminus i) (poly_edges (map (@u_pos R) [a; c; b])))%R.
Proof.
  intros X Hi. assert (F0 : face_vertices (tri1 a b c) 0 = Ok [0; 2; 1]) by (vm_compute; reflexivity).
  exact (area_of (f := 0) (ps := [a; c; b]) (tri1_wf a b c) eq_refl F0 ltac:(vm_compute; reflexivity) Hi X).
Qed.
Lemma flat3_dir e f x : lv (abs flat3) e = true -> og (abs flat3) e = 1 -> fc (abs flat3) e = Some f -> face_area (abs flat3) f x -> direction x (rv 0 0 1).
Proof.
  unfold flat3. intros L _ F A. rewrite (one_corner L F) in A. left. exists (1 / 2)%R. split; [lra|]. split; [unfold dot3, rv; ring|].
  intros i Hi. rewrite (tri1_area A Hi). destruct i as [|[|[|i]]]; try lia; cbn; lra.
Qed.
(** a triangle turned away from the origin *)
Definition out3 := tri1 (r_at (rv 1 0 0)) (r_at (rv 0 0 1)) (r_at (rv 0 1 0)).
Lemma out3_at v : v < 3 -> exists e, lv (abs out3) e = true /\ og (abs out3) e = v /\ fc (abs out3) e <> None.
Proof.
  intros Hv. destruct v as [|[|[|v]]]; [exists 4|exists 1|exists 3|lia]; (split; [vm_compute; reflexivity|]; split; [vm_compute; reflexivity|];
  intros H; vm_compute in H; discriminate H).
Qed.
Lemma out3_pos e f vs ps : lv (abs out3) e = true -> fc (abs out3) e = Some f -> boundary_vertices (abs out3) f vs ->
  map (vp (abs out3)) vs = map Some ps ->
  exists a b c, map (@u_pos R) ps = [a; b; c] /\ (0 < rdot a (fun i => cross3 Rmult Rminus i b c))%R.
Proof.
  unfold out3. intros L F B P. rewrite (one_corner L F) in B. fold out3 in *.
  assert (F0 : face_vertices out3 0 = Ok [0; 2; 1]) by (vm_compute; reflexivity).
  assert (E : ps = [r_at (rv 1 0 0); r_at (rv 0 1 0); r_at (rv 0 0 1)]).
  { eapply (face_boundary (m := out3) (f := 0)); [apply tri1_wf|reflexivity|exact F0|reflexivity|exact B|exact P]. }
  subst ps. exists (rv 1 0 0), (rv 0 1 0), (rv 0 0 1). split; [reflexivity|]. unfold dot3, cross3. cbn. lra.
Qed.
(** a quarter turn about the z-axis and a translation *)
Definition r_turn : affine R := mkA (fun i => match i with 0 => rv 0 (-1) 0 | 1 => rv 1 0 0 | _ => rv 0 0 1 end) (rv 5 6 7).
Lemma r_turn_ok : similarity 0%R Rplus Rmult eq 3 1%R (a_mat r_turn) /\ volume 0%R Rplus Rmult Rminus (a_mat r_turn) = 1%R.
Proof.
  split.
  - intros i j Hi Hj. destruct i as [|[|[|i]]], j as [|[|[|j]]]; try lia; cbn; lra.
  - cbn. lra.
Qed.
