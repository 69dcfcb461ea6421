(** Property C85: the methods of the Bevy vertex payloads. *)
From Coq Require Import List Arith ZArith QArith.
From Verif Require Import Base DVec Mesh Alg AlgSpec Transform TransSpec BevyTrans BevyTransProofs BevyPayload BevyPayloadProofs MathEx CurveProofs TransEx.
Import ListNotations.
Local Open Scope nat_scope.

(** C85. [rotate] is the transform by the rotation; [translate] and [scale] move the positions as the transforms do. *)
Theorem C85_methods : forall (R : Type) (zero one : R) add mul sub opp req, is_ring zero one add mul sub opp req ->
  forall q v p,
    same_pnu req 3 (b3_rotate one add mul sub q p) (b3_payload one add mul sub (b3_from_rotation zero one q) p) /\
    same_vec req 3 (u_pos (b3_translate add v p)) (u_pos (b3_payload one add mul sub (b3_from_translation zero one v) p)) /\
    same_vec req 3 (u_pos (b3_scale mul v p)) (u_pos (b3_payload one add mul sub (b3_from_scale zero one v) p)).
Proof.
  intros R zero one add mul sub opp req (E & X & T) q v p.
  exact (conj (rotate_transform E X T q p) (moves_positions E X T v p)).
Qed.
Print Assumptions C85_methods.

(** They do not do the same to the normals, so they are not the transforms. *)
Theorem C85_translate_refuted :
  exists v p, ~ same_pnu eq 3 (b3_translate Z.add v p) (b3_payload 1%Z Z.add Z.mul Z.sub (b3_from_translation 0%Z 1%Z v) p).
Proof. exact translate_wrong. Qed.
Print Assumptions C85_translate_refuted.
Theorem C85_scale_refuted :
  exists v p, ~ same_pnu eq 3 (b3_scale Z.mul v p) (b3_payload 1%Z Z.add Z.mul Z.sub (b3_from_scale 0%Z 1%Z v) p).
Proof. exact b3_scale_wrong. Qed.
Print Assumptions C85_scale_refuted.

(** [translate], [rotate] and [scale] by equal factors keep a normal perpendicular to the surface and of the same length. *)
Theorem C85_normals : forall (R : Type) (zero one : R) add mul sub opp req, is_ring zero one add mul sub opp req ->
  forall v q k p p', unit_quat one add mul req q -> upright zero add mul sub req p p' ->
    (upright zero add mul sub req (b3_translate add v p) (b3_translate add v p') /\
     req (dot3 add mul (u_nor (b3_translate add v p)) (u_nor (b3_translate add v p))) (dot3 add mul (u_nor p) (u_nor p))) /\
    (upright zero add mul sub req (b3_rotate one add mul sub q p) (b3_rotate one add mul sub q p') /\
     req (dot3 add mul (u_nor (b3_rotate one add mul sub q p)) (u_nor (b3_rotate one add mul sub q p))) (dot3 add mul (u_nor p) (u_nor p))) /\
    (upright zero add mul sub req (b3_scale mul (fun _ => k) p) (b3_scale mul (fun _ => k) p') /\
     req (dot3 add mul (u_nor (b3_scale mul (fun _ => k) p)) (u_nor (b3_scale mul (fun _ => k) p))) (dot3 add mul (u_nor p) (u_nor p))).
Proof. intros R zero one add mul sub opp req (E & X & T). exact (normals_kept E X T). Qed.
Print Assumptions C85_normals.
(** [scale] by different positive factors tilts them. *)
Theorem C85_tilt_refuted : exists v p p', (0 < v 0%nat /\ 0 < v 1%nat /\ 0 < v 2%nat)%Z /\
  upright 0%Z Z.add Z.mul Z.sub eq p p' /\ ~ upright 0%Z Z.add Z.mul Z.sub eq (b3_scale Z.mul v p) (b3_scale Z.mul v p').
Proof. exact scale_tilts. Qed.
Print Assumptions C85_tilt_refuted.

(** [lerp] runs from the one payload to the other and commutes with all these methods. *)
Theorem C85_lerp : forall (R : Type) (zero one : R) add mul sub opp req, is_ring zero one add mul sub opp req ->
  forall p p', 
    (forall n, same_pnu req n (b3_lerp one add mul sub p p' zero) p /\ same_pnu req n (b3_lerp one add mul sub p p' one) p' /\
       forall t, same_pnu req n (b3_lerp one add mul sub p p' t) (b3_lerp one add mul sub p' p (sub one t))) /\
    forall s q v t,
    same_pnu req 3 (b3_payload one add mul sub s (b3_lerp one add mul sub p p' t))
      (b3_lerp one add mul sub (b3_payload one add mul sub s p) (b3_payload one add mul sub s p') t) /\
    same_pnu req 3 (b3_rotate one add mul sub q (b3_lerp one add mul sub p p' t))
      (b3_lerp one add mul sub (b3_rotate one add mul sub q p) (b3_rotate one add mul sub q p') t) /\
    same_pnu req 3 (b3_translate add v (b3_lerp one add mul sub p p' t))
      (b3_lerp one add mul sub (b3_translate add v p) (b3_translate add v p') t) /\
    same_pnu req 3 (b3_scale mul v (b3_lerp one add mul sub p p' t))
      (b3_lerp one add mul sub (b3_scale mul v p) (b3_scale mul v p') t).
Proof.
  intros R zero one add mul sub opp req (E & X & T) p p'.
  exact (conj (lerp_ends E X T p p') (fun s q v t => lerp_transform E X T s q v p p' t)).
Qed.
Print Assumptions C85_lerp.

(** In two dimensions [translate] and [scale] are the transforms, [lerp] commutes with transforms. *)
Theorem C85_payload2 : forall (R : Type) (zero one : R) add mul sub opp req, is_ring zero one add mul sub opp req ->
  forall v s t p q,
    same_pu req (b2_translate add v p) (b2_payload zero add mul (b2_from_translation zero one v) p) /\
    same_pu req (b2_scale mul v p) (b2_payload zero add mul (b2_from_scale zero v) p) /\
    same_pu req (b2_lerp one add mul sub p q zero) p /\ same_pu req (b2_lerp one add mul sub p q one) q /\
    same_pu req (b2_payload zero add mul s (b2_lerp one add mul sub p q t))
      (b2_lerp one add mul sub (b2_payload zero add mul s p) (b2_payload zero add mul s q) t).
Proof. intros R zero one add mul sub opp req (E & X & T). exact (payload2 E X T). Qed.
Print Assumptions C85_payload2.
(** [rotate] is unfinished: no 2d mesh with a vertex can be rotated. *)
Theorem C85_rotate2_panics : forall (R EP FP : Type) (fh : EP -> EP) (ff : FP -> FP) (r : R) (m : mesh (pu R) EP FP) v x,
  m_vertex m v = Ok x -> b2_mesh_rotate fh ff r m = Panic.
Proof. exact mesh_rotate_panics. Qed.
Print Assumptions C85_rotate2_panics.

Example C85_example : is_ring 0%Q 1%Q Qplus Qmult Qminus Qopp Qeq /\
  unit_quat 1%Q Qplus Qmult Qeq (mkQuat (3 # 5) 0 0 (4 # 5))%Q /\
  upright 0%Q Qplus Qmult Qminus Qeq (mkP (qv [0; 0; 0]%Q) (qv [1; 1; 0]%Q) (qv [0; 0]%Q)) (mkP (qv [1; -(1); 0]%Q) (qv [1; 1; 0]%Q) (qv [0; 0]%Q)).
Proof. split; [exact Q_ring|]. split; vm_compute; reflexivity. Qed.
