(** Property C61: transforming a mesh. *)
From Coq Require Import List Arith ZArith QArith Lia Bool Setoid Ring_theory.
From Verif Require Import Base DVec Mesh Spec MeshMore MeshEx Alg AlgSpec Transform TransSpec TransProofs MathEx TransEx.
Import ListNotations.
Local Open Scope nat_scope.

(** C61. Whatever the payload transforms do, the mesh stays consistent, all ids and links are kept and
    every payload is transformed exactly once. *)
Theorem C61_links : forall (VP EP FP : Type) (fv : VP -> VP) (fh : EP -> EP) (ff : FP -> FP) (m : mesh VP EP FP),
  (wf m -> wf (m_transform fv fh ff m)) /\ same_links (abs m) (abs (m_transform fv fh ff m)) /\
  (forall e, ep (abs (m_transform fv fh ff m)) e = option_map fh (ep (abs m) e)) /\
  (forall v, vp (abs (m_transform fv fh ff m)) v = option_map fv (vp (abs m) v)) /\
  (forall f, fp (abs (m_transform fv fh ff m)) f = option_map (fun p => (fst p, ff (snd p))) (fp (abs m) f)).
Proof. intros. exact (conj (transform_wf fv fh ff (m := m)) (conj (transform_links fv fh ff m) (transform_pays fv fh ff m))). Qed.
Print Assumptions C61_links.

(** Every point of every edge, straight or curved, is moved by the transform. *)
Theorem C61_edge_points : forall (R : Type) (zero one : R) add mul sub opp req, is_ring zero one add mul sub opp req ->
  forall (FP : Type) D t (m : mesh (pnu R) (curve R) FP) e x, wf m -> lv (abs m) e = true ->
    exists p q, edge_point one add mul sub m e x = Ok p /\
      edge_point one add mul sub (t_transform zero add mul D t m) e x = Ok q /\
      forall i, req (q i) (a_apply zero add mul D t p i).
Proof. intros R zero one add mul sub opp req (E & X & T) FP. exact (@edge_point_image _ _ _ _ _ _ _ _ E X T FP). Qed.
Print Assumptions C61_edge_points.

(** [translate] is the transform by a translation; two transforms are one by their chain. *)
Theorem C61_translate : forall (R : Type) (zero one : R) add mul sub opp req, is_ring zero one add mul sub opp req ->
  forall (FP : Type) D v (m : mesh (pnu R) (curve R) FP),
    same_mesh req D (abs (t_translate zero one add mul D v m)) (abs (t_transform zero add mul D (a_from_translation zero one v) m)).
Proof. intros R zero one add mul sub opp req (E & X & T) FP. exact (@translate_transform _ _ _ _ _ _ _ _ E X T FP). Qed.
Print Assumptions C61_translate.
Theorem C61_chain : forall (R : Type) (zero one : R) add mul sub opp req, is_ring zero one add mul sub opp req ->
  forall (FP : Type) D eqz t o (m : mesh (pnu R) (curve R) FP), (forall x, req x zero -> eqz x = true) ->
    exists c, a_chain zero one add mul D eqz t o = Ok c /\
      same_mesh req D (abs (t_transform zero add mul D o (t_transform zero add mul D t m))) (abs (t_transform zero add mul D c m)).
Proof. intros R zero one add mul sub opp req (E & X & T) FP. exact (@transform_chain _ _ _ _ _ _ _ _ E X T FP). Qed.
Print Assumptions C61_chain.

(** If the linear part keeps angles, stored normals keep their angle with every direction of the surface. *)
Theorem C61_angles : forall (R : Type) (zero one : R) add mul sub opp req, is_ring zero one add mul sub opp req ->
  forall D k t a b, similarity zero add mul req D k (a_mat t) ->
    req (dot zero add mul D (a_apply_vec zero add mul D t a) (a_apply_vec zero add mul D t b)) (mul k (dot zero add mul D a b)).
Proof. intros R zero one add mul sub opp req (E & X & T) D k t. exact (@similarity_dot _ _ _ _ _ _ _ _ E X T D k (a_mat t)). Qed.
Print Assumptions C61_angles.
(** For a rigid motion the normal of a transformed face is the transformed normal; a rigid map of
    volume -1 turns it around. *)
Theorem C61_face_normal : forall (R : Type) (zero one : R) add mul sub opp req, is_ring zero one add mul sub opp req ->
  forall (FP : Type) mhalf t (m : mesh (pnu R) (curve R) FP) f, wf m -> lvf (abs m) f = true ->
    similarity zero add mul req 3 one (a_mat t) ->
    exists n n', face_normal zero add mul sub mhalf m f = Ok n /\
      face_normal zero add mul sub mhalf (t_transform zero add mul 3 t m) f = Ok n' /\
      forall c, c < 3 -> req (n' c) (mul (volume zero add mul sub (a_mat t)) (a_apply_vec zero add mul 3 t n c)).
Proof. intros R zero one add mul sub opp req (E & X & T) FP. exact (@face_normal_image _ _ _ _ _ _ _ _ E X T FP). Qed.
Print Assumptions C61_face_normal.

(** The stored normals of a mesh do not stay those of its faces: mirroring turns the face around but
    keeps the stored normals. *)
Theorem C61_mirror_refuted : wf ex_tri /\ agree ex_tri 0 /\ ~ agree (q_scale (qv [-1; 1; 1]%Q) ex_tri) 0.
Proof. exact mirror_wrong. Qed.
Print Assumptions C61_mirror_refuted.
(** A stored normal perpendicular to the surface is not perpendicular after scaling the axes differently,
    and a unit normal is not a unit normal after scaling all axes alike. *)
Theorem C61_scale_refuted :
  ~ (forall s n d, dot 0%Z Z.add Z.mul 3 n d = 0%Z ->
       dot 0%Z Z.add Z.mul 3 (u_nor (u_scale 0%Z Z.add Z.mul 3 s (mkP d n d))) (u_pos (u_scale 0%Z Z.add Z.mul 3 s (mkP d n d))) = 0%Z) /\
  ~ (forall k n d, dot 0%Z Z.add Z.mul 3 n n = 1%Z ->
       dot 0%Z Z.add Z.mul 3 (u_nor (u_scale 0%Z Z.add Z.mul 3 (fun _ => k) (mkP d n d))) (u_nor (u_scale 0%Z Z.add Z.mul 3 (fun _ => k) (mkP d n d))) = 1%Z).
Proof. exact scale_normals_wrong. Qed.
Print Assumptions C61_scale_refuted.

Example C61_example : is_ring 0%Q 1%Q Qplus Qmult Qminus Qopp Qeq /\ wf ex_tri /\ lv (abs ex_tri) 0 = true /\ lvf (abs ex_tri) 0 = true /\
  similarity 0%Q Qplus Qmult Qeq 3 1%Q (a_mat q_turn) /\ (volume 0 Qplus Qmult Qminus (a_mat q_turn) == 1)%Q /\
  (forall x, (x == 0)%Q -> Qeq_bool x 0 = true) /\
  oq (coord (q_point ex_tri 0 (1 # 2)%Q) 0) (Some (1 # 2)%Q) = true /\
  oq (coord (q_point (q_transform q_turn ex_tri) 0 (1 # 2)%Q) 1) (Some (13 # 2)%Q) = true.
Proof. exact trans_ex. Qed.
