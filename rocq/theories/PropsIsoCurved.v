(** Property C86: the comparison of curved meshes. *)
From Coq Require Import List Arith Bool QArith Qabs.
From Verif Require Import Base DVec Mesh Spec MeshSpec MeshEx Topo Alg Transform TransSpec IsoCurved IsoCurvedProofs MathEx CurveProofs TransEx.
Import ListNotations.
Local Open Scope nat_scope.

(** C86. If two consistent meshes are accepted, every point of every edge, straight or curved, is at the same parameter
    within [eps] of the point of the edge with the same id, in every coordinate. *)
Theorem C86_accepted : forall (FP : Type) D eps (m m2 : mesh (pnu Q) (curve Q) FP), wf m -> wf m2 ->
  is_trivially_isomorphic_pos_curved D eps m m2 = Ok Equivalent ->
  forall e t, lv (abs m) e = true -> (0 <= t)%Q -> (t <= 1)%Q ->
    exists p q, edge_point 1%Q Qplus Qmult Qminus m e t = Ok p /\ edge_point 1%Q Qplus Qmult Qminus m2 e t = Ok q /\
      forall i, i < D -> (Qabs (p i - q i) < eps)%Q.
Proof. exact @curved_sound. Qed.
Print Assumptions C86_accepted.

(** Conversely two consistent meshes with the same links, near positions and near control points are accepted. *)
Theorem C86_accepts : forall (FP : Type) D eps (m m2 : mesh (pnu Q) (curve Q) FP), wf m -> wf m2 ->
  same_links (abs m) (abs m2) ->
  (forall v p q, vp (abs m) v = Some p -> vp (abs m2) v = Some q -> forall i, i < D -> (Qabs (u_pos p i - u_pos q i) < eps)%Q) ->
  (forall e a b, ep (abs m) e = Some a -> ep (abs m2) e = Some b -> near_curve D eps a b) ->
  is_trivially_isomorphic_pos_curved D eps m m2 = Ok Equivalent.
Proof. exact @curved_complete. Qed.
Print Assumptions C86_accepts.

Example C86_example : wf ex_tri /\ lv (abs ex_tri) 0 = true /\
  is_trivially_isomorphic_pos_curved 3 (1 # 10) ex_tri ex_tri = Ok Equivalent /\
  is_trivially_isomorphic_pos_curved 3 (1 # 10) ex_tri (q_scale (qv [(101 # 100); 1; 1]%Q) ex_tri) = Ok Equivalent /\
  is_trivially_isomorphic_pos_curved 3 (1 # 10) ex_tri (q_scale (qv [2; 1; 1]%Q) ex_tri) <> Ok Equivalent.
Proof.
  split; [exact tri_wf|]. split; [vm_compute; reflexivity|]. split; [vm_compute; reflexivity|]. split; [vm_compute; reflexivity|].
  vm_compute. discriminate.
Qed.
