(** Property C83: exchanging the y and z axes of a mesh. *)
From Coq Require Import List Arith ZArith QArith.
From Verif Require Import Base DVec Mesh Spec MeshSpec Alg AlgSpec Transform TransSpec TransEx FlipYz FlipYzProofs.
Import ListNotations.
Local Open Scope nat_scope.

(** [flip_yz] keeps all links, exchanges two coordinates of every position and keeps the other payloads, also the normals and
    the control points of curves. *)
Theorem C83_flip : forall (R EP FP : Type) (m : mesh (pnu R) EP FP),
  (wf m -> wf (flip_yz m)) /\ same_links (abs m) (abs (flip_yz m)) /\
  (forall v p, vp (abs m) v = Some p -> exists q, vp (abs (flip_yz m)) v = Some q /\ mirrored p q) /\
  (forall e, ep (abs (flip_yz m)) e = ep (abs m) e) /\ (forall f, fp (abs (flip_yz m)) f = fp (abs m) f).
Proof. exact @flip_ok. Qed.
Print Assumptions C83_flip.
(** Twice gives the same mesh. *)
Theorem C83_twice : forall (R FP : Type) (zero one : R) add mul sub opp req, is_ring zero one add mul sub opp req ->
  forall (m : mesh (pnu R) (curve R) FP), same_mesh req 3 (abs (flip_yz (flip_yz m))) (abs m).
Proof. intros R FP zero one add mul sub opp req (E & X & T). exact (@flip_twice _ _ E FP). Qed.
Print Assumptions C83_twice.
(** The computed normal of every face becomes the opposite of the mirrored normal: the mesh is turned inside out. *)
Theorem C83_normal : forall (R FP : Type) (zero one : R) add mul sub opp req, is_ring zero one add mul sub opp req ->
  forall mhalf (m : mesh (pnu R) (curve R) FP) f, wf m -> lvf (abs m) f = true ->
    exists n n', face_normal zero add mul sub mhalf m f = Ok n /\ face_normal zero add mul sub mhalf (flip_yz m) f = Ok n' /\
      req (n' 0) (opp (n 0)) /\ req (n' 1) (opp (n 2)) /\ req (n' 2) (opp (n 1)).
Proof. intros R FP zero one add mul sub opp req (E & X & T). exact (@flip_normal _ _ _ _ _ _ _ _ E X T FP). Qed.
Print Assumptions C83_normal.
(** Stored normals that agree with the face do not agree with it afterwards. *)
Theorem C83_stored_refuted : wf ex_tri /\ agree ex_tri 0 /\ ~ agree (flip_yz ex_tri) 0.
Proof. exact flip_wrong. Qed.
Print Assumptions C83_stored_refuted.
Example C83_example : is_ring 0%Q 1%Q Qplus Qmult Qminus Qopp Qeq /\ wf ex_tri /\ lvf (abs ex_tri) 0 = true /\
  oq (nrm ex_tri 0 2) (Some (1 # 2)%Q) = true /\ oq (nrm (flip_yz ex_tri) 0 1) (Some (-1 # 2)%Q) = true.
Proof. exact flip_ex. Qed.
