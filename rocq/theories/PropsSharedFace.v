(** Property C82: the common face of two vertices. *)
From Coq Require Import List Arith Bool.
From Verif Require Import Base DVec Mesh MeshMore Spec MeshSpec MeshEx TopoEx SharedFace SharedFaceProofs.
Import ListNotations.

(** [shared_face] returns a face with both vertices, or nothing if there is none. *)
Theorem C82_shared_face :
  forall (VP EP FP : Type) (c : cfg) (m : mesh VP EP FP) v0 v1,
    wf m -> lvv (abs m) v0 = true -> lvv (abs m) v1 = true ->
    exists o, shared_face c m v0 v1 = Ok o /\
      match o with
      | Some f => lvf (abs m) f = true /\ on_face (abs m) v0 f /\ on_face (abs m) v1 f
      | None => forall f, ~ (on_face (abs m) v0 f /\ on_face (abs m) v1 f)
      end.
Proof. exact @shared_face_ok. Qed.
Print Assumptions C82_shared_face.

(** It panics on a vertex that does not exist. *)
Theorem C82_panics :
  forall (VP EP FP : Type) (c : cfg) (m : mesh VP EP FP) v0 v1,
    wf m -> (lvv (abs m) v0 = false \/ lvv (abs m) v1 = false) -> shared_face c m v0 v1 = Panic.
Proof. exact @shared_face_panics. Qed.
Print Assumptions C82_panics.

(** Both answers occur; a mesh without the vertex. *)
Example C82_example : wf (built c0 ops_kite) /\ shared_face c0 (built c0 ops_kite) 0 3 = Ok (Some 0) /\
  shared_face c0 (built c0 ops_kite) 0 1 = Ok None /\ lvv (abs (built c0 ops_kite)) 3 = true /\ lvv (abs (built c0 ops_kite)) 9 = false.
Proof. split; [apply wfb_ok; vm_compute; reflexivity|]. vm_compute. repeat split. Qed.
