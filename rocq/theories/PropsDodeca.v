(** Property C69: the dodecahedron. *)
From Coq Require Import List Arith Bool Reals Lra.
From Verif Require Import Base DVec Mesh Spec MeshSpec MeshMore MeshEx BuildSpec Solid SolidSpec Sphere SphereSpec RegularSpec Dodeca DodecaSpec DodecaProofs.
Import ListNotations.
Local Open Scope R_scope.

(** C69. With debug assertions [dodecahedron] panics for every radius: its start edge lies on the face instead of the boundary. *)
Theorem C69_debug_refuted : forall (EP FP : Type) (dE : EP) (dF : FP) (c : cfg) (r : R),
  (60 <= capE c)%nat -> (20 <= capV c)%nat -> (12 <= capF c)%nat -> dbg c = true -> @dodecahedron EP FP dE dF c r = Panic.
Proof. exact dodecahedron_debug. Qed.
Print Assumptions C69_debug_refuted.

(** Without debug assertions it returns an inconsistent mesh: the first pentagon is a hole, and two faces have the same boundary. *)
Theorem C69_release_refuted : forall (EP FP : Type) (dE : EP) (dF : FP) (c : cfg) (r : R),
  (60 <= capE c)%nat -> (20 <= capV c)%nat -> (12 <= capF c)%nat -> dbg c = false ->
  exists m : mesh vec3 EP FP, dodecahedron dE dF c r = Ok m /\ ~ wf m /\ num_faces m = 12%nat /\ num_vertices m = 20%nat /\
    (exists h, hole (abs m) h /\ map (fun e => vp (abs m) (og (abs m) e)) h = map Some (dodeca_top r)) /\
    exists f1 f2, f1 <> f2 /\ lvf (abs m) f1 = true /\ lvf (abs m) f2 = true /\ reach (nx (abs m)) (fe (abs m) f1) (fe (abs m) f2).
Proof. exact dodecahedron_release. Qed.
Print Assumptions C69_release_refuted.

(** The same calls with the start edge from the first to the second corner make twelve pentagons that close up, for all payloads. *)
Theorem C69_mesh : forall (VP EP FP : Type) (dE : EP) (dF : FP) (c : cfg) (top mid bottom : list VP),
  length top = 5%nat -> length mid = 10%nat -> length bottom = 5%nat -> (60 <= capE c)%nat -> (20 <= capV c)%nat -> (12 <= capF c)%nat ->
  (exists m : mesh VP EP FP, dodeca_mesh dE dF c 0 1 top mid bottom = Ok m /\ wf m /\ solid (abs m) dF (top ++ mid ++ bottom) dodeca_polys 30) /\
  (dbg c = true -> dodeca_mesh dE dF c 1 0 top mid bottom = Panic).
Proof. exact dodeca_any. Qed.
Print Assumptions C69_mesh.

(** With the first five points in the other direction this is the regular dodecahedron: convex, faces turned outwards, all sides equal. Its
    circumscribed sphere has the radius [sqrt 3 * r], not [r]. *)
Theorem C69_geometry : forall (EP FP : Type) (dE : EP) (dF : FP) (c : cfg) (r : R),
  0 < r -> (60 <= capE c)%nat -> (20 <= capV c)%nat -> (12 <= capF c)%nat ->
  exists m : mesh vec3 EP FP, dodeca_mesh dE dF c 0 1 (dodeca_top_turned r) (dodeca_mid r) (dodeca_bottom r) = Ok m /\ wf m /\
    solid (abs m) dF (dodeca_points r) dodeca_polys 30 /\ convex_solid (dodeca_points r) dodeca_polys /\
    sides (dodeca_points r) dodeca_polys (2 * r / golden) /\ Forall (on_sphere zero3 (sqrt 3 * r)) (dodeca_points r).
Proof. exact dodeca_top_good. Qed.
Print Assumptions C69_geometry.

(** In the order of the code the sides are not equal, whatever the radius: changing the start edge alone is not enough. *)
Theorem C69_positions_refuted : forall r s, 0 < r -> ~ sides (dodeca_top r ++ dodeca_mid r ++ dodeca_bottom r) dodeca_polys s.
Proof. exact dodeca_unfit. Qed.
Print Assumptions C69_positions_refuted.

(** The capacities and the reversed list of points are as expected; a concrete mesh. *)
Example C69_example : (60 <= capE c0 /\ 20 <= capV c0 /\ 12 <= capF c0)%nat /\ dbg c0 = true /\
  dodeca_top_turned 1 = map (fun i => nth i (dodeca_top 1) zero3) [1; 0; 4; 3; 2]%nat /\
  (exists m : mesh nat nat nat, dodeca_mesh 0%nat 7%nat c0 0 1 (seq 0 5) (seq 5 10) (seq 15 5) = Ok m /\ wf m /\ num_faces m = 12%nat).
Proof.
  split; [repeat split; apply Nat.leb_le; vm_compute; reflexivity|]. split; [reflexivity|]. split; [reflexivity|].
  eexists. split; [vm_compute; reflexivity|]. split; [apply wfb_ok; vm_compute; reflexivity|vm_compute; reflexivity].
Qed.
