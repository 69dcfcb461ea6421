(** Property C87: centroids, orientation of polygons, segments. *)
From Coq Require Import List Arith Reals.
From Verif Require Import Base DVec Mesh MeshMore Spec MeshSpec TopoSpec BuildSpec Alg AlgSpec Transform TransSpec Normals NormalsSpec PlaneSpec SolidSpec PlaneEx Centroid CentroidSpec CentroidProofs CentroidEx.
Import ListNotations.
Local Open Scope nat_scope.

(** C87. The centroid of a mesh is the point about which the positions of its vertices cancel; a mesh without
    vertices gets [nan]. *)
Theorem C87_mesh : forall (FP : Type) nan (m : mesh (pnu R) (curve R) FP) vs ps, wf m -> exactly (lvv (abs m)) vs -> map (vp (abs m)) vs = map Some ps ->
  (ps <> [] -> centre (map (@u_pos R) ps) (mesh_centroid nan m)) /\ (ps = [] -> forall i, mesh_centroid nan m i = nan i).
Proof. exact (@mesh_centroid_ok). Qed.
Print Assumptions C87_mesh.
Theorem C87_face : forall (FP : Type) nan (m : mesh (pnu R) (curve R) FP) f vs ps, wf m -> lvf (abs m) f = true ->
  boundary_vertices (abs m) f vs -> map (vp (abs m)) vs = map Some ps ->
  exists c, face_centroid nan m f = Ok c /\ centre (map (@u_pos R) ps) c.
Proof. exact (@face_centroid_ok). Qed.
Print Assumptions C87_face.
Theorem C87_edge : forall (FP : Type) (m : mesh (pnu R) (curve R) FP) e, wf m -> lv (abs m) e = true ->
  exists p q c, vp (abs m) (og (abs m) e) = Some p /\ vp (abs m) (target (abs m) e) = Some q /\
    edge_centroid m e = Ok c /\ centre [u_pos p; u_pos q] c.
Proof. exact (@edge_centroid_ok). Qed.
Print Assumptions C87_edge.

(** That point is unique, lies in every half-space that contains the points, and minimises the sum of the squared
    distances. *)
Theorem C87_unique : forall ps c d i, centre ps c -> centre ps d -> i < 3 -> c i = d i.
Proof. exact centre_unique. Qed.
Print Assumptions C87_unique.
Theorem C87_inside : forall ps c n k, centre ps c -> (forall p, In p ps -> (rdot n p <= k)%R) -> (rdot n c <= k)%R.
Proof. exact centre_inside. Qed.
Print Assumptions C87_inside.
Theorem C87_least : forall ps c q, centre ps c -> (spread ps c <= spread ps q)%R.
Proof. exact centre_least. Qed.
Print Assumptions C87_least.

(** Transforming the mesh transforms the centroids. *)
Theorem C87_mesh_image : forall (FP : Type) nan t (m : mesh (pnu R) (curve R) FP) v i, wf m -> lvv (abs m) v = true -> i < 3 ->
  mesh_centroid nan (t_transform 0%R Rplus Rmult 3 t m) i = a_apply 0%R Rplus Rmult 3 t (mesh_centroid nan m) i.
Proof. exact (@mesh_centroid_image). Qed.
Print Assumptions C87_mesh_image.
Theorem C87_face_image : forall (FP : Type) nan t (m : mesh (pnu R) (curve R) FP) f, wf m -> lvf (abs m) f = true ->
  exists c d, face_centroid nan m f = Ok c /\ face_centroid nan (t_transform 0%R Rplus Rmult 3 t m) f = Ok d /\
    forall i, i < 3 -> d i = a_apply 0%R Rplus Rmult 3 t c i.
Proof. exact (@face_centroid_image). Qed.
Print Assumptions C87_face_image.

(** The centroid of a straight edge is the middle of it. The centroid of a quadratic edge is not, unless its
    control point is the middle of its ends. *)
Theorem C87_straight : forall (FP : Type) (m : mesh (pnu R) (curve R) FP) e x, wf m -> lv (abs m) e = true -> ep (abs m) e = Some (Linear R) ->
  edge_centroid m e = Ok x -> exists y, edge_point 1%R Rplus Rmult Rminus m e (/ 2)%R = Ok y /\ forall i, x i = y i.
Proof. exact (@edge_centroid_straight). Qed.
Print Assumptions C87_straight.
Theorem C87_curved : forall (FP : Type) (m : mesh (pnu R) (curve R) FP) e x c, wf m -> lv (abs m) e = true -> ep (abs m) e = Some (Quadratic c) ->
  edge_centroid m e = Ok x -> exists y, edge_point 1%R Rplus Rmult Rminus m e (/ 2)%R = Ok y /\ forall i, x i = y i <-> c i = x i.
Proof. exact (@edge_centroid_curved). Qed.
Print Assumptions C87_curved.

(** Polygons: every polygon is counter-clockwise or clockwise, both exactly if its signed area is zero; reversing
    exchanges the two, starting elsewhere changes nothing. *)
Theorem C87_orientation : forall ge p, exists a b c, poly_area ge p = Ok a /\ is_ccw ge p = Ok b /\ is_cw ge p = Ok c /\ orb b c = true /\
  (andb b c = true <-> area2 p = 0%R) /\ (b = true <-> (0 <= area2 p)%R) /\ (c = true <-> (area2 p <= 0)%R) /\ a = Rabs (area2 p).
Proof. exact orientation_area. Qed.
Print Assumptions C87_orientation.
Theorem C87_reverse : forall ge p, exists b, is_ccw ge p = Ok b /\ is_cw ge (rev p) = Ok b.
Proof. exact orientation_reverse. Qed.
Print Assumptions C87_reverse.
Theorem C87_rotate : forall ge p q, exists b c, is_ccw ge (p ++ q) = Ok b /\ is_ccw ge (q ++ p) = Ok b /\ is_cw ge (p ++ q) = Ok c /\ is_cw ge (q ++ p) = Ok c.
Proof. exact orientation_rotate. Qed.
Print Assumptions C87_rotate.

(** Segments: the midpoint is halfway between the ends. *)
Theorem C87_midpoint : forall p q, let c := seg_midpoint p q in
  seg_length p c = seg_length c q /\ seg_length p q = (2 * seg_length p c)%R /\ (seg_length p q * seg_length p q = seg_length_squared p q)%R.
Proof. exact midpoint_ok. Qed.
Print Assumptions C87_midpoint.

(** The upright square, whose centre is (1, 0, 1), and a segment of length five. *)
Example C87_example : wf (wall 2) /\ lvf (abs (wall 2)) 0 = true /\ exactly (lvv (abs (wall 2))) [0; 1; 2; 3] /\
  map (vp (abs (wall 2))) [0; 1; 2; 3] = map Some [at_ 0 0 0; at_ 2 0 0; at_ 2 0 2; at_ 0 0 2] /\
  centre (map (@u_pos R) [at_ 0 0 0; at_ 2 0 0; at_ 2 0 2; at_ 0 0 2]) (fun i => match i with 1 => 0 | _ => 1 end)%R /\
  lv (abs (wall 2)) 0 = true /\ ep (abs (wall 2)) 0 = Some (Linear R) /\ seg_length (0, 0)%R (3, 4)%R = 5%R.
Proof. exact wall_centre. Qed.
