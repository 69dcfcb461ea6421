(** Property C77: turning a flat mesh with curved edges into a mesh in more dimensions. *)
From Coq Require Import List Arith ZArith QArith Lia Bool.
From Verif Require Import Base DVec Mesh Spec MeshMore MeshSpec BuildSpec RefineSpec MeshEx Alg Transform CurveSpec CurveProofs
  Flatten FlattenSpec TransEx FlattenEx ToNd ToNdSpec ToNdProofs ToNdEx.
Import ListNotations.
Local Open Scope nat_scope.

(** C77. Under the conditions of C62 and C15 the result is a consistent mesh, and it is the old mesh with every curved
    half-edge replaced by a path through the points of its flattening, in the plane of the first two coordinates. *)
Theorem C77_to_nd : forall (R : Type) (zero : R) (FP : Type) flat c (m : mesh (pnu R) (curve R) FP) pts, wf m -> importable (abs m) ->
  (forall e, curved (abs m) e -> inner flat (abs m) e (pts e)) -> (forall e, ~ curved (abs m) e -> pts e = []) ->
  (forall e, pts e <> [] -> two_edges (abs m) e /\ ~ curved (abs m) (tw (abs m) e)) ->
  fits c m (2 * list_sum (map (fun e => length (pts e)) (edge_ids m))) (list_sum (map (fun e => length (pts e)) (edge_ids m))) 0 ->
  exists (m' : mesh (pnu R) unit unit) rv rf pc ws, to_nd zero flat c m = Ok m' /\ wf m' /\
    spread_out zero (abs m) (abs m') pts rv rf pc ws.
Proof. exact @to_nd_ok. Qed.
Print Assumptions C77_to_nd.

(** Every point of every quadratic edge, also of those that are not divided, is within the tolerance of a point
    of a segment of the path that replaces the edge. *)
Theorem C77_tolerance : forall fuel D err2 (m : mesh (pnu Q) (curve Q) nat) EP FP (h : graph (pnu Q) EP FP) pts rv rf pc ws,
  wf m -> (0 <= err2)%Q ->
  (forall e, curved (abs m) e -> inner (q_flat fuel 2 err2) (abs m) e (pts e)) ->
  (forall e, ~ curved (abs m) e -> pts e = []) ->
  (forall e, pts e <> [] -> ~ curved (abs m) (tw (abs m) e)) ->
  spread_out 0%Q (abs m) h pts rv rf pc ws ->
  forall e a b cv t, curved (abs m) e -> ends (abs m) e a b cv -> (forall c1 c2, cv <> Cubic c1 c2) -> (0 <= t)%Q -> (t <= 1)%Q ->
    exists p x y q u v l, rv (og (abs m) e) :: ws e ++ [rv (target (abs m) e)] = p ++ x :: y :: q /\
      place h x = Some u /\ place h y = Some v /\ (0 <= l)%Q /\ (l <= 1)%Q /\
      (norm2 D (flat_point 0%Q (qpoint cv a b t)) (qlerp u v l) <= err2)%Q.
Proof. exact to_nd_close. Qed.
Print Assumptions C77_tolerance.

(** A mesh with an isolated vertex is consistent, but converting it panics. *)
Theorem C77_isolated_refuted : wf ex_single /\ (forall e, curved (abs ex_single) e -> curved (abs ex_arch) e) /\
  q_to_nd 5 1%Q c0 ex_single = Panic.
Proof. exact single_panics. Qed.
Print Assumptions C77_isolated_refuted.
(** If three edges meet at the origin of a curved half-edge, the result is broken. *)
Theorem C77_branching_refuted : wf ex_branch /\ exists m', q_to_nd 5 1%Q c0 ex_branch = Ok m' /\ ~ wf m'.
Proof. exact branch_nd. Qed.
Print Assumptions C77_branching_refuted.

Example C77_example : wf ex_arch /\ importable (abs ex_arch) /\
  (forall e, curved (abs ex_arch) e -> inner (q_flat 5 2 1%Q) (abs ex_arch) e (arch_pts e)) /\
  (forall e, ~ curved (abs ex_arch) e -> arch_pts e = []) /\
  (forall e, arch_pts e <> [] -> two_edges (abs ex_arch) e /\ ~ curved (abs ex_arch) (tw (abs ex_arch) e)) /\
  fits c0 ex_arch (2 * list_sum (map (fun e => length (arch_pts e)) (edge_ids ex_arch))) (list_sum (map (fun e => length (arch_pts e)) (edge_ids ex_arch))) 0 /\
  length (arch_pts 0) = 1 /\ curved (abs ex_arch) 0.
Proof. exact to_nd_ex. Qed.
