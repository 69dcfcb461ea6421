(** Property C62: replacing curved edges by line segments. *)
From Coq Require Import List Arith ZArith QArith Lia Bool.
From Verif Require Import Base DVec Mesh Spec MeshMore MeshSpec BuildSpec RefineSpec MeshEx Alg Transform CurveSpec CurveProofs
  Flatten FlattenSpec FlattenProofs TransEx FlattenEx.
Import ListNotations.
Local Open Scope nat_scope.

(** C62. Let [pts e] be the inner points of the flattening of every curved half-edge [e]. If at the
    origin of every half-edge with inner points exactly one other half-edge leaves, and its twin is not
    curved, then exactly those half-edges are divided, at exactly these points. *)
Theorem C62_flatten : forall (R : Type) (zero : R) (FP : Type) flat c (m : mesh (pnu R) (curve R) FP) pts a b d, wf m ->
  (forall e, curved (abs m) e -> inner flat (abs m) e (pts e)) -> (forall e, ~ curved (abs m) e -> pts e = []) ->
  (forall e, pts e <> [] -> two_edges (abs m) e /\ ~ curved (abs m) (tw (abs m) e)) ->
  fits c m (2 * list_sum (map (fun e => length (pts e)) (edge_ids m)) + a) (list_sum (map (fun e => length (pts e)) (edge_ids m)) + b) d ->
  exists m' L es vs, flatten_curved_edges zero flat c m = Ok m' /\ wf m' /\ fits c m' a b d /\
    (forall e, In e L <-> pts e <> []) /\
    divided_all (abs m) (abs m') (Linear R) L es vs (fun e => map (u_from_pos zero) (pts e)).
Proof. exact @flatten_ok. Qed.
Print Assumptions C62_flatten.

(** Exactly the curved half-edges without inner points are still curved. *)
Theorem C62_left : forall (R : Type) (zero : R) (FP : Type) flat (m m' : mesh (pnu R) (curve R) FP) pts L es vs, wf m -> wf m' ->
  (forall e, curved (abs m) e -> inner flat (abs m) e (pts e)) -> (forall e, ~ curved (abs m) e -> pts e = []) ->
  (forall e, In e L <-> pts e <> []) ->
  divided_all (abs m) (abs m') (Linear R) L es vs (fun e => map (u_from_pos zero) (pts e)) ->
  (forall e, curved (abs m') e <-> curved (abs m) e /\ pts e = []) /\
  (has_curved_edges m' = true <-> exists e, curved (abs m) e /\ pts e = []).
Proof.
  intros R zero FP flat m m' pts L es vs Wm Wm' IN NC IL D. exact (flatten_left_has Wm Wm' IN NC IL D).
Qed.
Print Assumptions C62_left.

(** The flattenings exist for every mesh and every positive tolerance. *)
Theorem C62_points_exist : forall D err2 (m : mesh (pnu Q) (curve Q) nat), wf m -> (0 < err2)%Q ->
  exists fuel pts, (forall e, curved (abs m) e -> inner (q_flat fuel D err2) (abs m) e (pts e)) /\
    (forall e, ~ curved (abs m) e -> pts e = []).
Proof. exact flatten_defined. Qed.
Print Assumptions C62_points_exist.

(** Every point of a quadratic edge that was divided is within the tolerance of a point of a segment
    between two consecutive vertices that replace it. *)
Theorem C62_error : forall fuel D err2 (m m' : mesh (pnu Q) (curve Q) nat) pts L es vs, wf m -> (0 <= err2)%Q ->
  (forall e, curved (abs m) e -> inner (q_flat fuel D err2) (abs m) e (pts e)) ->
  (forall e, ~ curved (abs m) e -> pts e = []) -> (forall e, In e L <-> pts e <> []) ->
  divided_all (abs m) (abs m') (Linear Q) L es vs (fun e => map (u_from_pos 0%Q) (pts e)) ->
  forall e a b cv t, In e L -> ends (abs m) e a b cv -> (forall c1 c2, cv <> Cubic c1 c2) -> (0 <= t)%Q -> (t <= 1)%Q ->
    exists p x y q u v l, og (abs m) e :: vs e ++ [target (abs m) e] = p ++ x :: y :: q /\
      located (abs m') x u /\ located (abs m') y v /\ (0 <= l)%Q /\ (l <= 1)%Q /\
      (norm2 D (qpoint cv a b t) (qlerp u v l) <= err2)%Q.
Proof. exact flatten_close. Qed.
Print Assumptions C62_error.

(** The documented result, a mesh without curved edges, is not always reached: a curved edge that is
    straight enough keeps its curve. *)
Theorem C62_still_curved_refuted :
  ~ (forall fuel D err2 c m m', wf m -> (0 < err2)%Q -> q_flatten fuel D err2 c m = Ok m' -> has_curved_edges m' = false).
Proof. exact still_curved. Qed.
Print Assumptions C62_still_curved_refuted.
(** If both half-edges of an edge store its curve, a new vertex may lie on no edge of the old mesh. *)
Theorem C62_both_curved_refuted : wf ex_both /\ exists m', q_flatten 5 2 1%Q c0 ex_both = Ok m' /\
  exists v q, lvv (abs ex_both) v = false /\ located (abs m') v q /\
    forall e t p, q_point ex_both e t = Ok p -> ~ (p 0%nat == q 0%nat /\ p 1%nat == q 1%nat)%Q.
Proof. exact both_curved. Qed.
Print Assumptions C62_both_curved_refuted.
(** If three edges meet at the origin of a curved half-edge, the mesh is broken. *)
Theorem C62_branching_refuted : wf ex_branch /\ exists m', q_flatten 5 2 1%Q c0 ex_branch = Ok m' /\ ~ wf m'.
Proof. exact branch_breaks. Qed.
Print Assumptions C62_branching_refuted.

Example C62_example : wf ex_arch /\
  (forall e, curved (abs ex_arch) e -> inner (q_flat 5 2 1%Q) (abs ex_arch) e (arch_pts e)) /\
  (forall e, ~ curved (abs ex_arch) e -> arch_pts e = []) /\
  (forall e, arch_pts e <> [] -> two_edges (abs ex_arch) e /\ ~ curved (abs ex_arch) (tw (abs ex_arch) e)) /\
  fits c0 ex_arch (2 * list_sum (map (fun e => length (arch_pts e)) (edge_ids ex_arch)) + 0) (list_sum (map (fun e => length (arch_pts e)) (edge_ids ex_arch)) + 0) 0 /\
  length (arch_pts 0) = 1 /\ (exists cv, ep (abs ex_arch) 0 = Some cv /\ forall c1 c2, cv <> Cubic c1 c2).
Proof. exact flatten_ex. Qed.
