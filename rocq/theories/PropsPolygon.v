(** Property theorems about the point-in-polygon and the diagonal test. *)
From Coq Require Import QArith List Bool ZArith.
From Verif Require Import Base Mesh Tess GeoSpec Geo GeoMath GeoMathSpec GeoMathProofs TriSpec QuadProofs Polygon InsideSpec InsideProofs MathEx InsideEx.
Import ListNotations.

(** C59. *)
Theorem C59_contains : forall pos neg, sign_test pos -> neg_test neg -> forall ps T p,
  triangulates ps T -> same_side T -> off_boundary p ps ->
  exists r, contains pos neg ps p = Ok r /\ (r = true <-> exists t, In t T /\ in_triangle p t).
Proof. exact contains_ok. Qed.
Print Assumptions C59_contains.
Theorem C59_winding : forall pos neg, sign_test pos -> neg_test neg -> forall ps T zs p,
  triangulates ps T -> off_boundary p ps -> Forall2 (winds p) T zs ->
  contains pos neg ps p = Ok (negb (fold_right Z.add 0 zs =? 0)%Z).
Proof. exact contains_winding. Qed.
Print Assumptions C59_winding.
Theorem C59_valid_diagonal : forall pos neg, sign_test pos -> neg_test neg -> forall eps ps T i j a b,
  (0 <= eps)%Q -> triangulates ps T -> same_side T ->
  nth_error ps i = Some a -> nth_error ps j = Some b -> i <> j -> ~ neighbours (length ps) i j ->
  off_boundary (midpoint a b) ps ->
  exists r, valid_diagonal pos neg eps ps i j = Ok r /\
    (r = true <-> (exists t, In t T /\ in_triangle (midpoint a b) t) /\
       forall k s t, apart (length ps) i j k -> nth_error ps k = Some s ->
         nth_error ps (S k mod length ps) = Some t -> ~ crosses eps a b s t).
Proof. exact valid_diagonal_ok. Qed.
Print Assumptions C59_valid_diagonal.
Theorem C59_boundary_refuted : exists ps T p q, triangulates ps T /\ same_side T /\
  (exists a b, In (a, b) (poly_edges ps) /\ on_segment 0 p a b) /\
  (exists a b, In (a, b) (poly_edges ps) /\ on_segment 0 q a b) /\
  forall pos neg, sign_test pos -> neg_test neg -> contains pos neg ps p = Ok true /\ contains pos neg ps q = Ok false.
Proof. exact boundary_mixed. Qed.
Print Assumptions C59_boundary_refuted.
Theorem C59_diagonal_refuted : exists ps T i j a b, triangulates ps T /\ nth_error ps i = Some a /\ nth_error ps j = Some b /\
  i <> j /\ ~ neighbours (length ps) i j /\
  (forall x, on_segment 0 x a b -> exists s t, In (s, t) (poly_edges ps) /\ on_segment 0 x s t) /\
  forall pos neg eps, sign_test pos -> neg_test neg -> (0 <= eps)%Q -> valid_diagonal pos neg eps ps i j = Ok true.
Proof. exact diagonal_flat. Qed.
Print Assumptions C59_diagonal_refuted.
Example C59_example : sign_test posQ /\ neg_test negQ /\ triangulates ell ell_fan /\ same_side ell_fan /\
  off_boundary (1, 3)%Q ell /\ off_boundary (3, 3)%Q ell /\
  contains posQ negQ ell (1, 3)%Q = Ok true /\ contains posQ negQ ell (3, 3)%Q = Ok false.
Proof. exact (conj posQ_sign (conj posQ_neg (conj ell_tri (conj ell_side ell_ex)))). Qed.
Example C59_winding_example : triangulates bow bow_tris /\
  off_boundary (2, 1)%Q bow /\ Forall2 (winds (2, 1)%Q) bow_tris [1; -1]%Z /\
  off_boundary (7 # 2, 3 # 2)%Q bow /\ Forall2 (winds (7 # 2, 3 # 2)%Q) bow_tris [0; -1]%Z /\
  contains posQ negQ bow (2, 1)%Q = Ok false /\ contains posQ negQ bow (7 # 2, 3 # 2)%Q = Ok true.
Proof. exact (conj bow_tri bow_ex). Qed.
Example C59_diagonal_example : ~ neighbours 6 0 2 /\ ~ neighbours 6 1 5 /\ off_boundary (midpoint (2, 2) (0, 4))%Q ell /\
  off_boundary (midpoint (2, 4) (4, 2))%Q ell /\
  valid_diagonal posQ negQ (1 # 1000000) ell 0 2 = Ok true /\ valid_diagonal posQ negQ (1 # 1000000) ell 1 5 = Ok false.
Proof. exact ell_diag. Qed.
