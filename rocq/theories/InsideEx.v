(** Instances and counterexamples for the point-in-polygon test. *)
From Coq Require Import QArith List Bool ZArith Lia Lqa Permutation.
From Verif Require Import Base Mesh Tess GeoSpec Geo GeoMath GeoMathSpec GeoMathProofs TriSpec Polygon InsideSpec QuadProofs MathEx.
Import ListNotations.
Local Open Scope Q_scope.

Definition negQ (x : Q) : bool := posQ (- x).
Lemma tri_fan (a : pt) l k b T : tri a l k T -> tri a (l ++ [k]) b ((a, k, b) :: T).
Proof. intros H. rewrite <- (app_nil_r T). apply (tri_node H). constructor. Qed.
(** an L shape, counter-clockwise, starting at the inner corner *)
Definition ell : list pt := [(2, 2); (2, 4); (0, 4); (0, 0); (4, 0); (4, 2)].
Definition ell_fan : list (pt * pt * pt) :=
  [((2, 2), (4, 0), (4, 2)); ((2, 2), (0, 0), (4, 0)); ((2, 2), (0, 4), (0, 0)); ((2, 2), (2, 4), (0, 4))].
Lemma ell_tri : triangulates ell ell_fan.
Proof.
  exists (2, 2), [(2, 4); (0, 4); (0, 0); (4, 0)], (4, 2). split; [reflexivity|].
  apply (@tri_fan (2, 2) [(2, 4); (0, 4); (0, 0)] (4, 0) (4, 2)).
  apply (@tri_fan (2, 2) [(2, 4); (0, 4)] (0, 0) (4, 0)).
  apply (@tri_fan (2, 2) [(2, 4)] (0, 4) (0, 0)).
  apply (@tri_fan (2, 2) [] (2, 4) (0, 4)). constructor.
Qed.
Lemma ell_side : same_side ell_fan.
Proof. left. intros t I. cbn in I. repeat destruct I as [<-|I]; try reflexivity; try contradiction. Qed.
Ltac off := repeat match goal with |- context [midpoint ?a ?b] => let m := eval vm_compute in (midpoint a b) in change (midpoint a b) with m end;
  let a := fresh in let b := fresh in let I := fresh in let t := fresh in
  intros a b I (t & ? & ? & ? & ?); cbn in I;
  repeat (destruct I as [I|I]; [injection I as <- <-; cbn in *; lra|]); exact I.
Lemma ell_ex : off_boundary (1, 3) ell /\ off_boundary (3, 3) ell /\
  contains posQ negQ ell (1, 3) = Ok true /\ contains posQ negQ ell (3, 3) = Ok false.
Proof. split; [off|]. split; [off|]. split; reflexivity. Qed.

(** corner 2 = (0, 4) sees corner 0; corner 1 = (2, 4) and corner 5 = (4, 2) do not see each other *)
Lemma ell_diag : ~ neighbours 6 0 2 /\ ~ neighbours 6 1 5 /\ off_boundary (midpoint (2, 2) (0, 4)) ell /\
  off_boundary (midpoint (2, 4) (4, 2)) ell /\
  valid_diagonal posQ negQ (1 # 1000000) ell 0 2 = Ok true /\ valid_diagonal posQ negQ (1 # 1000000) ell 1 5 = Ok false.
Proof. unfold neighbours. split; [lia|]. split; [lia|]. split; [off|]. split; [off|]. split; vm_compute; reflexivity. Qed.

(** a bow tie *)
Definition bow : list pt := [(0, 0); (4, 4); (4, 0); (0, 4)].
Definition bow_tris : list (pt * pt * pt) := [((0, 0), (4, 0), (0, 4)); ((0, 0), (4, 4), (4, 0))].
Lemma bow_tri : triangulates bow bow_tris.
Proof.
  exists (0, 0), [(4, 4); (4, 0)], (0, 4). split; [reflexivity|].
  apply (@tri_fan (0, 0) [(4, 4)] (4, 0) (0, 4)).
  apply (@tri_fan (0, 0) [] (4, 4) (4, 0)). constructor.
Qed.
Lemma bow_ex : off_boundary (2, 1) bow /\ Forall2 (winds (2, 1)) bow_tris [1; -1]%Z /\
  off_boundary (7 # 2, 3 # 2) bow /\ Forall2 (winds (7 # 2, 3 # 2)) bow_tris [0; -1]%Z /\
  contains posQ negQ bow (2, 1) = Ok false /\ contains posQ negQ bow (7 # 2, 3 # 2) = Ok true.
Proof.
  split; [off|]. split.
  { constructor; [|constructor; [|constructor]].
    - apply winds_ccw; [reflexivity|]. exists (1 # 4), (1 # 2), (1 # 4). repeat split.
    - apply winds_cw; [reflexivity|]. exists (1 # 2), (1 # 4), (1 # 4). repeat split. }
  split; [off|]. split.
  { constructor; [|constructor; [|constructor]].
    - apply winds_not; [discriminate|]. intros (u & v & w & ? & ? & ? & ? & ? & ?). cbn in *. lra.
    - apply winds_cw; [reflexivity|]. exists (1 # 8), (3 # 8), (1 # 2). repeat split. }
  split; reflexivity.
Qed.

(** On the boundary the answer is neither always yes nor always no. *)
Lemma boundary_mixed : exists ps T p q, triangulates ps T /\ same_side T /\
  (exists a b, In (a, b) (poly_edges ps) /\ on_segment 0 p a b) /\
  (exists a b, In (a, b) (poly_edges ps) /\ on_segment 0 q a b) /\
  forall pos neg, sign_test pos -> neg_test neg -> contains pos neg ps p = Ok true /\ contains pos neg ps q = Ok false.
Proof.
  exists [(0, 0); (2, 0); (2, 2); (0, 2)], [((0, 0), (2, 2), (0, 2)); ((0, 0), (2, 0), (2, 2))], (1, 0), (1, 2).
  split. { exists (0, 0), [(2, 0); (2, 2)], (0, 2). split; [reflexivity|].
    apply (@tri_fan (0, 0) [(2, 0)] (2, 2) (0, 2)).
    apply (@tri_fan (0, 0) [] (2, 0) (2, 2)). constructor. }
  split. { left. intros t I. cbn in I. repeat destruct I as [<-|I]; try reflexivity; contradiction. }
  split. { exists (0, 0), (2, 0). split; [left; reflexivity|]. exists (1 # 2). cbn. repeat split; lra. }
  split. { exists (2, 2), (0, 2). split; [right; right; left; reflexivity|]. exists (1 # 2). cbn. repeat split; lra. }
  intros pos neg SP SN. unfold contains, foldM, crossing. cbn.
  rewrite (proj1 SP) by reflexivity. rewrite (neg_false neg SN) by reflexivity. split; reflexivity.
Qed.
(** An accepted diagonal between corners that are no neighbours can run along the boundary. *)
Lemma diagonal_flat : exists ps T i j a b, triangulates ps T /\ nth_error ps i = Some a /\ nth_error ps j = Some b /\
  i <> j /\ ~ neighbours (length ps) i j /\
  (forall x, on_segment 0 x a b -> exists s t, In (s, t) (poly_edges ps) /\ on_segment 0 x s t) /\
  forall pos neg eps, sign_test pos -> neg_test neg -> 0 <= eps -> valid_diagonal pos neg eps ps i j = Ok true.
Proof.
  set (ps := [(0, 0); (1, 0); (2, 0); (2, 2); (0, 2)] : list pt).
  exists ps, [((0, 0), (2, 2), (0, 2)); ((0, 0), (2, 0), (2, 2)); ((0, 0), (1, 0), (2, 0))], 0%nat, 2%nat, (0, 0), (2, 0).
  split. { exists (0, 0), [(1, 0); (2, 0); (2, 2)], (0, 2). split; [reflexivity|].
    apply (@tri_fan (0, 0) [(1, 0); (2, 0)] (2, 2) (0, 2)).
    apply (@tri_fan (0, 0) [(1, 0)] (2, 0) (2, 2)).
    apply (@tri_fan (0, 0) [] (1, 0) (2, 0)). constructor. }
  split; [reflexivity|]. split; [reflexivity|]. split; [discriminate|]. split; [unfold neighbours; cbn; lia|]. split.
  { intros x (t & A & B & C & D). cbn in *. destruct (Qlt_le_dec t (1 # 2)) as [L|L].
    - exists (0, 0), (1, 0). split; [left; reflexivity|]. exists (2 * t). cbn. repeat split; lra.
    - exists (1, 0), (2, 0). split; [right; left; reflexivity|]. exists (2 * t - 1). cbn. repeat split; lra. }
  intros pos neg eps SP SN L.
  assert (X : intersect_line (0, 0) (2, 0) (2, 2) (0, 2) eps eps = None).
  { unfold intersect_line. cbv zeta. replace (Qle_bool _ eps) with true; [reflexivity|]. symmetry. apply Qle_bool_iff. exact L. }
  unfold valid_diagonal, contains, crossing. cbn -[intersect_line].
  rewrite (proj1 SP) by reflexivity. rewrite (neg_false neg SN) by reflexivity. cbn -[intersect_line]. rewrite X. reflexivity.
Qed.
