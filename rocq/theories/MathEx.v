(** Instances and counterexamples for the arithmetic properties. *)
From Coq Require Import Permutation List Arith ZArith QArith Bool Ring_theory InitialRing Setoid Lia Lqa.
From Verif Require Import Base Mesh Tess Alg AlgSpec AlgProofs AffineProofs TriSpec TriFacts CurveSpec CurveProofs GeoSpec Geo QuadProofs GeoMath GeoMathSpec GeoMathProofs.
Import ListNotations.

Lemma Z_ring : is_ring 0%Z 1%Z Z.add Z.mul Z.sub Z.opp eq.
Proof. split; [|split]; [apply eq_equivalence|apply Zth_ext || (constructor; congruence)|apply Zth]. Qed.
Lemma Q_ring : is_ring 0 1 Qplus Qmult Qminus Qopp Qeq.
Proof.
  split; [|split]; [apply Q_Setoid|constructor; [apply Qplus_comp|apply Qmult_comp|apply Qopp_comp]|].
  constructor; intros; try ring.
Qed.
Local Open Scope Z_scope.
Definition zv (l : list Z) : nat -> Z := fun i => nth i l 0.
Definition rot90 : affine Z := mkA (fun i j => match i, j with 0%nat, 1%nat => -1 | 1%nat, 0%nat => 1 | _, _ => 0 end) (zv [3; 4]).
Definition zchain := a_chain 0 1 Z.add Z.mul 2 (Z.eqb 0).
Lemma affine_ex : exists c, zchain rot90 (a_from_scale 0 (zv [2; 5])) = Ok c /\
  map (a_apply 0 Z.add Z.mul 2 c (zv [1; 1])) [0%nat; 1%nat] = [4; 25].
Proof. eexists. split; reflexivity. Qed.
Lemma scale_wrong : ~ (forall (t : affine Z) s v i, (i < 2)%nat ->
  a_apply 0 Z.add Z.mul 2 (a_with_scale 0 Z.add Z.mul 2 t s) v i = s i * a_apply 0 Z.add Z.mul 2 t v i).
Proof. intros H. specialize (H rot90 (zv [2; 1]) (zv [1; 0]) 1%nat (Nat.lt_succ_diag_r 1)). discriminate H. Qed.
Lemma m5_chain_wrong : exists t o, affine5 0 1 eq t /\ affine5 0 1 eq o /\
  ~ (forall v i, (i < 4)%nat -> m5_apply 0 1 Z.add Z.mul (m5_chain 0 Z.add Z.mul t o) v i =
     m5_apply 0 1 Z.add Z.mul o (m5_apply 0 1 Z.add Z.mul t v) i).
Proof.
  exists (m5_from_translation 0 1 (zv [1; 0; 0; 0])), (m5_from_scale 0 1 (zv [2; 2; 2; 2])).
  split; [repeat split|]. split; [repeat split|]. intros H. specialize (H (zv []) 0%nat ltac:(lia)). discriminate H.
Qed.
Lemma m5_scale_wrong : exists t, affine5 0 1 eq t /\
  ~ (forall s v i, (i < 4)%nat -> m5_apply 0 1 Z.add Z.mul (m5_with_scale Z.mul t s) v i = s i * m5_apply 0 1 Z.add Z.mul t v i).
Proof.
  exists (m5_from_translation 0 1 (zv [1; 0; 0; 0])). split; [repeat split|].
  intros H. specialize (H (zv [2; 2; 2; 2]) (zv []) 0%nat ltac:(lia)). discriminate H.
Qed.
Lemma m5_ex : exists t o, affine5 0 1 eq t /\ affine5 0 1 eq o /\
  m5_apply 0 1 Z.add Z.mul (m5_chain 0 Z.add Z.mul t o) (zv [5; 6; 7; 8]) 2%nat = 15.
Proof.
  exists (m5_from_translation 0 1 (zv [0; 0; 1; 0])), (m5_from_scale 0 1 (zv [2; 2; 2; 2])). repeat split.
Qed.
Definition sq (x y : Z) : nat -> Z := zv [x; y; x + y].
Lemma planar_ex : (forall v, In v [sq 0 0; sq 2 0; sq 2 2; sq 0 2] -> dot3 Z.add Z.mul (zv [1; 1; -1]) v = 0) /\
  map (newell 0 Z.add Z.mul Z.sub (-1) [sq 0 0; sq 2 0; sq 2 2; sq 0 2]) [0; 1; 2]%nat = [-8; -8; 8].
Proof. split; [|reflexivity]. cbn. intros v [<-|[<-|[<-|[<-|[]]]]]; reflexivity. Qed.
Lemma posQ_neg : neg_test (fun x => posQ (- x)%Q).
Proof.
  unfold neg_test. destruct posQ_sign as [A B]. split; intros x H; [apply A|apply B]; lra.
Qed.

Lemma square_covers : covers [0; 1; 2; 3]%nat [(0, 1, 2); (0, 2, 3)]%nat.
Proof.
  apply triangulates_covers. exists 0%nat, [1; 2]%nat, 3%nat. split; [reflexivity|].
  apply (@tri_perm nat) with [(0, 2, 3); (0, 1, 2)]%nat; [apply perm_swap|].
  apply (@tri_node nat 0%nat [1%nat] 2%nat [] 3%nat [(0, 1, 2)%nat] []); [|apply tri_edge].
  apply (@tri_node nat 0%nat [] 1%nat [] 2%nat [] []); apply tri_edge.
Qed.
