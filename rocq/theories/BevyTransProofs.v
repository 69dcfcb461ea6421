(** What the transformations of the Bevy meshes do. *)
From Coq Require Import List Arith ZArith QArith Lia Ring Ring_theory Setoid Morphisms.
From Verif Require Import Base Alg AlgSpec Transform BevyTrans MathEx CurveProofs TransEx.
Import ListNotations.
Set Implicit Arguments.
Unset Strict Implicit.
Local Open Scope nat_scope.

Section BevyTransProofs.
  Variables (R : Type) (zero one : R) (add mul sub : R -> R -> R) (opp : R -> R) (req : R -> R -> Prop).
  Hypothesis Eq : Equivalence req.
  Hypothesis Ext : ring_eq_ext add mul opp req.
  Hypothesis RT : ring_theory zero one add mul sub opp req.
  Add Ring Rb : RT (setoid Eq Ext).
  Instance addp : Proper (req ==> req ==> req) add := Radd_ext Ext.
  Instance mulp : Proper (req ==> req ==> req) mul := Rmul_ext Ext.
  Infix "+" := add. Infix "*" := mul. Infix "-" := sub.
  Infix "==" := req (at level 70).
  Notation vec := (vec R).
  Notation quat := (quat R).
  Notation trs := (trs R).
  Notation rot := (q_rot one add mul sub).
  Notation qmul := (q_mul add mul sub).
  Notation apply := (b3_apply one add mul sub).
  Notation apply_vec := (b3_apply_vec one add mul sub).
  Notation chain := (b3_chain one add mul sub).
  Notation dot := (dot3 add mul).
  Definition unit_quat (q : quat) : Prop := q_x q * q_x q + q_y q * q_y q + q_z q * q_z q + q_w q * q_w q == one.

  Ltac axes i H := destruct i as [|[|[|i]]]; [| | |exfalso; lia].

  (** ** rotations *)
  Lemma rot_ext q v w i : i < 3 -> (forall k, k < 3 -> v k == w k) -> rot q v i == rot q w i.
  Proof.
    intros H E. assert (E0 : v 0 == w 0) by (apply E; lia). assert (E1 : v 1 == w 1) by (apply E; lia). assert (E2 : v 2 == w 2) by (apply E; lia).
    axes i H; unfold q_rot, q_im; cbn; ring [E0 E1 E2].
  Qed.
  Lemma rot_add q v w i : i < 3 -> rot q (fun k => v k + w k) i == rot q v i + rot q w i.
  Proof. intros H. axes i H; unfold q_rot, q_im; cbn; ring. Qed.
  Lemma rot_scale q c v i : i < 3 -> rot q (fun k => c * v k) i == c * rot q v i.
  Proof. intros H. axes i H; unfold q_rot, q_im; cbn; ring. Qed.
  Lemma rot_mul p q v i : i < 3 -> rot (qmul p q) v i == rot p (rot q v) i.
  Proof. intros H. axes i H; unfold q_rot, q_im, q_mul; cbn; ring. Qed.
  Lemma rot_dot q v w : dot (rot q v) (rot q w) ==
    (q_x q * q_x q + q_y q * q_y q + q_z q * q_z q + q_w q * q_w q) * (q_x q * q_x q + q_y q * q_y q + q_z q * q_z q + q_w q * q_w q) * dot v w.
  Proof. unfold dot3, q_rot, q_im; cbn; ring. Qed.
  Lemma rot_id v i : i < 3 -> rot (q_id zero one) v i == v i.
  Proof. intros H. axes i H; unfold q_rot, q_im, q_id; cbn; ring. Qed.

  Theorem rotation_ok p q : unit_quat p -> unit_quat q ->
    unit_quat (qmul p q) /\ (forall v i, i < 3 -> rot (qmul p q) v i == rot p (rot q v) i) /\
    (forall v w, dot (rot q v) (rot q w) == dot v w) /\
    (forall v w i, i < 3 -> rot q (fun k => cross3 mul sub k v w) i == cross3 mul sub i (rot q v) (rot q w)).
  Proof.
    intros P Q. split; [|split; [|split]].
    - unfold unit_quat in *. rewrite <- (Rmul_1_l RT one). rewrite <- P at 1. rewrite <- Q. unfold q_mul. cbn. ring.
    - intros v i. apply rot_mul.
    - intros v w. rewrite rot_dot. unfold unit_quat in Q. rewrite Q. ring.
    - intros v w i H. 
      assert (K : (q_x q * q_x q + q_y q * q_y q + q_z q * q_z q + q_w q * q_w q) * rot q (fun k => cross3 mul sub k v w) i == cross3 mul sub i (rot q v) (rot q w)).
      { axes i H; unfold q_rot, q_im, cross3; cbn; ring. }
      rewrite <- K. unfold unit_quat in Q. rewrite Q. ring.
  Qed.

  (** ** three dimensions *)
  Theorem chain3_exact t o v i : i < 3 -> apply (chain t o) v i ==
    rot (t_rot t) (fun k => rot (t_rot o) (fun j => t_sc t j * (t_sc o j * v j)) k + t_sc t k * t_tr o k) i + t_tr t i.
  Proof.
    intros H. unfold b3_apply, b3_chain, mul_transform, transform_point. cbn [t_tr t_rot t_sc].
    rewrite rot_mul by auto. rewrite rot_add by auto.
    rewrite (rot_ext (t_rot t) (v := rot (t_rot o) (fun k => t_sc t k * t_sc o k * v k))
      (w := rot (t_rot o) (fun j => t_sc t j * (t_sc o j * v j)))); [ring|auto|].
    intros k K. apply rot_ext; auto. intros j J. ring.
  Qed.
  Theorem chain3_order t o c v i : i < 3 -> (forall k, k < 3 -> t_sc t k == c) \/ t_rot o = q_id zero one ->
    apply (chain t o) v i == apply t (apply o v) i.
  Proof.
    intros H U. rewrite chain3_exact by auto. unfold b3_apply, transform_point. apply (Radd_ext Ext); [|reflexivity].
    apply rot_ext; auto. intros k K. destruct U as [U|U].
    - rewrite (rot_ext (t_rot o) (v := fun j => t_sc t j * (t_sc o j * v j)) (w := fun j => c * (t_sc o j * v j))).
      + rewrite rot_scale by auto. rewrite U by auto. ring.
      + auto.
      + intros j J. rewrite U by auto. reflexivity.
    - rewrite U, !rot_id by auto. ring.
  Qed.
  Theorem scale3_exact t u s v i : i < 3 -> (forall k, k < 3 -> u k == s k * t_sc t k) ->
    apply (b3_with_scale t u) v i == apply t (fun k => s k * v k) i.
  Proof.
    intros H U. unfold b3_apply, transform_point, b3_with_scale. cbn [t_tr t_rot t_sc].
    apply (Radd_ext Ext); [|reflexivity]. apply rot_ext; auto. intros k K. rewrite U by auto. ring.
  Qed.
  Theorem translation3_exact t d v i : i < 3 -> apply (b3_with_translation t d) v i == apply t v i - t_tr t i + d i.
  Proof. intros H. unfold b3_apply, transform_point, b3_with_translation. cbn [t_tr t_rot t_sc]. ring. Qed.
  Theorem apply_vec3_exact t v w i : i < 3 ->
    apply_vec t (fun k => v k - w k) i == (apply t v i - apply t w i) + t_tr t i.
  Proof.
    intros H. unfold b3_apply_vec, b3_apply, transform_point.
    rewrite (rot_ext (t_rot t) (v := fun k => t_sc t k * (v k - w k)) (w := fun k => t_sc t k * v k + (sub zero one) * (t_sc t k * w k))); auto.
    - rewrite rot_add by auto. rewrite (rot_scale (t_rot t) (sub zero one) (fun k => t_sc t k * w k)) by auto. ring.
    - intros k K. ring.
  Qed.
  Theorem constructors3 d q v i : i < 3 ->
    apply (b3_from_translation zero one d) v i == v i + d i /\ apply (b3_from_scale zero one d) v i == d i * v i /\
    apply (b3_from_rotation zero one q) v i == rot q v i /\ apply (b3_identity zero one) v i == v i.
  Proof.
    intros H. unfold b3_apply, transform_point, b3_from_translation, b3_from_scale, b3_from_rotation, b3_identity. cbn [t_tr t_rot t_sc].
    rewrite !rot_id by auto. repeat split; try ring.
    rewrite (rot_ext q (v := fun k => one * v k) (w := v)); auto; [ring|]. intros k K. ring.
  Qed.
  Theorem normal_moves d p i : i < 3 ->
    u_nor (b3_payload one add mul sub (b3_from_translation zero one d) p) i == u_nor p i + d i.
  Proof. intros H. apply (constructors3 d (q_id zero one) (u_nor p) H). Qed.

  (** ** two dimensions *)
  Notation apply2 := (b2_apply zero add mul).
  Ltac axes2 i H := destruct i as [|[|i]]; [| |exfalso; lia].
  Theorem chain2_order t o v i : i < 2 -> apply2 (b2_chain zero add mul t o) v i == apply2 t (apply2 o v) i.
  Proof. intros H. axes2 i H; unfold b2_apply, b2_chain, affine2_mul, mvec, mmul, rsum; cbn; ring. Qed.
  Theorem scale2 t s v i : i < 2 -> apply2 (b2_with_scale zero add mul t s) v i == s i * apply2 t v i.
  Proof. intros H. axes2 i H; unfold b2_apply, b2_with_scale, b2_from_scale, affine2_mul, mvec, mmul, diag, rsum; cbn; ring. Qed.
  Theorem translation2 t d v i : i < 2 -> apply2 (b2_with_translation zero one add mul t d) v i == apply2 t v i + d i.
  Proof. intros H. axes2 i H; unfold b2_apply, b2_with_translation, b2_from_translation, affine2_mul, mvec, mmul, ident, rsum; cbn; ring. Qed.
  Theorem apply_vec2 t v w i : i < 2 -> b2_apply_vec zero add mul t (fun k => v k - w k) i == apply2 t v i - apply2 t w i.
  Proof. intros H. axes2 i H; unfold b2_apply, b2_apply_vec, mvec, rsum; cbn; ring. Qed.
End BevyTransProofs.

(** * the documented claims fail *)
Local Open Scope Z_scope.
Notation q3_apply := (b3_apply 1%Q Qplus Qmult Qminus).
Notation q3_chain := (b3_chain 1%Q Qplus Qmult Qminus).
Notation z3_apply := (b3_apply 1 Z.add Z.mul Z.sub).
Notation z3_chain := (b3_chain 1 Z.add Z.mul Z.sub).
Theorem chain3_wrong : exists t o : trs Z, ~ (forall v i, (i < 3)%nat -> z3_apply (z3_chain t o) v i = z3_apply o (z3_apply t v) i).
Proof.
  exists (b3_from_translation 0 1 (zv [1; 0; 0])), (b3_from_scale 0 1 (zv [2; 2; 2])).
  intros H. specialize (H (zv []) 0%nat ltac:(lia)). discriminate H.
Qed.
(** scaling along one axis after a turn by 120 degrees about the diagonal *)
Theorem chain3_neither : exists t o : trs Q, unit_quat 1%Q Qplus Qmult Qeq (t_rot t) /\ unit_quat 1%Q Qplus Qmult Qeq (t_rot o) /\
  ~ (forall v i, (i < 3)%nat -> (q3_apply (q3_chain t o) v i == q3_apply o (q3_apply t v) i)%Q) /\
  ~ (forall v i, (i < 3)%nat -> (q3_apply (q3_chain t o) v i == q3_apply t (q3_apply o v) i)%Q).
Proof.
  exists (mkT (qv [5; 0; 0]%Q) (q_id 0%Q 1%Q) (qv [2; 1; 1]%Q)), (b3_from_rotation 0%Q 1%Q (mkQuat (1 # 2) (1 # 2) (1 # 2) (1 # 2))%Q).
  split; [vm_compute; reflexivity|]. split; [vm_compute; reflexivity|]. split; intros H.
  - specialize (H (qv []) 0%nat ltac:(lia)). vm_compute in H. discriminate H.
  - specialize (H (qv [1; 0; 0]%Q) 1%nat ltac:(lia)). vm_compute in H. discriminate H.
Qed.
Theorem scale3_wrong : exists t s, ~ (forall v i, (i < 3)%nat -> z3_apply (b3_with_scale t s) v i = s i * z3_apply t v i).
Proof.
  exists (b3_from_translation 0 1 (zv [1; 0; 0])), (zv [2; 2; 2]). intros H. specialize (H (zv []) 0%nat ltac:(lia)). discriminate H.
Qed.
Theorem translation3_wrong : exists t d, ~ (forall v i, (i < 3)%nat -> z3_apply (b3_with_translation t d) v i = z3_apply t v i + d i).
Proof.
  exists (b3_from_translation 0 1 (zv [1; 0; 0])), (zv [2; 2; 2]). intros H. specialize (H (zv []) 0%nat ltac:(lia)). discriminate H.
Qed.
Theorem apply_vec3_wrong : exists t : trs Z, ~ (forall v w i, (i < 3)%nat ->
  b3_apply_vec 1 Z.add Z.mul Z.sub t (fun k => v k - w k) i = z3_apply t v i - z3_apply t w i).
Proof.
  exists (b3_from_translation 0 1 (zv [1; 0; 0])). intros H. specialize (H (zv []) (zv []) 0%nat ltac:(lia)). discriminate H.
Qed.
Theorem chain2_wrong : exists t o : affine Z, ~ (forall v i, (i < 2)%nat ->
  b2_apply 0 Z.add Z.mul (b2_chain 0 Z.add Z.mul t o) v i = b2_apply 0 Z.add Z.mul o (b2_apply 0 Z.add Z.mul t v) i).
Proof.
  exists (b2_from_translation 0 1 (zv [1; 0])), (b2_from_scale 0 (zv [2; 2])). intros H. specialize (H (zv []) 0%nat ltac:(lia)). discriminate H.
Qed.
