(** Property C78: the transformations of the Bevy meshes. *)
From Coq Require Import List Arith ZArith QArith Lia.
From Verif Require Import Base Alg AlgSpec Transform MathEx BevyTrans BevyTransProofs CurveProofs TransEx.
Import ListNotations.
Local Open Scope nat_scope.

(** C78. Quaternions of length one are rotations, and their product is the composition. *)
Theorem C78_rotation : forall (R : Type) (zero one : R) add mul sub opp req, is_ring zero one add mul sub opp req ->
  forall p q, unit_quat one add mul req p -> unit_quat one add mul req q ->
    unit_quat one add mul req (q_mul add mul sub p q) /\
    (forall v i, i < 3 -> req (q_rot one add mul sub (q_mul add mul sub p q) v i) (q_rot one add mul sub p (q_rot one add mul sub q v) i)) /\
    (forall v w, req (dot3 add mul (q_rot one add mul sub q v) (q_rot one add mul sub q w)) (dot3 add mul v w)) /\
    (forall v w i, i < 3 -> req (q_rot one add mul sub q (fun k => cross3 mul sub k v w) i)
      (cross3 mul sub i (q_rot one add mul sub q v) (q_rot one add mul sub q w))).
Proof. intros R zero one add mul sub opp req (E & X & T). exact (rotation_ok E X T). Qed.
Print Assumptions C78_rotation.
Theorem C78_constructors : forall (R : Type) (zero one : R) add mul sub opp req, is_ring zero one add mul sub opp req ->
  forall d q v i, i < 3 ->
    req (b3_apply one add mul sub (b3_from_translation zero one d) v i) (add (v i) (d i)) /\
    req (b3_apply one add mul sub (b3_from_scale zero one d) v i) (mul (d i) (v i)) /\
    req (b3_apply one add mul sub (b3_from_rotation zero one q) v i) (q_rot one add mul sub q v i) /\
    req (b3_apply one add mul sub (b3_identity zero one) v i) (v i).
Proof. intros R zero one add mul sub opp req (E & X & T). exact (constructors3 E X T). Qed.
Print Assumptions C78_constructors.

(** In three dimensions [chain t o] applies [o] first and then [t], if the scale of [t] is uniform or [o] does not
    rotate. *)
Theorem C78_chain3 : forall (R : Type) (zero one : R) add mul sub opp req, is_ring zero one add mul sub opp req ->
  forall t o c v i, i < 3 -> (forall k, k < 3 -> req (t_sc t k) c) \/ t_rot o = q_id zero one ->
    req (b3_apply one add mul sub (b3_chain one add mul sub t o) v i)
      (b3_apply one add mul sub t (b3_apply one add mul sub o v) i).
Proof. intros R zero one add mul sub opp req (E & X & T). exact (chain3_order E X T). Qed.
Print Assumptions C78_chain3.
Theorem C78_chain3_exact : forall (R : Type) (zero one : R) add mul sub opp req, is_ring zero one add mul sub opp req ->
  forall t o v i, i < 3 -> req (b3_apply one add mul sub (b3_chain one add mul sub t o) v i)
    (add (q_rot one add mul sub (t_rot t)
       (fun k => add (q_rot one add mul sub (t_rot o) (fun j => mul (t_sc t j) (mul (t_sc o j) (v j))) k) (mul (t_sc t k) (t_tr o k))) i) (t_tr t i)).
Proof. intros R zero one add mul sub opp req (E & X & T). exact (chain3_exact E X T). Qed.
Print Assumptions C78_chain3_exact.
(** The documented order is the other one, and with unequal scales it is neither of the two. *)
Theorem C78_chain3_refuted : exists t o : trs Z, ~ (forall v i, i < 3 -> z3_apply (z3_chain t o) v i = z3_apply o (z3_apply t v) i).
Proof. exact chain3_wrong. Qed.
Print Assumptions C78_chain3_refuted.
Theorem C78_chain3_shear_refuted : exists t o : trs Q,
  unit_quat 1%Q Qplus Qmult Qeq (t_rot t) /\ unit_quat 1%Q Qplus Qmult Qeq (t_rot o) /\
  ~ (forall v i, i < 3 -> (q3_apply (q3_chain t o) v i == q3_apply o (q3_apply t v) i)%Q) /\
  ~ (forall v i, i < 3 -> (q3_apply (q3_chain t o) v i == q3_apply t (q3_apply o v) i)%Q).
Proof. exact chain3_neither. Qed.
Print Assumptions C78_chain3_shear_refuted.

(** [with_scale] and [with_translation] replace the scale and the translation instead of adding to them: a scale [s] times
    the old one scales the argument, not the result. *)
Theorem C78_scale3 : forall (R : Type) (zero one : R) add mul sub opp req, is_ring zero one add mul sub opp req ->
  forall t u s v i, i < 3 -> (forall k, k < 3 -> req (u k) (mul (s k) (t_sc t k))) ->
    req (b3_apply one add mul sub (b3_with_scale t u) v i) (b3_apply one add mul sub t (fun k => mul (s k) (v k)) i).
Proof. intros R zero one add mul sub opp req (E & X & T). exact (scale3_exact E X T). Qed.
Print Assumptions C78_scale3.
Theorem C78_scale3_refuted : exists t s, ~ (forall v i, i < 3 -> z3_apply (b3_with_scale t s) v i = (s i * z3_apply t v i)%Z).
Proof. exact scale3_wrong. Qed.
Print Assumptions C78_scale3_refuted.
Theorem C78_translation3 : forall (R : Type) (zero one : R) add mul sub opp req, is_ring zero one add mul sub opp req ->
  forall t d v i, i < 3 -> req (b3_apply one add mul sub (b3_with_translation t d) v i)
    (add (sub (b3_apply one add mul sub t v i) (t_tr t i)) (d i)).
Proof. intros R zero one add mul sub opp req (E & X & T). exact (translation3_exact E X T). Qed.
Print Assumptions C78_translation3.
Theorem C78_translation3_refuted : exists t d, ~ (forall v i, i < 3 -> z3_apply (b3_with_translation t d) v i = (z3_apply t v i + d i)%Z).
Proof. exact translation3_wrong. Qed.
Print Assumptions C78_translation3_refuted.

(** [apply_vec] adds the translation, so moving a vertex changes its normal. *)
Theorem C78_apply_vec3 : forall (R : Type) (zero one : R) add mul sub opp req, is_ring zero one add mul sub opp req ->
  forall t v w i, i < 3 -> req (b3_apply_vec one add mul sub t (fun k => sub (v k) (w k)) i)
    (add (sub (b3_apply one add mul sub t v i) (b3_apply one add mul sub t w i)) (t_tr t i)).
Proof. intros R zero one add mul sub opp req (E & X & T). exact (apply_vec3_exact E X T). Qed.
Print Assumptions C78_apply_vec3.
Theorem C78_apply_vec3_refuted : exists t : trs Z, ~ (forall v w i, i < 3 ->
  b3_apply_vec 1%Z Z.add Z.mul Z.sub t (fun k => (v k - w k)%Z) i = (z3_apply t v i - z3_apply t w i)%Z).
Proof. exact apply_vec3_wrong. Qed.
Print Assumptions C78_apply_vec3_refuted.
Theorem C78_normal_moves : forall (R : Type) (zero one : R) add mul sub opp req, is_ring zero one add mul sub opp req ->
  forall d p i, i < 3 ->
    req (u_nor (b3_payload one add mul sub (b3_from_translation zero one d) p) i) (add (u_nor p i) (d i)).
Proof. intros R zero one add mul sub opp req (E & X & T). exact (normal_moves E X T). Qed.
Print Assumptions C78_normal_moves.

(** In two dimensions [with_scale], [with_translation] and [apply_vec] are as documented; only [chain] is not. *)
Theorem C78_affine2 : forall (R : Type) (zero one : R) add mul sub opp req, is_ring zero one add mul sub opp req ->
  forall t o s v w i, i < 2 ->
    req (b2_apply zero add mul (b2_chain zero add mul t o) v i) (b2_apply zero add mul t (b2_apply zero add mul o v) i) /\
    req (b2_apply zero add mul (b2_with_scale zero add mul t s) v i) (mul (s i) (b2_apply zero add mul t v i)) /\
    req (b2_apply zero add mul (b2_with_translation zero one add mul t s) v i) (add (b2_apply zero add mul t v i) (s i)) /\
    req (b2_apply_vec zero add mul t (fun k => sub (v k) (w k)) i) (sub (b2_apply zero add mul t v i) (b2_apply zero add mul t w i)).
Proof.
  intros R zero one add mul sub opp req (E & X & T) t o s v w i H.
  exact (conj (chain2_order E X T t o v H) (conj (scale2 E X T t s v H) (conj (translation2 E X T t s v H) (apply_vec2 E X T t v w H)))).
Qed.
Print Assumptions C78_affine2.
Theorem C78_chain2_refuted : exists t o : affine Z, ~ (forall v i, i < 2 ->
  b2_apply 0%Z Z.add Z.mul (b2_chain 0%Z Z.add Z.mul t o) v i = b2_apply 0%Z Z.add Z.mul o (b2_apply 0%Z Z.add Z.mul t v) i).
Proof. exact chain2_wrong. Qed.
Print Assumptions C78_chain2_refuted.

Example C78_example : is_ring 0%Q 1%Q Qplus Qmult Qminus Qopp Qeq /\
  unit_quat 1%Q Qplus Qmult Qeq (mkQuat (3 # 5) 0 0 (4 # 5))%Q /\
  (forall k, (k < 3)%nat -> (t_sc (b3_from_scale 0%Q 1%Q (qv [2; 2; 2]%Q)) k == 2)%Q) /\
  (q3_apply (q3_chain (b3_from_scale 0%Q 1%Q (qv [2; 2; 2]%Q)) (b3_from_translation 0%Q 1%Q (qv [1; 0; 0]%Q))) (qv [5; 0; 0]%Q) 0%nat == 12)%Q.
Proof.
  split; [exact Q_ring|]. split; [vm_compute; reflexivity|]. split; [|vm_compute; reflexivity].
  intros [|[|[|k]]] H; [reflexivity..|lia].
Qed.
