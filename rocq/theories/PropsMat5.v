(** Property C81: the 4d transformations of the Bevy extension. *)
From Coq Require Import List Arith ZArith Lia.
From Verif Require Import Base Alg AlgSpec MathEx Mat5 Mat5Proofs.
Import ListNotations.
Local Open Scope nat_scope.

Theorem C81_constructors : forall (R : Type) (zero one : R) add mul sub opp req, is_ring zero one add mul sub opp req ->
  forall d v i, i < 4 ->
    req (m5_apply zero one add mul (m5_identity zero one) v i) (v i) /\
    req (m5_apply zero one add mul (m5_from_translation zero one d) v i) (add (v i) (d i)) /\
    req (m5_apply zero one add mul (m5_from_scale zero one d) v i) (mul (d i) (v i)).
Proof. intros R zero one add mul sub opp req (E & X & T). exact (constructors5 E X T). Qed.
Print Assumptions C81_constructors.

(** Everything made with the interface: [chain t o] applies [o] first, [with_translation] adds, [apply_vec] is the map of
    differences. *)
Theorem C81_made : forall (R : Type) (zero one : R) add mul sub opp req, is_ring zero one add mul sub opp req ->
  forall t o, made5 zero one add mul t -> made5 zero one add mul o -> forall v w d i, i < 4 ->
    req (m5_apply zero one add mul (m5_chain zero add mul t o) v i) (m5_apply zero one add mul t (m5_apply zero one add mul o v) i) /\
    req (m5_apply zero one add mul (m5_with_translation add t d) v i) (add (m5_apply zero one add mul t v i) (d i)) /\
    req (m5_apply zero one add mul t (fun k => add (v k) (w k)) i) (add (m5_apply zero one add mul t v i) (m5_apply_vec zero add mul t w i)).
Proof. intros R zero one add mul sub opp req (E & X & T). exact (made_ok E X T). Qed.
Print Assumptions C81_made.

(** [with_scale] multiplies the diagonal only: the other entries of the row and the translation keep their size. *)
Theorem C81_with_scale : forall (R : Type) (zero one : R) add mul sub opp req, is_ring zero one add mul sub opp req ->
  forall t s v i, i < 4 -> req (m5_apply zero one add mul (m5_with_scale mul t s) v i)
    (add (m5_apply zero one add mul t v i) (mul (mul (sub (s i) one) (t (6 * i))) (v i))).
Proof. intros R zero one add mul sub opp req (E & X & T). exact (with_scale5 E X T). Qed.
Print Assumptions C81_with_scale.

(** The sum of two matrices is the sum of all their entries and so of the maps. *)
Theorem C81_add : forall (R : Type) (zero one : R) add mul sub opp req, is_ring zero one add mul sub opp req ->
  forall a b, (forall p, p < 25 -> req (m5_add zero add a b p) (add (a p) (b p))) /\
    forall v i, i < 4 -> req (m5_apply zero one add mul (m5_add zero add a b) v i)
    (add (m5_apply zero one add mul a v i) (m5_apply zero one add mul b v i)).
Proof. intros R zero one add mul sub opp req (E & X & T). exact (add5 E X T). Qed.
Print Assumptions C81_add.

(** The documented order of [chain] is the other one. *)
Theorem C81_chain_refuted : exists t o, z5_made t /\ z5_made o /\
  ~ (forall v i, i < 4 -> z5_apply (m5_chain 0%Z Z.add Z.mul t o) v i = z5_apply o (z5_apply t v) i).
Proof. exact chain5_wrong. Qed.
Print Assumptions C81_chain_refuted.
(** The documentation says that everything is scaled, also previous translations. *)
Theorem C81_scale_refuted : exists t s, z5_made t /\
  ~ (forall v i, i < 4 -> z5_apply (m5_with_scale Z.mul t s) v i = (s i * z5_apply t v i)%Z).
Proof. exact scale5_wrong. Qed.
Print Assumptions C81_scale_refuted.

(** Move, then double the result: made as [chain double move]; the point (3,0,0,0) goes to (8,0,0,0). *)
Example C81_example :
  z5_made (m5_chain 0%Z Z.add Z.mul z5_double z5_move) /\
  map (z5_apply (m5_chain 0%Z Z.add Z.mul z5_double z5_move) (zv [3; 0; 0; 0]%Z)) [0; 1; 2; 3] = [8; 0; 0; 0]%Z.
Proof. split; [repeat constructor|vm_compute; reflexivity]. Qed.
