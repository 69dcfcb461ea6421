(** What the 4d transformations do. *)
From Coq Require Import List Arith ZArith Lia Ring Ring_theory Setoid Morphisms.
From Verif Require Import Base Alg AlgSpec MathEx Mat5.
Import ListNotations.
Set Implicit Arguments.
Unset Strict Implicit.
Local Open Scope nat_scope.

(** Made of the operations of the interface that are finished. *)
Inductive made5 (R : Type) (zero one : R) (add mul : R -> R -> R) : mat5 R -> Prop :=
| made_identity : made5 zero one add mul (m5_identity zero one)
| made_translation v : made5 zero one add mul (m5_from_translation zero one v)
| made_scale v : made5 zero one add mul (m5_from_scale zero one v)
| made_with_scale t v : made5 zero one add mul t -> made5 zero one add mul (m5_with_scale mul t v)
| made_with_translation t v : made5 zero one add mul t -> made5 zero one add mul (m5_with_translation add t v)
| made_chain t o : made5 zero one add mul t -> made5 zero one add mul o -> made5 zero one add mul (m5_chain zero add mul t o).

Section Mat5Proofs.
  Variables (R : Type) (zero one : R) (add mul sub : R -> R -> R) (opp : R -> R) (req : R -> R -> Prop).
  Hypothesis Eq : Equivalence req.
  Hypothesis Ext : ring_eq_ext add mul opp req.
  Hypothesis RT : ring_theory zero one add mul sub opp req.
  Add Ring Rb : RT (setoid Eq Ext).
  Instance addp : Proper (req ==> req ==> req) add := Radd_ext Ext.
  Instance mulp : Proper (req ==> req ==> req) mul := Rmul_ext Ext.
  Infix "+" := add. Infix "*" := mul. Infix "-" := sub.
  Infix "==" := req (at level 70).
  Notation vec := (vec R).
  Notation mat5 := (mat5 R).
  Notation apply := (m5_apply zero one add mul).
  Notation apply_vec := (m5_apply_vec zero add mul).
  Notation chain := (m5_chain zero add mul).

  Definition affine5 (t : mat5) : Prop := t 20 == zero /\ t 21 == zero /\ t 22 == zero /\ t 23 == zero /\ t 24 == one.
  Ltac axes i := destruct i as [|[|[|[|i]]]]; [| | | |exfalso; lia].
  Ltac go := lazy delta [m5_apply m5_apply_vec m5_vec m5_chain m5_mul m5_add m5_with_scale m5_with_translation m5_from_scale m5_from_translation m5_identity m5_zero put
     fold_left seq nth Nat.eqb Nat.add Nat.mul] beta iota zeta.

  Lemma apply_id v i : i < 4 -> apply (m5_identity zero one) v i == v i.
  Proof. intros H. axes i; go; ring. Qed.
  Lemma apply_translation d v i : i < 4 -> apply (m5_from_translation zero one d) v i == v i + d i.
  Proof. intros H. axes i; go; ring. Qed.
  Lemma apply_scale d v i : i < 4 -> apply (m5_from_scale zero one d) v i == d i * v i.
  Proof. intros H. axes i; go; ring. Qed.
  Lemma constructors5 d v i : i < 4 -> apply (m5_identity zero one) v i == v i /\
    apply (m5_from_translation zero one d) v i == v i + d i /\ apply (m5_from_scale zero one d) v i == d i * v i.
  Proof. intros H. split; [apply apply_id|split; [apply apply_translation|apply apply_scale]]; auto. Qed.
  Lemma with_translation5 t d v i : i < 4 -> apply (m5_with_translation add t d) v i == apply t v i + d i.
  Proof. intros H. axes i; go; ring. Qed.
  Lemma apply_vec5 t v w i : i < 4 -> apply t (fun k => v k + w k) i == apply t v i + apply_vec t w i.
  Proof. intros H. axes i; go; ring. Qed.
  Lemma with_scale5 t s v i : i < 4 -> apply (m5_with_scale mul t s) v i == apply t v i + (s i - one) * t (Nat.mul 6 i) * v i.
  Proof. intros H. axes i; go; ring. Qed.
  Lemma chain5 t o v i : affine5 o -> i < 4 -> apply (chain t o) v i == apply t (apply o v) i.
  Proof. intros (A & B & C & D & E) H. axes i; go; ring [A B C D E]. Qed.
  Lemma made_affine t : made5 zero one add mul t -> affine5 t.
  Proof.
    induction 1 as [|v|v|t v M IH|t v M IH|t o M1 (A & B & C & D & E) M2 (A' & B' & C' & D' & E')]; unfold affine5 in *.
    1-3: go; repeat split; reflexivity.
    1-2: go; exact IH.
    go. repeat split; ring [A B C D E A' B' C' D' E'].
  Qed.
  Theorem made_ok t o : made5 zero one add mul t -> made5 zero one add mul o -> forall v w d i, i < 4 ->
    apply (chain t o) v i == apply t (apply o v) i /\
    apply (m5_with_translation add t d) v i == apply t v i + d i /\
    apply t (fun k => v k + w k) i == apply t v i + apply_vec t w i.
  Proof.
    intros M1 M2 v w d i H. split; [apply chain5; auto; apply made_affine; auto|]. split; [apply with_translation5; auto|apply apply_vec5; auto].
  Qed.
  Lemma add5 a b : (forall p, p < 25 -> m5_add zero add a b p == a p + b p) /\
    forall v i, i < 4 -> apply (m5_add zero add a b) v i == apply a v i + apply b v i.
  Proof.
    split; [intros p H|intros v i H; axes i; go; ring].
    do 25 (destruct p as [|p]; [go; ring|]). exfalso; lia.
  Qed.
End Mat5Proofs.

Notation z5_apply := (m5_apply 0%Z 1%Z Z.add Z.mul).
Notation z5_made := (made5 0%Z 1%Z Z.add Z.mul).
Definition z5_move : mat5 Z := m5_from_translation 0%Z 1%Z (zv [1; 0; 0; 0]%Z).
Definition z5_double : mat5 Z := m5_from_scale 0%Z 1%Z (zv [2; 2; 2; 2]%Z).
Lemma chain5_wrong : exists t o, z5_made t /\ z5_made o /\
  ~ (forall v i, i < 4 -> z5_apply (m5_chain 0%Z Z.add Z.mul t o) v i = z5_apply o (z5_apply t v) i).
Proof.
  exists z5_move, z5_double. split; [constructor|]. split; [constructor|]. intros H. specialize (H (zv []) 0 ltac:(lia)).
  vm_compute in H. discriminate.
Qed.
Lemma scale5_wrong : exists t s, z5_made t /\
  ~ (forall v i, i < 4 -> z5_apply (m5_with_scale Z.mul t s) v i = (s i * z5_apply t v i)%Z).
Proof.
  exists z5_move, (zv [2; 2; 2; 2]%Z). split; [constructor|]. intros H. specialize (H (zv []) 0 ltac:(lia)). vm_compute in H. discriminate.
Qed.
