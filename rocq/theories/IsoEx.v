(** Concrete meshes for the comparison of meshes by position. *)
From Coq Require Import List Arith Lia Bool.
From Verif Require Import Base DVec Mesh MeshMore Spec MeshSpec MeshProofs MeshEx Topo TopoSpec TopoEx TriMeshEx RefineSpec Import ImportProofs RefineEx IsoPos IsoPosSpec IsoComplete.
Import ListNotations.
Set Implicit Arguments.
Unset Strict Implicit.
Local Arguments abs : simpl never.

(** a triangle with the given positions, in this order *)
Definition ops_tri (p q r : nat) : list (bop nat nat nat) :=
  [BIsolated p 1 q 2; BViaVertex 1 r 3 4; BBetween 2 5 0 6; BCloseHole 0 1 false].
(** two triangles on either side of two parallel edges *)
Definition ops_twice : list (bop nat nat nat) :=
  [BIsolated 0 1 10 2; BViaVertex 1 20 3 4; BBetween 2 5 0 6; BInsertEdge 1 5 3 6; BCloseHole 0 1 false; BCloseHole 5 1 false].

Definition vids {VP EP FP} (m : mesh VP EP FP) : list nat := seq 0 (length (slots (verts m))).
Lemma vlive_below {VP EP FP} (m : mesh VP EP FP) v : lvv (abs m) v = true -> In v (vids m).
Proof. intros L. apply in_seq. split; [lia|]. unfold abs in L. cbn in L. unfold d_has in L. apply nth_error_Some. destruct (nth_error _ v); congruence. Qed.
Lemma apartb_ok {EP FP EP2 FP2} (m : mesh nat EP FP) (m2 : mesh nat EP2 FP2) :
  forallb (fun w => forallb (fun w' => implb (lvv (abs m2) w && lvv (abs m2) w' && oeqb (vp (abs m2) w) (vp (abs m2) w')) (w =? w')) (vids m2)) (vids m2) = true ->
  apart_by Nat.eqb (abs m) (abs m2).
Proof.
  intros H v w w' p q q' _ L L' _ Q Q' N N'. apply Nat.eqb_eq in N, N'. subst q q'. rewrite forallb_forall in H. specialize (H w (vlive_below L)). cbv beta in H.
  rewrite forallb_forall in H. specialize (H w' (vlive_below L')). cbv beta in H. rewrite L, L', Q, Q' in H. cbn in H. rewrite Nat.eqb_refl in H. apply Nat.eqb_eq. exact H.
Qed.

Lemma tri_example :
  let m := built c0 (ops_tri 0 10 20) in let m2 := built c0 (ops_tri 10 20 0) in let m3 := built c0 (ops_tri 0 20 10) in
  wf m /\ wf m2 /\ wf m3 /\ no_parallel (abs m) /\ no_parallel (abs m2) /\ no_parallel (abs m3) /\
  apart_by Nat.eqb (abs m) (abs m2) /\ apart_by Nat.eqb (abs m) (abs m3) /\
  is_isomorphic_by_pos Nat.eqb c0 m m2 = Ok Equivalent /\ is_isomorphic_by_pos Nat.eqb c0 m m3 = Ok (NoCorrespondingFace 0).
Proof.
  cbv zeta. do 3 (split; [apply wfb_ok; vm_compute; reflexivity|]). do 3 (split; [apply no_parallelb_ok; vm_compute; reflexivity|]).
  do 2 (split; [apply apartb_ok; vm_compute; reflexivity|]). split; vm_compute; reflexivity.
Qed.
Lemma pos_refuted : exists (m m2 : mesh nat nat nat) h, simply_reachable m /\ simply_reachable m2 /\ apart_by Nat.eqb (abs m) (abs m2) /\
  isomorphism (abs m) (abs m2) h /\ near_along Nat.eqb (abs m) (abs m2) h /\ is_isomorphic_pos Nat.eqb m m2 = Ok (DifferentVertices 0 0).
Proof.
  assert (X : exists h, isomorphism (abs (built c0 (ops_tri 0 10 20))) (abs (built c0 (ops_tri 10 20 0))) h /\ near_along Nat.eqb (abs (built c0 (ops_tri 0 10 20))) (abs (built c0 (ops_tri 10 20 0))) h).
  { destruct tri_example as (W & W2 & _ & NP & NP2 & _ & A & _ & E & _). destruct (pos_decides c0 W W2 NP NP2 A) as (d & E' & D). apply D. congruence. }
  destruct X as (h & I1 & N). exists (built c0 (ops_tri 0 10 20)), (built c0 (ops_tri 10 20 0)), h.
  split; [exists c0, (ops_tri 0 10 20); reach_by ops_tri|]. split; [exists c0, (ops_tri 10 20 0); reach_by ops_tri|].
  split; [apply apartb_ok; vm_compute; reflexivity|]. split; [exact I1|]. split; [exact N|]. vm_compute. reflexivity.
Qed.
Lemma twice_refuted : exists (m : mesh nat nat nat), wf m /\ apart_by Nat.eqb (abs m) (abs m) /\ isomorphism (abs m) (abs m) (fun v => v) /\
  is_isomorphic_by_pos Nat.eqb c_release m m = Ok (NoCorrespondingFace 1).
Proof.
  exists (built c_release ops_twice). assert (W : wf (built c_release ops_twice)) by (apply wfb_ok; vm_compute; reflexivity).
  split; [exact W|]. split; [apply apartb_ok; vm_compute; reflexivity|]. split; [apply iso_refl; exact W|]. vm_compute. reflexivity.
Qed.
Lemma import_example : let m := built c0 (ops_tri 0 10 20) in
  wf m /\ d_len (edges m) <= capE c0 /\ d_len (verts m) <= capV c0 /\ d_len (faces m) <= capF c0 /\ importable (abs m) /\ no_parallel (abs m) /\
  (forall v w p q, lvv (abs m) v = true -> lvv (abs m) w = true -> vp (abs m) v = Some p -> vp (abs m) w = Some q -> (Nat.eqb (p + 7) (q + 7) = true <-> v = w)).
Proof.
  cbv zeta. split; [apply wfb_ok; vm_compute; reflexivity|]. do 3 (split; [apply Nat.leb_le; vm_compute; reflexivity|]).
  split; [apply importableb_ok; vm_compute; reflexivity|]. split; [apply no_parallelb_ok; vm_compute; reflexivity|].
  assert (A : apart_by Nat.eqb (abs (built c0 (ops_tri 0 10 20))) (abs (built c0 (ops_tri 0 10 20)))) by (apply apartb_ok; vm_compute; reflexivity).
  intros v w p q L L' P Q. rewrite Nat.eqb_eq. split; [|intros ->; congruence]. intros E. assert (p = q) by lia. subst q.
  apply (A v v w p p p L L L' P P Q); apply Nat.eqb_refl.
Qed.
