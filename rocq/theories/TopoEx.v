(** Concrete meshes for the examples about whole-mesh queries. *)
From Coq Require Import List Arith Bool.
From Verif Require Import Base DVec DVecFacts Mesh Spec MeshSpec MeshMore MeshEx TopoSpec.
Import ListNotations.

Definition built (c : cfg) (l : list (bop nat nat nat)) : mesh nat nat nat := get_ok empty_mesh (brun c empty_mesh l).
Definition c_release : cfg := mkCfg 255 255 255 false.

(** the path 0 - 1 - 2, with payloads 0, 10, 20 *)
Definition ops_path : list (bop nat nat nat) := [BIsolated 0 1 10 2; BViaVertex 1 20 3 4].
(** a fourth vertex attached to the middle vertex, on either side *)
Definition ops_star1 := ops_path ++ [BViaEdge 0 2 30 7 8].
Definition ops_star2 := ops_path ++ [BViaEdge 3 1 30 7 8].
(** the middle vertex connected to itself *)
Definition ops_self := ops_path ++ [BInsertEdge 0 5 3 6].
(** two edges between 0 and 1, and the isolated vertex 2; only a release build accepts this *)
Definition ops_double : list (bop nat nat nat) := [BIsolated 0 1 10 2; BInsertEdge 0 5 1 6; BVertex 20].

(** a square with one diagonal and one face *)
Definition ops_kite : list (bop nat nat nat) :=
  [BIsolated 0 1 10 2; BViaVertex 1 20 3 4; BViaVertex 2 30 5 6; BBetween 3 7 0 8; BCloseFace 6 9 2 9 7 false].

Ltac reach_by l :=
  split; [reflexivity|]; split; [|split; [|vm_compute; reflexivity]]; unfold l; cbn [app];
  repeat (split; [vm_compute; intuition discriminate|intros ? H; vm_compute in H; injection H as <-]); exact I.

Lemma no_edge (m : mesh nat nat nat) u v :
  forallb (fun e => negb ((og (abs m) e =? u) && (og (abs m) (tw (abs m) e) =? v))) (seq 0 (length (slots (edges m)))) = true ->
  ~ adjacent (abs m) u v.
Proof.
  intros H (e & L & O & T). rewrite forallb_forall in H.
  assert (X : In e (seq 0 (length (slots (edges m))))).
  { apply in_seq. split; [apply Nat.le_0_l|]. apply nth_error_Some. cbn in L. unfold d_has in L. destruct (nth_error _ e); congruence. }
  apply H in X. rewrite O, T, !Nat.eqb_refl in X. discriminate.
Qed.
