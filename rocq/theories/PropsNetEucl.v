(** Property theorems: matrices weighted by distances (C80). *)
From Coq Require Import List Arith Lia Lra Reals.
From Verif Require Import Base DVec Mesh MeshMore Spec MeshSpec MeshFacts MeshEx Topo TopoSpec TopoProofs SimpleProofs TopoEx NetProofs NetEucl NetEuclSpec NetEuclProofs.
Import ListNotations.
Set Implicit Arguments.
Unset Strict Implicit.

(** The entry of two adjacent vertices is their distance; all others are zero. *)
Theorem C80_adjacency :
  forall (VP EP FP : Type) (D : nat) (pos : VP -> nat -> R) (m : mesh VP EP FP) (at_ : nat -> VP),
    wf m -> dense (abs m) (num_vertices m) -> payloads (abs m) at_ ->
    exists a, adjacency_matrix_euclidean D pos m = Ok a /\
      (forall i j, a i j = a j i) /\ (forall i, a i i = 0%R) /\
      (forall i j, adjacent (abs m) i j -> is_distance D (pos (at_ i)) (pos (at_ j)) (a i j)) /\
      (forall i j, ~ adjacent (abs m) i j -> a i j = 0%R).
Proof. exact @euclidean_adj_ok. Qed.
Print Assumptions C80_adjacency.

(** Without consecutive vertex ids there is a panic. *)
Theorem C80_adjacency_panics :
  forall (VP EP FP : Type) (D : nat) (pos : VP -> nat -> R) (m : mesh VP EP FP),
    wf m -> ~ dense (abs m) (num_vertices m) -> adjacency_matrix_euclidean D pos m = Panic.
Proof. exact @euclidean_adj_panics. Qed.
Print Assumptions C80_adjacency_panics.

(** The Laplacian has the negated distances beside the diagonal, but the numbers of edges on it. The sum of a row is the
    number of edges minus the sum of their lengths. *)
Theorem C80_laplacian :
  forall (VP EP FP : Type) (D : nat) (pos : VP -> nat -> R) (c : cfg) (m : mesh VP EP FP) (at_ : nat -> VP),
    wf m -> dense (abs m) (num_vertices m) -> payloads (abs m) at_ ->
    exists a, laplacian_euclidean D pos c m = Ok a /\
      (forall i j, i <> j -> a i j = a j i /\
         (adjacent (abs m) i j -> is_distance D (pos (at_ i)) (pos (at_ j)) (- a i j)) /\
         (~ adjacent (abs m) i j -> a i j = 0%R)) /\
      (forall i l, i < num_vertices m -> outgoing (abs m) i l -> a i i = INR (length l)) /\
      (no_parallel (abs m) -> forall i l len, i < num_vertices m -> outgoing (abs m) i l ->
         (forall e, In e l -> is_distance D (pos (at_ i)) (pos (at_ (og (abs m) (tw (abs m) e)))) (len e)) ->
         rsum (a i) (seq 0 (num_vertices m)) = (INR (length l) - rsum len l)%R).
Proof. exact @euclidean_laplacian_ok. Qed.
Print Assumptions C80_laplacian.

(** Two vertices at the positions 0 and 10, joined by one edge. *)
Definition ops_edge : list (bop nat nat nat) := [BIsolated 0 1 10 2].
Definition pos_edge (p i : nat) : R := if i =? 0 then INR p else 0%R.
Definition at_edge (v : nat) : nat := if v =? 0 then 0 else 10.
Example C80_example :
  simply_reachable (built c0 ops_edge) /\ dense (abs (built c0 ops_edge)) (num_vertices (built c0 ops_edge)) /\
  payloads (abs (built c0 ops_edge)) at_edge /\ adjacent (abs (built c0 ops_edge)) 0 1 /\ outgoing (abs (built c0 ops_edge)) 0 [0].
Proof.
  assert (W : wf (built c0 ops_edge)) by (apply wfb_ok; vm_compute; reflexivity).
  assert (V : vertex_ids (built c0 ops_edge) = [0; 1]) by (vm_compute; reflexivity).
  assert (E : edge_ids (built c0 ops_edge) = [0; 1]) by (vm_compute; reflexivity).
  split; [exists c0, ops_edge; reach_by ops_edge|].
  split. { apply consecutive_dense; [exact W|vm_compute; reflexivity]. }
  split. { intros v L. apply vertex_ids_live in L; auto. rewrite V in L. destruct L as [<-|[<-|[]]]; vm_compute; reflexivity. }
  split. { exists 0. split; [|split]; vm_compute; reflexivity. }
  split; [repeat constructor; auto|]. intros x. rewrite <- (edge_ids_live x W), E. split.
  - intros [<-|[]]. split; [left; auto|vm_compute; reflexivity].
  - intros [[<-|[<-|[]]] O]; [left; auto|]. vm_compute in O. discriminate.
Qed.

(** So the rows do not sum to zero, as those of a weighted Laplacian do: one edge of length 10 gives 1 - 10. *)
Theorem C80_laplacian_refuted :
  exists (c : cfg) (m : mesh nat nat nat) (pos : nat -> nat -> R) a i,
    simply_reachable m /\ dense (abs m) (num_vertices m) /\ laplacian_euclidean 3 pos c m = Ok a /\ i < num_vertices m /\
    rsum (a i) (seq 0 (num_vertices m)) = (-9)%R.
Proof.
  destruct C80_example as (S & Dn & P & A & O). exists c0, (built c0 ops_edge), pos_edge.
  destruct (simply_reachable_ok S) as (W & NP & _).
  destruct (@C80_laplacian _ _ _ 3 pos_edge c0 _ at_edge W Dn P) as (a & E & _ & _ & H).
  exists a, 0. repeat (split; [assumption|]). split; [vm_compute; repeat constructor|].
  rewrite (H NP 0 [0] (fun _ => 10%R)); auto.
  - unfold rsum. cbn [map fold_right length INR]. lra.
  - vm_compute; repeat constructor.
  - intros e [<-|[]]. replace (og (abs (built c0 ops_edge)) (tw (abs (built c0 ops_edge)) 0)) with 1 by (vm_compute; reflexivity).
    split; [lra|]. unfold dist2, rsum, pos_edge, at_edge. cbn [seq map fold_right Nat.eqb INR]. ring.
Qed.
Print Assumptions C80_laplacian_refuted.
