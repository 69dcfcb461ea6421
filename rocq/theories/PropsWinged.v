(** Property C79: the list of edges used for showing a mesh. *)
From Coq Require Import List Arith Lia Bool Permutation.
From Verif Require Import Base DVec Mesh Spec MeshMore MeshSpec MeshEx RefineEx Winged WingedSpec WingedProofs.
Import ListNotations.

(** C79. In whatever order the hash map lists its values, [pair_edges] lists every edge of a consistent mesh exactly once,
    with both half-edges, their ends, neighbours and faces, ordered by the smaller half-edge. *)
Theorem C79_pair_edges : forall (VP EP FP : Type) values (m : mesh VP EP FP), (forall h, Permutation h (values h)) -> wf m ->
  exists l, pair_edges values m = Ok l /\ lists_all_edges (abs m) l /\ 2 * length l = length (edge_ids m).
Proof. exact @pair_edges_ok. Qed.
Print Assumptions C79_pair_edges.

Example C79_example : (forall h : list (nat * winged), Permutation h (rev h)) /\ wf ex_sparse /\
  exists l, pair_edges (@rev _) ex_sparse = Ok l /\ map (fun w => (w_id w, w_twin w)) l = [(0, 1); (2, 3); (4, 5); (6, 7)].
Proof.
  split; [intros h; apply Permutation_rev|]. split; [apply wfb_ok; vm_compute; reflexivity|].
  eexists. split; vm_compute; reflexivity.
Qed.
