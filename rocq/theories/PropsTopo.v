(** Properties C22-C26: shortest paths, network matrices, comparison of meshes. *)
From Coq Require Import List Arith ZArith Bool.
From Verif Require Import Base DVec Mesh Spec MeshSpec MeshMore MeshEx Topo TopoSpec TopoEx.
From Verif Require Import MeshProofs TopoProofs NetProofs IsoProofs SimpleProofs.
Import ListNotations.

(** C22. [shortest_path] terminates without a panic; a returned path leads along edges from [v0] to
    [v1] and no walk is shorter; no path is returned exactly if there is no walk. *)
Theorem C22_shortest_path :
  forall (VP EP FP : Type) (c : cfg) (m : mesh VP EP FP) v0 v1, wf m -> lvv (abs m) v1 = true ->
    exists r, shortest_path c m v0 v1 = Ok r /\
      match r with
      | Some p => walk_from_to (abs m) v0 v1 p /\ forall q, walk_from_to (abs m) v0 v1 q -> length p <= length q
      | None => forall q, ~ walk_from_to (abs m) v0 v1 q
      end.
Proof. exact @shortest_path_ok. Qed.
Print Assumptions C22_shortest_path.

Example C22_example : wf (built c0 ops_kite) /\ lvv (abs (built c0 ops_kite)) 3 = true /\
  shortest_path c0 (built c0 ops_kite) 1 3 = Ok (Some [1; 2; 3]) /\
  wf (built c_release ops_double) /\ lvv (abs (built c_release ops_double)) 2 = true /\
  shortest_path c0 (built c_release ops_double) 1 2 = Ok None.
Proof.
  split; [apply wfb_ok; vm_compute; reflexivity|]. split; [reflexivity|]. split; [vm_compute; reflexivity|].
  split; [apply wfb_ok; vm_compute; reflexivity|]. split; [reflexivity|]. vm_compute; reflexivity.
Qed.

(** C23. The meshes a client can build in a debug build without connecting a vertex to itself have
    no parallel edges and no self-loops. *)
Theorem C23_simple_edges :
  forall (VP EP FP : Type) (m : mesh VP EP FP), simply_reachable m ->
    wf m /\ no_parallel (abs m) /\ no_self_loop (abs m).
Proof. exact @simply_reachable_ok. Qed.
Print Assumptions C23_simple_edges.

(** The adjacency matrix is symmetric, one at adjacent pairs and zero elsewhere. *)
Theorem C23_adjacency :
  forall (VP EP FP : Type) (m : mesh VP EP FP), wf m -> dense (abs m) (num_vertices m) ->
    exists a, adjacency_matrix m = Ok a /\
      forall i j, a i j = a j i /\
        ((adjacent (abs m) i j /\ a i j = 1%Z) \/ (~ adjacent (abs m) i j /\ a i j = 0%Z)).
Proof. exact @adjacency_ok. Qed.
Print Assumptions C23_adjacency.

(** Without consecutive vertex ids there is a panic. *)
Theorem C23_adjacency_panics :
  forall (VP EP FP : Type) (m : mesh VP EP FP), wf m -> ~ dense (abs m) (num_vertices m) -> adjacency_matrix m = Panic.
Proof. exact @adjacency_panics. Qed.
Print Assumptions C23_adjacency_panics.

(** The degree matrix is diagonal with the numbers of outgoing half-edges. *)
Theorem C23_degree :
  forall (VP EP FP : Type) (c : cfg) (m : mesh VP EP FP), wf m -> dense (abs m) (num_vertices m) ->
    exists d, degree_matrix c m = Ok d /\
      (forall i, i < num_vertices m -> exists k, out_number (abs m) i k /\ d i i = Z.of_nat k) /\
      (forall i j, i <> j -> d i j = 0%Z).
Proof. exact @degree_ok. Qed.
Print Assumptions C23_degree.

(** The Laplacian; its rows sum to zero if edges are simple. *)
Theorem C23_laplacian :
  forall (VP EP FP : Type) (c : cfg) (m : mesh VP EP FP), wf m -> dense (abs m) (num_vertices m) ->
    exists a, laplacian c m = Ok a /\
      (forall i j, i < num_vertices m -> j < num_vertices m -> i <> j -> a i j = a j i /\
         ((adjacent (abs m) i j /\ a i j = (-1)%Z) \/ (~ adjacent (abs m) i j /\ a i j = 0%Z))) /\
      (no_parallel (abs m) -> no_self_loop (abs m) -> forall i, i < num_vertices m ->
         (exists k, out_number (abs m) i k /\ a i i = Z.of_nat k) /\ row_sum (num_vertices m) a i = 0%Z).
Proof. exact @laplacian_ok. Qed.
Print Assumptions C23_laplacian.

Example C23_example :
  simply_reachable (built c0 ops_kite) /\ dense (abs (built c0 ops_kite)) (num_vertices (built c0 ops_kite)).
Proof.
  split; [exists c0, ops_kite; reach_by ops_kite|]. apply consecutive_dense.
  - apply wfb_ok; vm_compute; reflexivity.
  - vm_compute; reflexivity.
Qed.

(** A debug build lets a client connect a vertex to itself; then a row does not sum to zero. *)
Theorem C23_self_loop_refuted :
  exists (c : cfg) (m : mesh nat nat nat) a i, reachable m /\ dense (abs m) (num_vertices m) /\
    laplacian c m = Ok a /\ i < num_vertices m /\ row_sum (num_vertices m) a i <> 0%Z.
Proof.
  exists c0, (built c0 ops_self). eexists. exists 1.
  assert (R : reachable (built c0 ops_self)).
  { exists c0, ops_self. split; [reflexivity|]. split; [|vm_compute; reflexivity]. unfold ops_self, ops_path. cbn [app].
    repeat (split; [vm_compute; intuition discriminate|intros ? H; vm_compute in H; injection H as <-]). exact I. }
  split; [exact R|]. split.
  { apply consecutive_dense; [apply reachable_wf; exact R|vm_compute; reflexivity]. }
  split; [vm_compute; reflexivity|]. split; [vm_compute; repeat constructor|]. vm_compute. discriminate.
Qed.
Print Assumptions C23_self_loop_refuted.

(** C24. Accepted meshes are isomorphic, by a map that respects the given similarity of vertices. *)
Theorem C24_is_isomorphic_by_sound :
  forall (VP EP FP VP2 EP2 FP2 : Type) (same : nat -> nat -> bool) (c : cfg)
         (m : mesh VP EP FP) (m2 : mesh VP2 EP2 FP2),
    wf m -> wf m2 -> no_parallel (abs m) -> is_isomorphic_by c same m m2 = Ok Equivalent ->
    exists h, isomorphism (abs m) (abs m2) h /\ forall v, lvv (abs m) v = true -> same v (h v) = true.
Proof. exact @is_isomorphic_by_sound. Qed.
Print Assumptions C24_is_isomorphic_by_sound.

(** The same for a given vertex map without collisions and given comparisons. *)
Theorem C24_is_isomorphic_sound :
  forall (VP EP FP VP2 EP2 FP2 : Type) (cmpv cmpe cmpf : nat -> nat -> bool) (c : cfg)
         (m : mesh VP EP FP) (m2 : mesh VP2 EP2 FP2) (iso : list (nat * nat)),
    wf m -> wf m2 -> no_parallel (abs m) ->
    (forall v w, lvv (abs m) v = true -> lvv (abs m) w = true -> img iso v = img iso w -> v = w) ->
    is_isomorphic cmpv cmpe cmpf c m m2 iso = Ok Equivalent ->
    isomorphism (abs m) (abs m2) (img iso) /\ (forall v, lvv (abs m) v = true -> cmpv v (img iso v) = true) /\
    (forall e, lv (abs m) e = true -> exists e2, lv (abs m2) e2 = true /\ og (abs m2) e2 = img iso (og (abs m) e) /\
       og (abs m2) (tw (abs m2) e2) = img iso (og (abs m) (tw (abs m) e)) /\ cmpe e e2 = true).
Proof. exact @is_isomorphic_sound. Qed.
Print Assumptions C24_is_isomorphic_sound.

Example C24_example : simply_reachable (built c0 ops_kite) /\
  is_isomorphic_by c0 Nat.eqb (built c0 ops_kite) (built c0 ops_kite) = Ok Equivalent.
Proof. split; [exists c0, ops_kite; reach_by ops_kite|vm_compute; reflexivity]. Qed.

(** With parallel edges, which a release build accepts, it is unsound: two edges between 0 and 1 and
    an isolated vertex 2 are reported equivalent to the path 0 - 1 - 2. *)
Theorem C24_parallel_refuted :
  exists m m2 : mesh nat nat nat, wf m /\ wf m2 /\ is_isomorphic_by c_release Nat.eqb m m2 = Ok Equivalent /\
    ~ exists h, isomorphism (abs m) (abs m2) h /\ forall v, lvv (abs m) v = true -> Nat.eqb v (h v) = true.
Proof.
  exists (built c_release ops_double), (built c_release ops_path).
  split; [apply wfb_ok; vm_compute; reflexivity|]. split; [apply wfb_ok; vm_compute; reflexivity|].
  split; [vm_compute; reflexivity|]. intros (h & I & S).
  assert (A : adjacent (abs (built c_release ops_path)) (h 1) (h 2)).
  { pose proof (S 1 eq_refl) as A. pose proof (S 2 eq_refl) as B. apply Nat.eqb_eq in A, B.
    rewrite <- A, <- B. exists 2. repeat split. }
  apply (is_adj I) in A; [|reflexivity|reflexivity]. revert A. apply no_edge. vm_compute. reflexivity.
Qed.
Print Assumptions C24_parallel_refuted.

(** C25. Accepted meshes have the same ids, origins and targets, without parallel edges also the same
    twins; the representative edge of a face in the second mesh belongs to that face in the first. *)
Theorem C25_is_trivially_isomorphic :
  forall (VP EP FP : Type) (cmpv cmpe cmpf : nat -> nat -> bool) (m m2 : mesh VP EP FP), wf m -> wf m2 ->
    is_trivially_isomorphic_ex cmpv cmpe cmpf m m2 = Ok Equivalent ->
    (forall v, lvv (abs m) v = lvv (abs m2) v) /\ (forall e, lv (abs m) e = lv (abs m2) e) /\
    (forall f, lvf (abs m) f = lvf (abs m2) f) /\
    (forall e, lv (abs m) e = true ->
       og (abs m) e = og (abs m2) e /\ og (abs m) (tw (abs m) e) = og (abs m2) (tw (abs m2) e)) /\
    (no_parallel (abs m) -> forall e, lv (abs m) e = true -> tw (abs m) e = tw (abs m2) e) /\
    (forall f, lvf (abs m) f = true -> fc (abs m) (fe (abs m2) f) = Some f).
Proof. exact @trivially_isomorphic_sound. Qed.
Print Assumptions C25_is_trivially_isomorphic.

Example C25_example : wf (built c0 ops_kite) /\
  is_trivially_isomorphic (built c0 ops_kite) (built c0 ops_kite) = Ok Equivalent.
Proof. split; [apply wfb_ok; vm_compute; reflexivity|vm_compute; reflexivity]. Qed.

(** The full statement is false: the connectivity of the second mesh is looked up in the first, so
    meshes with different successors are accepted. *)
Theorem C25_connectivity_refuted :
  exists m m2 : mesh nat nat nat, simply_reachable m /\ simply_reachable m2 /\
    is_trivially_isomorphic m m2 = Ok Equivalent /\
    exists e, lv (abs m) e = true /\ nx (abs m) e <> nx (abs m2) e.
Proof.
  exists (built c0 ops_star1), (built c0 ops_star2).
  split; [exists c0, ops_star1; unfold ops_star1; reach_by ops_path|].
  split; [exists c0, ops_star2; unfold ops_star2; reach_by ops_path|].
  split; [vm_compute; reflexivity|]. exists 0. split; [reflexivity|]. vm_compute. discriminate.
Qed.
Print Assumptions C25_connectivity_refuted.

(** C26. [equal_up_to_rotation] never panics and decides rotation of non-empty lists. *)
Theorem C26_equal_up_to_rotation :
  forall a b : list nat, exists r, equal_up_to_rotation a b = Ok r /\ (r = true <-> a <> [] /\ rotation a b).
Proof. exact equal_up_to_rotation_ok. Qed.
Print Assumptions C26_equal_up_to_rotation.

Example C26_example : equal_up_to_rotation [1; 2; 1; 3] [1; 3; 1; 2] = Ok true /\ equal_up_to_rotation [1; 2; 3] [1; 3; 2] = Ok false.
Proof. split; vm_compute; reflexivity. Qed.

(** Two empty lists are rotations of each other but reported different. *)
Theorem C26_empty_refuted : rotation [] [] /\ equal_up_to_rotation [] [] = Ok false.
Proof. split; [exists [], []; auto|reflexivity]. Qed.
Print Assumptions C26_empty_refuted.
