(** Properties of Loop's subdivision. *)
From Coq Require Import List Arith QArith.
From Verif Require Import Base DVec Mesh Spec MeshSpec MeshMore MeshEx Solid Subdivision SubdivSpec SubdivFacts SubdivEx Alg Transform TransEx SubdivLinear.
Import ListNotations.
Local Open Scope nat_scope.

(** C21. [loop_subdivision] of a closed triangle mesh cuts every triangle into four, with one new
    vertex per edge. *)
Theorem C21_loop_subdivision :
  forall (VP EP FP : Type) (phi : list (nat * VP) -> VP) (dE : EP) (interp : mesh VP EP FP -> list (nat * nat) -> res VP)
    (P : VP -> VP -> VP -> Prop), reads P phi interp ->
  forall (c : cfg) (m : mesh VP EP FP) (a b d : nat), wf m -> triangles (abs m) -> every_face P (abs m) ->
    fits c m (3 * num_edges m + a) (num_edges m / 2 + b) (3 * num_faces m + d) ->
    exists m' mid, loop_subdivision dE interp c m = Ok m' /\ wf m' /\ triangles (abs m') /\
      subdivided mid (abs m) (abs m') /\ middles phi mid (abs m) (abs m') /\
      num_edges m' = 4 * num_edges m /\ num_vertices m' = num_vertices m + num_edges m / 2 /\ num_faces m' = 4 * num_faces m /\
      fits c m' a b d.
Proof. exact @loop_subdivision_ok. Qed.
Print Assumptions C21_loop_subdivision.

(** [subdivision_frequency] with [(2^k, 0)] does this [k] times. *)
Theorem C21_frequency :
  forall (VP EP FP : Type) (phi : list (nat * VP) -> VP) (dE : EP) (interp : mesh VP EP FP -> list (nat * nat) -> res VP)
    (P : VP -> VP -> VP -> Prop), reads P phi interp -> survives (EP := EP) (FP := FP) P phi ->
  forall (c : cfg) (k : nat) (m : mesh VP EP FP), wf m -> triangles (abs m) -> every_face P (abs m) ->
    fits c m ((4 ^ k - 1) * num_edges m) ((4 ^ k - 1) / 3 * (num_edges m / 2)) ((4 ^ k - 1) * num_faces m) ->
    exists m', (let* d := sd_new (2 ^ k) 0 in subdivision_frequency dE interp c m d) = Ok m' /\
      wf m' /\ triangles (abs m') /\ every_face P (abs m') /\ refined phi k (abs m) (abs m') /\
      num_edges m' = 4 ^ k * num_edges m /\ num_vertices m' = num_vertices m + (4 ^ k - 1) / 3 * (num_edges m / 2) /\
      num_faces m' = 2 ^ k * 2 ^ k * num_faces m.
Proof. exact @frequency_ok. Qed.
Print Assumptions C21_frequency.

(** With [LinearVertexInterpolator] every new vertex is in the middle of its edge. *)
Theorem C21_linear :
  forall (EP FP : Type) (dE : EP) (c : cfg) (m : mesh (pnu Q) EP FP), wf m -> triangles (abs m) ->
    fits c m (3 * num_edges m) (num_edges m / 2) (3 * num_faces m) ->
    exists m' mid, loop_subdivision dE q_linear c m = Ok m' /\ wf m' /\ subdivided mid (abs m) (abs m') /\
      forall e, lv (abs m) e = true -> exists p q x, vp (abs m) (og (abs m) e) = Some p /\
        vp (abs m) (og (abs m) (tw (abs m) e)) = Some q /\ vp (abs m') (mid e) = Some x /\
        forall i, (2 * u_pos x i == u_pos p i + u_pos q i)%Q.
Proof. exact @linear_subdivision. Qed.
Print Assumptions C21_linear.

Example C21_linear_example : wf q_tetrahedron /\ triangles (abs q_tetrahedron) /\ num_edges q_tetrahedron = 12 /\
  fits c0 q_tetrahedron (3 * num_edges q_tetrahedron) (num_edges q_tetrahedron / 2) (3 * num_faces q_tetrahedron).
Proof. exact q_tetrahedron_ok. Qed.

(** Every other description panics. *)
Theorem C21_frequency_panics :
  forall (VP EP FP : Type) (dE : EP) (interp : mesh VP EP FP -> list (nat * nat) -> res VP) (c : cfg) (m : mesh VP EP FP) (b cc : nat),
    (forall k, ~ (b = 2 ^ k /\ cc = 0)) ->
    (let* d := sd_new b cc in subdivision_frequency dE interp c m d) = Panic.
Proof. exact @frequency_panics. Qed.
Print Assumptions C21_frequency_panics.

Example C21_example : reads (fun _ _ _ => True) line_mid line_call /\
  survives (EP := nat) (FP := nat) (fun _ _ _ => True) line_mid /\
  wf ex_tetrahedron /\ triangles (abs ex_tetrahedron) /\ every_face (fun _ _ _ => True) (abs ex_tetrahedron) /\
  num_edges ex_tetrahedron = 12 /\ num_vertices ex_tetrahedron = 4 /\ num_faces ex_tetrahedron = 4 /\
  fits c0 ex_tetrahedron ((4 ^ 2 - 1) * 12) ((4 ^ 2 - 1) / 3 * (12 / 2)) ((4 ^ 2 - 1) * 4) /\
  (forall k, ~ (6 = 2 ^ k /\ 0 = 0)).
Proof.
  split; [exact line_reads|]. split; [apply true_survives|].
  split; [apply wfb_ok; vm_compute; reflexivity|]. split; [apply trianglesb_ok; vm_compute; reflexivity|].
  split; [intros h p q r _ _ _ _; exact I|]. do 3 (split; [vm_compute; reflexivity|]).
  split.
  { repeat split; apply Nat.leb_le; vm_compute; reflexivity. }
  intros k [E _]. assert (H : Nat.land 6 (6 - 1) = 0) by (apply pow_land; [repeat constructor|eauto]). discriminate H.
Qed.

(** With a boundary, or with half-edges that end where they start, the result is not consistent. *)
Theorem C21_boundary_refuted : exists (m m' : mesh nat nat nat), wf m /\
  (forall e, lv (abs m) e = true -> nx (abs m) (nx (abs m) (nx (abs m) e)) = e /\ nx (abs m) e <> e /\ og (abs m) (tw (abs m) e) <> og (abs m) e) /\
  loop_subdivision 0 line_call c0 m = Ok m' /\ ~ wf m' /\ num_edges m' = 15.
Proof. exact subdivide_open. Qed.
Print Assumptions C21_boundary_refuted.

Theorem C21_closed_refuted : exists (m m' : mesh nat nat nat), wf m /\
  (forall e, lv (abs m) e = true -> fc (abs m) e <> None /\ nx (abs m) (nx (abs m) (nx (abs m) e)) = e /\ nx (abs m) e <> e) /\
  loop_subdivision 0 line_call c0 m = Ok m' /\ ~ wf m' /\ num_edges m = 6 /\ num_vertices m = 1 /\ num_vertices m' = 3.
Proof. exact subdivide_torus. Qed.
Print Assumptions C21_closed_refuted.
