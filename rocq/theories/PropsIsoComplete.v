(** C74: the comparison of meshes decides isomorphism. *)
From Coq Require Import List Arith.
From Verif Require Import Base DVec Mesh MeshMore Spec MeshSpec MeshEx Topo TopoSpec TopoEx RefineSpec Import IsoProofs IsoPos IsoPosSpec IsoComplete IsoEx.
Import ListNotations.

(** C74. If no two edges are parallel and no vertex is near to two vertices of the other mesh, the comparison by position
    never panics and reports the meshes as equivalent exactly if they are isomorphic by a map to near vertices. *)
Theorem C74_decides :
  forall (VP EP FP VP2 EP2 FP2 : Type) (near : VP -> VP2 -> bool) (c : cfg) (m : mesh VP EP FP) (m2 : mesh VP2 EP2 FP2),
    wf m -> wf m2 -> no_parallel (abs m) -> no_parallel (abs m2) -> apart_by near (abs m) (abs m2) ->
    exists d, is_isomorphic_by_pos near c m m2 = Ok d /\
      (d = Equivalent <-> exists h, isomorphism (abs m) (abs m2) h /\ near_along near (abs m) (abs m2) h).
Proof. exact @pos_decides. Qed.
Print Assumptions C74_decides.

Example C74_example :
  let m := built c0 (ops_tri 0 10 20) in let m2 := built c0 (ops_tri 10 20 0) in let m3 := built c0 (ops_tri 0 20 10) in
  wf m /\ wf m2 /\ wf m3 /\ no_parallel (abs m) /\ no_parallel (abs m2) /\ no_parallel (abs m3) /\
  apart_by Nat.eqb (abs m) (abs m2) /\ apart_by Nat.eqb (abs m) (abs m3) /\
  is_isomorphic_by_pos Nat.eqb c0 m m2 = Ok Equivalent /\ is_isomorphic_by_pos Nat.eqb c0 m m3 = Ok (NoCorrespondingFace 0).
Proof. exact tri_example. Qed.

(** The same for any similarity of vertices. *)
Theorem C74_decides_by :
  forall (VP EP FP VP2 EP2 FP2 : Type) (same : nat -> nat -> bool) (c : cfg) (m : mesh VP EP FP) (m2 : mesh VP2 EP2 FP2),
    wf m -> wf m2 -> no_parallel (abs m) -> no_parallel (abs m2) ->
    (forall v w w', lvv (abs m) v = true -> lvv (abs m2) w = true -> lvv (abs m2) w' = true ->
       same v w = true -> same v w' = true -> w = w') ->
    exists d, is_isomorphic_by c same m m2 = Ok d /\
      (d = Equivalent <-> exists h, isomorphism (abs m) (abs m2) h /\ forall v, lvv (abs m) v = true -> same v (h v) = true).
Proof. exact @by_decides. Qed.
Print Assumptions C74_decides_by.

(** The comparison never panics, whatever the similarity and with parallel edges. *)
Theorem C74_total :
  forall (VP EP FP VP2 EP2 FP2 : Type) (same : nat -> nat -> bool) (c : cfg) (m : mesh VP EP FP) (m2 : mesh VP2 EP2 FP2),
    wf m -> wf m2 -> exists d, is_isomorphic_by c same m m2 = Ok d.
Proof. exact @by_total. Qed.
Print Assumptions C74_total.

(** For a given vertex map and given comparisons of the elements: an isomorphism that the comparisons accept is accepted. *)
Theorem C74_given_map :
  forall (VP EP FP VP2 EP2 FP2 : Type) (cmpv cmpe cmpf : nat -> nat -> bool) (c : cfg)
         (m : mesh VP EP FP) (m2 : mesh VP2 EP2 FP2) (iso : list (nat * nat)),
    wf m -> wf m2 ->
    (forall v, lvv (abs m) v = true -> exists w, assoc v iso = Some w /\ lvv (abs m2) w = true) ->
    no_parallel (abs m) -> no_parallel (abs m2) -> isomorphism (abs m) (abs m2) (img iso) ->
    (forall v, lvv (abs m) v = true -> cmpv v (img iso v) = true) ->
    (forall e e2, lv (abs m) e = true -> lv (abs m2) e2 = true -> og (abs m2) e2 = img iso (og (abs m) e) ->
       og (abs m2) (tw (abs m2) e2) = img iso (og (abs m) (tw (abs m) e)) -> cmpe e e2 = true) ->
    (forall f f2 l l2, lvf (abs m) f = true -> lvf (abs m2) f2 = true -> boundary_vertices (abs m) f l ->
       boundary_vertices (abs m2) f2 l2 -> rotation (map (img iso) l) l2 -> cmpf f f2 = true) ->
    is_isomorphic cmpv cmpe cmpf c m m2 iso = Ok Equivalent.
Proof. exact @iso_accepted. Qed.
Print Assumptions C74_given_map.

(** What [import_mesh] makes of a mesh without parallel edges is equivalent to the mesh, if the positions tell the vertices apart. *)
Theorem C74_import :
  forall (VP EP FP VP' EP' FP' : Type) (fv : VP -> VP') (fh : EP -> EP') (ff : FP -> FP') (near : VP -> VP' -> bool)
         (c c' : cfg) (m : mesh VP EP FP),
    wf m -> d_len (edges m) <= capE c -> d_len (verts m) <= capV c -> d_len (faces m) <= capF c ->
    importable (abs m) -> no_parallel (abs m) ->
    (forall v w p q, lvv (abs m) v = true -> lvv (abs m) w = true -> vp (abs m) v = Some p -> vp (abs m) w = Some q ->
       (near p (fv q) = true <-> v = w)) ->
    exists m', import_mesh fv fh ff c m = Ok m' /\ is_isomorphic_by_pos near c' m m' = Ok Equivalent.
Proof. exact @import_recognised. Qed.
Print Assumptions C74_import.

Example C74_import_example : let m := built c0 (ops_tri 0 10 20) in
  wf m /\ d_len (edges m) <= capE c0 /\ d_len (verts m) <= capV c0 /\ d_len (faces m) <= capF c0 /\ importable (abs m) /\ no_parallel (abs m) /\
  (forall v w p q, lvv (abs m) v = true -> lvv (abs m) w = true -> vp (abs m) v = Some p -> vp (abs m) w = Some q ->
     (Nat.eqb (p + 7) (q + 7) = true <-> v = w)).
Proof. exact import_example. Qed.

(** [is_isomorphic_pos], documented as using the positions to canonicalize the ids, compares equal ids only: two isomorphic
    triangles with the same positions are reported different. *)
Theorem C74_positions_refuted :
  exists (m m2 : mesh nat nat nat) h, simply_reachable m /\ simply_reachable m2 /\ apart_by Nat.eqb (abs m) (abs m2) /\
    isomorphism (abs m) (abs m2) h /\ near_along Nat.eqb (abs m) (abs m2) h /\
    is_isomorphic_pos Nat.eqb m m2 = Ok (DifferentVertices 0 0).
Proof. exact pos_refuted. Qed.
Print Assumptions C74_positions_refuted.

(** With parallel edges a mesh may be reported different from itself. *)
Theorem C74_parallel_refuted :
  exists (m : mesh nat nat nat), wf m /\ apart_by Nat.eqb (abs m) (abs m) /\ isomorphism (abs m) (abs m) (fun v => v) /\
    is_isomorphic_by_pos Nat.eqb c_release m m = Ok (NoCorrespondingFace 1).
Proof. exact twice_refuted. Qed.
Print Assumptions C74_parallel_refuted.
