(** Model of [HalfEdgeMeshImpl::import_mesh], src/halfedge/mesh/builder/halfedge.rs:325-395. *)
From Coq Require Import List Arith Bool.
From Verif Require Import Base DVec Mesh.
Import ListNotations.
Set Implicit Arguments.
Unset Strict Implicit.

(** [std::collections::HashMap] from ids to ids: insertion hides older entries of the same key, indexing
    ([map[&k]]) panics if the key is missing. The sentinel key or value is [None]. *)
Definition hmap := list (nat * nat).
Definition hm_insert (k v : nat) (h : hmap) : hmap := (k, v) :: h.
Definition hm_get (h : hmap) (k : nat) : res nat :=
  let* p := unwrap (find (fun p => fst p =? k) h) in Ok (snd p).

(** The allocation loops, lines 341-355: one id per element of the source, in iteration order. *)
Definition imp_alloc {A B} (cap : nat) (l : list (nat * A)) : res (dvec B * hmap) :=
  foldM (fun s p => let '(d, h) := s in
    let* (d', i) := d_alloc cap d in Ok (d', hm_insert (fst p) i h)) l (d_new, []).

Section Import.
  Context {VP EP FP VP' EP' FP' : Type}.
  Variables (fv : VP -> VP') (fe : EP -> EP') (ff : FP -> FP').
  Notation mesh' := (mesh VP' EP' FP').

  (** lines 357-365; the sentinel is not a key of [edge_map] *)
  Definition imp_vertex c (vm em : hmap) (m' : mesh') (p : nat * vertex VP) : res mesh' :=
    let* v := hm_get vm (fst p) in
    let* k := unwrap (v_edge (snd p)) in
    let* e := hm_get em k in
    set_vertex c m' v (mkV (Some e) (fv (v_pay (snd p)))).

  (** lines 367-376; [HalfEdgeFaceImpl::new] asserts that the edge is not the sentinel *)
  Definition imp_face c (fm em : hmap) (m' : mesh') (p : nat * face FP) : res mesh' :=
    let* f := hm_get fm (fst p) in
    let* e := hm_get em (f_edge (snd p)) in
    assert (negb (e =? capE c))
      (let* d := d_set (capF c) (faces m') f (mkF e false (ff (f_pay (snd p)))) in
       Ok (mkM (edges m') (verts m') d)).

  (** lines 378-388; [face_map] also maps the sentinel to the sentinel (line 346) *)
  Definition imp_edge c (vm fm em : hmap) (m' : mesh') (p : nat * edge EP) : res mesh' :=
    let* e := hm_get em (fst p) in
    let* v := hm_get vm (e_origin (snd p)) in
    let* f := match e_face (snd p) with None => Ok None | Some f => let* f' := hm_get fm f in Ok (Some f') end in
    let* pr := hm_get em (e_prev (snd p)) in
    let* t := hm_get em (e_twin (snd p)) in
    let* n := hm_get em (e_next (snd p)) in
    insert_halfedge c m' e v f (Some pr) t (Some n) (fe (e_pay (snd p))).

  (** src/halfedge/mesh/builder/halfedge.rs:325-395. The mesh payload (line 390) is not modelled. *)
  Definition import_mesh c (m : mesh VP EP FP) : res mesh' :=
    let* (dv, vm) := imp_alloc (capV c) (d_iter (verts m)) in
    let* (df, fm) := imp_alloc (capF c) (d_iter (faces m)) in
    let* (de, em) := imp_alloc (capE c) (d_iter (edges m)) in
    let* m1 := foldM (imp_vertex c vm em) (d_iter (verts m)) (mkM de dv df) in
    let* m2 := foldM (imp_face c fm em) (d_iter (faces m)) m1 in
    foldM (imp_edge c vm fm em) (d_iter (edges m)) m2.
End Import.
