(** The list of edges used for showing a mesh: src/halfedge/mesh/pseudo_winged.rs. *)
From Coq Require Import List Arith Bool.
From Verif Require Import Base DVec Mesh.
Import ListNotations.
Set Implicit Arguments.
Unset Strict Implicit.

(** pseudo_winged.rs:13-28 [PseudoWingedEdge] *)
Record winged := mkW { w_id : nat; w_twin : nat; w_origin : nat; w_target : nat; w_prev : nat; w_face : option nat; w_next : nat;
  w_tprev : nat; w_tface : option nat; w_tnext : nat }.

Section Winged.
  Context {VP EP FP : Type}.
  Notation mesh := (mesh VP EP FP).
  (** The order in which a hash map lists its values is not specified *)
  Variable values : list (nat * winged) -> list (nat * winged).

  (** pseudo_winged.rs:63-84: the closure. The hash map is a list of keys and values; a key that is
      inserted again would replace the old value *)
  Definition pair_edge (m : mesh) (h : list (nat * winged)) (ix : nat * edge EP) : res (list (nat * winged)) :=
    let (i, x) := ix in
    let* t := m_edge m (e_twin x) in
    let* ti := d_id (edges m) (e_twin x) in
    if existsb (fun p => fst p =? ti) h then Ok h else
    Ok (filter (fun p => negb (fst p =? i)) h ++
      [(i, mkW i ti (e_origin x) (e_origin t) (e_prev x) (e_face x) (e_next x) (e_prev t) (e_face t) (e_next t))]).
  (** pseudo_winged.rs:87: [sort_by] on the ids, here by insertion *)
  Fixpoint insert_winged (w : winged) (l : list winged) : list winged :=
    match l with
    | [] => [w]
    | a :: r => if w_id w <=? w_id a then w :: l else a :: insert_winged w r
    end.
  (** pseudo_winged.rs:61-89 [pair_edges] *)
  Definition pair_edges (m : mesh) : res (list winged) :=
    let* h := foldM (fun h ix => pair_edge m h ix) (d_iter (edges m)) [] in
    Ok (fold_right insert_winged [] (map snd (values h))).
End Winged.
