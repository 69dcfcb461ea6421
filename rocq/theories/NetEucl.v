(** Model of the matrices of src/mesh/mesh/netsci.rs that are weighted by distances, in exact arithmetic. *)
From Coq Require Import List Arith Bool Reals.
From Verif Require Import Base DVec Mesh MeshMore Topo.
Import ListNotations.
Set Implicit Arguments.
Unset Strict Implicit.

Section NetEucl.
  Context {VP EP FP : Type}.
  (** [D] dimensions; the position of a vertex payload *)
  Variables (D : nat) (pos : VP -> nat -> R).
  Implicit Types (m : mesh VP EP FP) (c : cfg).

  Definition rmatrix := nat -> nat -> R.
  (** [adj[(i, j)] = x]: an index outside [n] x [n] panics *)
  Definition rset (n : nat) (a : rmatrix) (i j : nat) (x : R) : res rmatrix :=
    assert ((i <? n) && (j <? n)) (Ok (fun i' j' => if (i' =? i) && (j' =? j) then x else a i' j')).
  (** math/vector.rs [distance], [distance_squared]: extensions/nalgebra/math/vec_n.rs:22-29; the bevy types
      call the library (extensions/bevy/math/vec2.rs:12-19, vec3.rs:27-34, vec4.rs:19-26) *)
  Definition distance (p q : nat -> R) : R :=
    sqrt (fold_right (fun i s => ((p i - q i) * (p i - q i) + s)%R) 0%R (seq 0 D)).

  (** netsci.rs:43-49: the body of the loop *)
  Definition euclidean_entry m (a : rmatrix) (e : nat) : res rmatrix :=
    let n := num_vertices m in
    let* i := g_origin m e in
    let* j := g_target m e in
    let* x := m_vertex m i in
    let* y := m_vertex m j in
    let d := distance (pos (v_pay x)) (pos (v_pay y)) in
    let* a := rset n a i j d in
    rset n a j i d.
  (** netsci.rs:32-51 [adjacency_matrix_euclidean] *)
  Definition adjacency_matrix_euclidean m : res rmatrix :=
    assert (has_consecutive_vertex_ids m) (foldM (euclidean_entry m) (edge_ids m) (fun _ _ => 0%R)).
  (** netsci.rs:84-89 [laplacian_euclidean]; [degree_matrix] has the numbers of edges ([S::from_usize]) *)
  Definition laplacian_euclidean c m : res rmatrix :=
    let* d := degree_matrix c m in
    let* a := adjacency_matrix_euclidean m in
    Ok (fun i j => (IZR (d i j) - a i j)%R).
End NetEucl.
