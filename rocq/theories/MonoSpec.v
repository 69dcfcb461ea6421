(** Specification vocabulary for monotone triangulators: the polygon spanned by two chains. *)
From Coq Require Import List Arith.
Import ListNotations.
Set Implicit Arguments.
Unset Strict Implicit.

(** the vertices inserted on one side ([true]: left), in order *)
Definition side_of (b : bool) (ops : list (bool * nat)) : list nat :=
  map snd (filter (fun o => Bool.eqb (fst o) b) ops).
(** Counter-clockwise: from the top down the left chain and up the right chain. *)
Definition chain_poly (v : nat) (ops : list (bool * nat)) : list nat :=
  v :: side_of true ops ++ rev (side_of false ops).

(** the mesh index of a local vertex *)
Definition index_at {P} (vs : list (P * nat)) (i : nat) : nat := nth i (map snd vs) 0.
