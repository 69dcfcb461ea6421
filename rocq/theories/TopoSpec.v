(** Specification vocabulary for the whole-mesh queries. Does not mention how they work. *)
From Coq Require Import List Arith ZArith Bool.
From Verif Require Import Base DVec Mesh Spec MeshSpec.
Import ListNotations.
Set Implicit Arguments.
Unset Strict Implicit.

(** [b] is [a] read from another starting point. *)
Definition rotation (a b : list nat) : Prop := exists l1 l2, a = l1 ++ l2 /\ b = l2 ++ l1.

Section TopoSpec.
  Context {VP EP FP : Type}.
  Implicit Types g : graph VP EP FP.

  (** There is an edge from [u] to [v]. *)
  Definition adjacent g u v : Prop :=
    exists e, lv g e = true /\ og g e = u /\ og g (tw g e) = v.

  (** A walk along edges, given by its vertices. *)
  Fixpoint walk g (l : list nat) : Prop :=
    match l with
    | u :: ((v :: _) as r) => adjacent g u v /\ walk g r
    | _ => True
    end.
  Definition walk_from_to g u v l : Prop := hd_error l = Some u /\ (exists l0, l = l0 ++ [v]) /\ walk g l.

  (** No two half-edges between the same ordered pair of vertices; no edge from a vertex to itself. *)
  Definition no_parallel g : Prop := forall e e',
    lv g e = true -> lv g e' = true -> og g e = og g e' -> og g (tw g e) = og g (tw g e') -> e = e'.
  Definition no_self_loop g : Prop := forall e, lv g e = true -> og g (tw g e) <> og g e.

  (** The operation does not connect a vertex to itself. *)
  Definition joins_distinct g (o : bop VP EP FP) : Prop :=
    match o with
    | BInsertEdge i _ o _ | BCloseFace i _ o _ _ _ => og g (tw g i) <> og g (tw g o)
    | BCloseFaceVertices _ _ from _ to _ _ => from <> to
    | _ => True
    end.
  Fixpoint joins_distinct_run (c : cfg) (m : mesh VP EP FP) (os : list (bop VP EP FP)) : Prop :=
    match os with
    | [] => True
    | o :: os => joins_distinct (abs m) o /\ forall m1, bstep c m o = Ok m1 -> joins_distinct_run c m1 os
    end.
  (** What a client can build in a debug build without connecting a vertex to itself. *)
  Definition simply_reachable (m : mesh VP EP FP) : Prop :=
    exists c os, dbg c = true /\ bpre_run c empty_mesh os /\ joins_distinct_run c empty_mesh os /\
      brun c empty_mesh os = Ok m.

  (** The live vertices are 0..n-1. *)
  Definition dense g (n : nat) : Prop := forall v, lvv g v = true <-> v < n.
  (** [k] half-edges leave [v]. *)
  Definition out_number g v (k : nat) : Prop :=
    exists l, NoDup l /\ length l = k /\ forall x, In x l <-> lv g x = true /\ og g x = v.

  (** Sum of a row of an n x n matrix. *)
  Definition row_sum (n : nat) (a : nat -> nat -> Z) (i : nat) : Z :=
    fold_right Z.add 0%Z (map (a i) (seq 0 n)).

  (** The vertices around a face: where its half-edges end, in loop order starting with the
      representative. *)
  Definition boundary_vertices g (f : nat) (l : list nat) : Prop :=
    exists es, loop g (fe g f :: es) /\ l = map (fun e => og g (tw g e)) (fe g f :: es).
End TopoSpec.

(** A vertex map between two meshes that preserves everything [is_isomorphic] promises: a bijection
    of the live vertices, adjacency in both directions, and faces in both directions. *)
Record isomorphism {VP EP FP VP2 EP2 FP2} (g : graph VP EP FP) (g2 : graph VP2 EP2 FP2) (h : nat -> nat) : Prop := {
  is_maps : forall v, lvv g v = true -> lvv g2 (h v) = true;
  is_inj : forall v w, lvv g v = true -> lvv g w = true -> h v = h w -> v = w;
  is_surj : forall w, lvv g2 w = true -> exists v, lvv g v = true /\ h v = w;
  is_adj : forall u v, lvv g u = true -> lvv g v = true -> (adjacent g u v <-> adjacent g2 (h u) (h v));
  is_face : exists k : nat -> nat,
    (forall f, lvf g f = true -> lvf g2 (k f) = true) /\
    (forall f f', lvf g f = true -> lvf g f' = true -> k f = k f' -> f = f') /\
    (forall f2, lvf g2 f2 = true -> exists f, lvf g f = true /\ k f = f2) /\
    (forall f l l2, lvf g f = true -> boundary_vertices g f l -> boundary_vertices g2 (k f) l2 ->
       rotation (map h l) l2)
}.
