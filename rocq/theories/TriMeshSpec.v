(** Specification of the triangulation of a mesh. *)
From Coq Require Import List Arith ZArith Bool.
From Verif Require Import Base DVec Mesh Spec MeshSpec TriSpec TopoSpec.
Import ListNotations.
Set Implicit Arguments.
Unset Strict Implicit.

Section TriMeshSpec.
  Context {VP EP FP : Type}.
  Notation graph := (graph VP EP FP).
  Implicit Types (g : graph).
  (** the half-edges in [es], as pairs of vertices *)
  Definition arrows g (es : list nat) : list (nat * nat) := map (fun e => (og g e, og g (tw g e))) es.
  (** [es] lists the half-edges that belong to a face with property [P], each once *)
  Definition lists_sides g (P : nat -> Prop) (es : list nat) : Prop :=
    NoDup es /\ forall e, In e es <-> lv g e = true /\ exists f, fc g e = Some f /\ P f.
  (** the number of vertices of a face *)
  Definition face_size g (f n : nat) : Prop := exists l, boundary_vertices g f l /\ length l = n.
  Definition every_size g (P : nat -> Prop) : Prop := forall f n, lvf g f = true -> face_size g f n -> P n.
  Definition closed g : Prop := forall e, lv g e = true -> fc g e <> None.
  (** every directed edge of the triangles occurs as often as the opposite one *)
  Definition watertight (T : list (nat * nat * nat)) : Prop :=
    forall a b, net (flat_map (@tri_edges nat) T) a b = 0%Z.
  (** every face in [fs] is triangulated by itself, the result is put together in this order; faces whose
      size is in [r] are turned over *)
  Definition face_by_face g (r : nat -> bool) (fs : list nat) (T : list (nat * nat * nat)) : Prop :=
    exists Ts, T = concat Ts /\
      Forall2 (fun f t => exists l, boundary_vertices g f l /\ triangulates (if r (length l) then rev l else l) t) fs Ts.
  (** the face at a half-edge has at most four vertices *)
  Definition small_side g (e : nat) : Prop := exists f n, fc g e = Some f /\ face_size g f n /\ n <= 4.
  (** the faces with as many vertices as [P] says are rotated into the plane without a panic *)
  Definition placed {Q : Type} (pos2 : nat -> option Q) g (P : nat -> Prop) : Prop :=
    forall f n, lvf g f = true -> face_size g f n -> P n -> pos2 f <> None.
End TriMeshSpec.

(** A planar triangulation algorithm that triangulates whatever it does not refuse. *)
Definition sound {P : Type} (alg : list (P * nat) -> res (list (nat * nat * nat))) : Prop :=
  forall us T, alg us = Ok T -> triangulates (map snd us) T.
