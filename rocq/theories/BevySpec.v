(** Specification of the export to a Bevy mesh. *)
From Coq Require Import List Arith NArith.
From Verif Require Import Base DVec Mesh Spec MeshSpec TriSpec TopoSpec TriMeshSpec BufferSpec Bevy.
Import ListNotations.
Set Implicit Arguments.
Unset Strict Implicit.

Section BevySpec.
  Context {V3 V2 EP FP : Type}.
  Notation graph := (graph (payload V3 V2) EP FP).
  Implicit Types (g : graph).
  (** what the graphics card reads: the numbers in the index buffer *)
  Definition index_buffer (i : indices) : list N := match i with U16 l | U32 l => l end.
  (** each number in the buffer fits in the type of the buffer *)
  Definition buffer_ok (i : indices) : Prop :=
    match i with U16 l => Forall (fun x => N.lt x 65536) l | U32 l => Forall (fun x => N.lt x 4294967296) l end.
  (** a triangulation algorithm that triangulates the faces it does not refuse; those with a size in [r] turned over *)
  Definition face_sound g (r : nat -> bool) (tris : nat -> res (list (nat * nat * nat))) : Prop :=
    forall f l t, lvf g f = true -> boundary_vertices g f l -> tris f = Ok t -> triangulates (if r (length l) then rev l else l) t.
  (** the corners of the triangles, each with its face *)
  Definition corners_of (fs : list nat) (Ts : list (list (nat * nat * nat))) : list (nat * nat) :=
    flat_map (fun x => map (pair (fst x)) (flatten (snd x))) (combine fs Ts).
  (** entry [k] of the vertex buffers is vertex [v], with normal [n] *)
  Definition entry g (ps ns : list V3) (v : nat) (n : V3) (k : nat) : Prop :=
    exists p, vp g v = Some p /\ nth_error ps k = Some (p_pos p) /\ nth_error ns k = Some n.
  (** the number of corners of the faces *)
  Definition corner_count g (fs : list nat) (k : nat) : Prop :=
    exists ls, Forall2 (boundary_vertices g) fs ls /\ k = length (concat ls).
End BevySpec.
