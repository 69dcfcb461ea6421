(** Specification of the flat-normal export. *)
From Coq Require Import List Arith.
From Verif Require Import Base.
Import ListNotations.
Set Implicit Arguments.
Unset Strict Implicit.

Section ExportSpec.
  Variable VP : Type.
  (** index [y] of the exported buffer stands for vertex [x] of face [f], whose block starts at [off] *)
  Definition stands_for (f : list (nat * VP)) (off x y : nat) : Prop :=
    exists j p, nth_error f j = Some (x, p) /\ y = off + j.
  (** the exported indices: per face the triangles of [tf], each corner in the face's own block *)
  Fixpoint flat_indices (tf : list (nat * VP) -> res (list nat)) (fs : list (list (nat * VP))) (off : nat) (ix : list nat) : Prop :=
    match fs with
    | [] => ix = []
    | f :: fs => exists app blk rest, tf f = Ok app /\ ix = blk ++ rest /\ Forall2 (stands_for f off) app blk /\
                   flat_indices tf fs (off + length f) rest
    end.
  (** the exported vertices: one block per face *)
  Definition flat_verts (set_normal : list (nat * VP) -> VP -> VP) (fs : list (list (nat * VP))) : list VP :=
    flat_map (fun f => map (fun v => set_normal f (snd v)) f) fs.
End ExportSpec.
