(** Independent vocabulary for comparing meshes by the positions of their vertices. *)
From Coq Require Import List Arith.
From Verif Require Import Spec.
Set Implicit Arguments.
Unset Strict Implicit.

Section IsoPosSpec.
  Context {VP EP FP VP2 EP2 FP2 : Type}.
  (** No vertex is near to two vertices of the other mesh. *)
  Definition apart_by (near : VP -> VP2 -> bool) (g : graph VP EP FP) (g2 : graph VP2 EP2 FP2) : Prop :=
    forall v w w' p q q', lvv g v = true -> lvv g2 w = true -> lvv g2 w' = true -> vp g v = Some p -> vp g2 w = Some q -> vp g2 w' = Some q' ->
      near p q = true -> near p q' = true -> w = w'.
  (** Every vertex is near to its image. *)
  Definition near_along (near : VP -> VP2 -> bool) (g : graph VP EP FP) (g2 : graph VP2 EP2 FP2) (h : nat -> nat) : Prop :=
    forall v p q, lvv g v = true -> vp g v = Some p -> vp g2 (h v) = Some q -> near p q = true.
End IsoPosSpec.
