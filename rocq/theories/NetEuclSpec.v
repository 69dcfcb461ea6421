(** Specification vocabulary for the weighted matrices. *)
From Coq Require Import List Reals.
From Verif Require Import Base DVec Mesh Spec MeshSpec TopoSpec.
Import ListNotations.
Set Implicit Arguments.
Unset Strict Implicit.
Local Open Scope R_scope.

(** Sum of a real function over a list. *)
Definition rsum {A} (f : A -> R) (l : list A) : R := fold_right Rplus 0 (map f l).
(** The square of the distance of two points in [D] dimensions. *)
Definition dist2 (D : nat) (p q : nat -> R) : R := rsum (fun i => (p i - q i) ^ 2) (seq 0 D).
(** [d] is the distance of two points. *)
Definition is_distance (D : nat) (p q : nat -> R) (d : R) : Prop := 0 <= d /\ d ^ 2 = dist2 D p q.

Section NetEuclSpec.
  Context {VP EP FP : Type}.
  Implicit Types g : graph VP EP FP.
  (** [at] gives the payloads of the live vertices. *)
  Definition payloads g (at_ : nat -> VP) : Prop := forall v, lvv g v = true -> vp g v = Some (at_ v).
  (** [l] lists the half-edges that leave [v]. *)
  Definition outgoing g v (l : list nat) : Prop := NoDup l /\ forall x, In x l <-> lv g x = true /\ og g x = v.
End NetEuclSpec.
