(** Specification vocabulary for faces rotated into the plane. *)
From Coq Require Import List Arith Reals.
From Verif Require Import Base DVec Mesh Spec MeshSpec TopoSpec TriSpec AlgSpec Alg Transform TransSpec NormalsSpec.
Import ListNotations.
Set Implicit Arguments.
Unset Strict Implicit.
Local Open Scope R_scope.

(** Points of the plane: squared distance, twice the signed area of a triangle, signed area of a polygon. *)
Definition dist2 (a b : R * R) : R := (fst a - fst b) * (fst a - fst b) + (snd a - snd b) * (snd a - snd b).
Definition turn2 (a b c : R * R) : R := (fst b - fst a) * (snd c - snd a) - (snd b - snd a) * (fst c - fst a).
Definition area2 (l : list (R * R)) : R := / 2 * esum 0 Rplus (cross2 Rmult Rminus) (poly_edges l).

Definition vsub (p q : rvec) : rvec := fun i => p i - q i.
Definition vcross (p q : rvec) : rvec := fun i => cross3 Rmult Rminus i p q.

(** [h] looks at space along the unit vector [u], from the side [u] points to: distances across [u] are kept,
    distances along [u] are lost, and turns are counter-clockwise where they are around [u]. *)
Definition flattens (u : rvec) (h : rvec -> R * R) : Prop :=
  (forall p q, dist2 (h p) (h q) = rdot (vsub p q) (vsub p q) - rdot u (vsub p q) * rdot u (vsub p q)) /\
  (forall p q r, turn2 (h p) (h q) (h r) = rdot u (vcross (vsub q p) (vsub r p))).

(** The vertical. *)
Definition up : rvec := fun i => match i with 2%nat => 1 | _ => 0 end.

(** Area vectors that are not vertical, up to [eps]; that look down. *)
Definition tilted (eps : R) (a : rvec) : Prop := eps * eps * rdot a a < a 0%nat * a 0%nat + a 1%nat * a 1%nat.
Definition looks_down (eps : R) (a : rvec) : Prop := a 2%nat < 0 /\ ~ tilted eps a.

Section PlaneSpec.
  Context {FP : Type}.
  Notation graph := (graph (pnu R) (curve R) FP).
  Implicit Types (g : graph).
  (** [out] are the vertices of the face [f] in order, with the images of their positions under [h]. *)
  Definition laid_out g (f : nat) (h : rvec -> R * R) (out : list ((R * R) * nat)) : Prop :=
    exists vs ps, boundary_vertices g f vs /\ map (vp g) vs = map Some ps /\ out = combine (map (fun p => h (u_pos p)) ps) vs.
End PlaneSpec.
