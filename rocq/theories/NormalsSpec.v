(** Specification vocabulary for smooth normals. *)
From Coq Require Import List Arith Reals.
From Verif Require Import Base DVec Mesh Spec MeshSpec TopoSpec TriSpec AlgSpec Alg Transform TransSpec.
Import ListNotations.
Set Implicit Arguments.
Unset Strict Implicit.

Notation rvec := (nat -> R).
Notation rdot := (dot3 Rplus Rmult).

(** [u] is the unit vector in the direction of [a]; if [a] is zero, so is [u]. *)
Definition direction (a u : rvec) : Prop :=
  (exists k, (0 < k)%R /\ rdot u u = 1%R /\ forall i, i < 3 -> a i = (k * u i)%R) \/
  (forall i, i < 3 -> a i = 0%R /\ u i = 0%R).

(** The sum of some vectors. *)
Definition vsum (l : list rvec) : rvec := fun i => sum 0%R Rplus (map (fun v => v i) l).

Section NormalsSpec.
  Context {FP : Type}.
  Notation graph := (graph (pnu R) (curve R) FP).
  Implicit Types (g : graph).

  (** The area vector of a face: half the sum of the cross products along its boundary. *)
  Definition face_area g (f : nat) (a : rvec) : Prop :=
    exists vs ps, boundary_vertices g f vs /\ map (vp g) vs = map Some ps /\
      forall i, i < 3 -> a i = (/ 2 * esum 0 Rplus (cross3 Rmult Rminus i) (poly_edges (map (@u_pos R) ps)))%R.

  (** The corners of faces at a vertex, as half-edges leaving it. *)
  Definition corners g (v : nat) (l : list nat) : Prop :=
    NoDup l /\ forall e, In e l <-> lv g e = true /\ og g e = v /\ fc g e <> None.

  (** [n] is the direction of the sum of the unit normals of the corners [l]. *)
  Definition smooth_normal g (l : list nat) (n : rvec) : Prop :=
    exists us, Forall2 (fun e u => exists f a, fc g e = Some f /\ face_area g f a /\ direction a u) l us /\ direction (vsum us) n.

  (** [g'] is [g] with smooth normals; vertices without a face get [nan]. *)
  Definition smoothed (nan : rvec) g g' : Prop :=
    same_links g g' /\ (forall e, ep g' e = ep g e) /\ (forall f, fp g' f = fp g f) /\
    forall v, related (fun p q => u_pos q = u_pos p /\ u_uv q = u_uv p /\
      exists l, corners g v l /\ (l = [] -> u_nor q = nan) /\ (l <> [] -> smooth_normal g l (u_nor q))) (vp g v) (vp g' v).
End NormalsSpec.
