(** What a mesh in more dimensions has to do with the flat mesh it was made from. *)
From Coq Require Import List Arith Bool.
From Verif Require Import Base DVec Mesh Spec MeshSpec BuildSpec Transform.
Import ListNotations.
Set Implicit Arguments.
Unset Strict Implicit.

Section ToNdSpec.
  Variables (R : Type) (zero : R).
  Context {EP FP EP' FP' : Type}.
  Notation vec := (nat -> R).

  Definition place {E F} (g : graph (pnu R) E F) (v : nat) : option vec := option_map (@u_pos R) (vp g v).
  (** The point in the plane of the first two coordinates. *)
  Definition flat_point (q : vec) (i : nat) : R := if i <? 2 then q i else zero.

  (** Every vertex [v] has a copy [rv v] and every face [f] a copy [rf f]. The half-edge [e] is replaced
      by the half-edges [pc e], which lead from the copy of its origin through the vertices [ws e] to the copy
      of its target; these are at the inner points [pts e] of its own curve and at the inner points of the curve of
      its twin, backwards. Twins and loops are replaced accordingly, the pieces have the face of the half-edge they
      come from, and there is nothing else in the new mesh. All new vertices are in the plane of the first
      two coordinates, without normals and texture coordinates. *)
  Record spread_out (g : graph (pnu R) EP FP) (h : graph (pnu R) EP' FP') (pts : nat -> list vec)
    (rv rf : nat -> nat) (pc ws : nat -> list nat) : Prop := {
    so_v : forall v, lvv g v = true -> lvv h (rv v) = true /\ exists q q', place g v = Some q /\ place h (rv v) = Some q' /\ forall i, q' i = flat_point q i;
    so_vinj : forall v w, lvv g v = true -> lvv g w = true -> rv v = rv w -> v = w;
    so_f : forall f, lvf g f = true -> lvf h (rf f) = true;
    so_finj : forall f k, lvf g f = true -> lvf g k = true -> rf f = rf k -> f = k;
    so_path : forall e, lv g e = true -> leads_through h (pc e) (rv (og g e) :: ws e ++ [rv (target g e)]);
    so_pos : forall e, lv g e = true -> Forall2 (fun v q => exists q', place h v = Some q' /\ forall i, q' i = flat_point q i)
      (ws e) (pts e ++ rev (pts (tw g e)));
    so_fresh : forall e v, lv g e = true -> lvv g v = true -> ~ In (rv v) (ws e);
    so_twin : forall e, lv g e = true -> pc (tw g e) = rev (map (tw h) (pc e));
    so_face : forall e x, lv g e = true -> In x (pc e) -> fc h x = option_map rf (fc g e);
    so_loop : forall l, loop g l -> loop h (flat_map pc l);
    so_apart : forall e k x, lv g e = true -> lv g k = true -> In x (pc e) -> In x (pc k) -> e = k;
    so_alle : forall x, lv h x = true -> exists e, lv g e = true /\ In x (pc e);
    so_allv : forall v, lvv h v = true -> (exists w, lvv g w = true /\ rv w = v) \/ (exists e, lv g e = true /\ In v (ws e));
    so_allf : forall f, lvf h f = true -> exists k, lvf g k = true /\ rf k = f;
    so_plain : forall v p, vp h v = Some p -> lvv h v = true -> forall i, u_nor p i = zero /\ u_uv p i = zero
  }.
End ToNdSpec.
