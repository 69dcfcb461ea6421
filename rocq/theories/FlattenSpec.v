(** Specification vocabulary for replacing curved edges by line segments. *)
From Coq Require Import List Arith Bool.
From Verif Require Import Base DVec Mesh Spec MeshSpec BuildSpec Alg Transform.
Import ListNotations.
Set Implicit Arguments.
Unset Strict Implicit.

Section Divided.
  Context {VP EP FP : Type}.
  Notation graph := (graph VP EP FP).
  Implicit Types (g : graph).

  (** What stands for the half-edge [x] of the old mesh: the new half-edges before it, if it was
      divided itself, and the new half-edges after it, if its twin was. *)
  Definition pieces g g' (es : nat -> list nat) (x : nat) : list nat := es x ++ x :: rev (map (tw g') (es (tw g x))).

  (** Exactly the half-edges of [L] were divided: the half-edges [es e] and then [e] lead from the old
      origin of [e] through the new vertices [vs e] with the payloads [ps e] to the old target; all these
      half-edges have the payload [y], and so have the twins of the new ones. Nothing else changes. *)
  Record divided_all g g' (y : EP) (L : list nat) (es vs : nat -> list nat) (ps : nat -> list VP) : Prop := {
    da_e : added (lv g) (lv g') (flat_map (fun e => es e ++ map (tw g') (es e)) L);
    da_v : added (lvv g) (lvv g') (flat_map vs L);
    da_f : forall f, keep_face g g' f;
    da_path : forall e, In e L -> leads_through g' (es e ++ [e]) (og g e :: vs e ++ [target g e]);
    da_pos : forall e, In e L -> map (vp g') (vs e) = map Some (ps e);
    da_pay : forall e x, In e L -> In x (es e ++ [e]) -> ep g' x = Some y;
    da_back : forall e x, In e L -> In x (es e) -> ep g' (tw g' x) = Some y;
    da_face : forall e x, In e L -> In x (es e) -> fc g' x = fc g e /\ fc g' (tw g' x) = fc g (tw g e);
    da_none : forall e, ~ In e L -> es e = [];
    da_old_e : forall x, lv g x = true ->
      tw g' x = tw g x /\ fc g' x = fc g x /\ (~ In x L -> ep g' x = ep g x /\ og g' x = og g x);
    da_old_v : forall v, lvv g v = true -> vp g' v = vp g v;
    da_loops : forall l, loop g l -> loop g' (flat_map (pieces g g' es) l)
  }.
End Divided.

Section FlattenSpec.
  Variables (R : Type).
  Context {FP : Type}.
  Notation vec := (vec R).
  Notation curve := (curve R).
  Notation graph := (graph (pnu R) curve FP).
  Implicit Types (g : graph).
  Variable flat : curve -> vec -> vec -> res (list vec).

  (** The half-edge [e] is curved; [ends g e a b cv]: its curve is [cv], from [a] to [b]. *)
  Definition curved g (e : nat) : Prop := lv g e = true /\ exists cv, ep g e = Some cv /\ cv <> Linear R.
  Definition ends g (e : nat) (a b : vec) (cv : curve) : Prop :=
    ep g e = Some cv /\ exists p q, vp g (og g e) = Some p /\ vp g (target g e) = Some q /\ a = u_pos p /\ b = u_pos q.
  (** [pts] are the inner points of its flattening. *)
  Definition inner g (e : nat) (pts : list vec) : Prop :=
    curved g e /\ exists a b cv, ends g e a b cv /\ flat cv a b = Ok pts.
  (** The vertex [v] is at [a]. *)
  Definition located g (v : nat) (a : vec) : Prop := exists p, vp g v = Some p /\ u_pos p = a.
End FlattenSpec.
