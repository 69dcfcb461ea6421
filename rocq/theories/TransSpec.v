(** Specification vocabulary for transformed meshes. *)
From Coq Require Import List Arith Bool.
From Verif Require Import Base DVec Mesh Spec Alg AlgSpec Transform.
Import ListNotations.
Set Implicit Arguments.
Unset Strict Implicit.

(** The same mesh with other payloads. *)
Record same_links {VP EP FP VP' EP' FP' : Type} (g : graph VP EP FP) (g' : graph VP' EP' FP') : Prop := {
  sl_lv : forall x, lv g' x = lv g x;
  sl_nx : forall x, nx g' x = nx g x;
  sl_pv : forall x, pv g' x = pv g x;
  sl_tw : forall x, tw g' x = tw g x;
  sl_og : forall x, og g' x = og g x;
  sl_fc : forall x, fc g' x = fc g x;
  sl_lvv : forall v, lvv g' v = lvv g v;
  sl_ve : forall v, ve g' v = ve g v;
  sl_lvf : forall f, lvf g' f = lvf g f;
  sl_fe : forall f, fe g' f = fe g f
}.

Section TransSpec.
  Variables (R : Type) (zero one : R) (add mul sub : R -> R -> R) (req : R -> R -> Prop).
  Infix "+" := add. Infix "*" := mul. Infix "-" := sub.
  Definition dot (n : nat) (a b : nat -> R) : R := sum zero add (map (fun k => a k * b k) (seq 0 n)).
  (** The columns of [m] have length [sqrt c] and are perpendicular to each other. *)
  Definition similarity (n : nat) (c : R) (m : nat -> nat -> R) : Prop :=
    forall i j, i < n -> j < n -> req (dot n (fun k => m k i) (fun k => m k j)) (if Nat.eqb i j then c else zero).
  (** The determinant of the first three rows and columns: the volume spanned by the columns. *)
  Definition volume (m : nat -> nat -> R) : R :=
    dot 3 (fun k => m k 0) (fun c => cross3 mul sub c (fun k => m k 1) (fun k => m k 2)).
  (** Payloads with the same first [n] coordinates. *)
  Definition same_vec (n : nat) (a b : nat -> R) : Prop := forall i, i < n -> req (a i) (b i).
  Definition same_curve (n : nat) (a b : curve R) : Prop :=
    match a, b with
    | Linear _, Linear _ => True
    | Quadratic c, Quadratic d => same_vec n c d
    | Cubic c1 c2, Cubic d1 d2 => same_vec n c1 d1 /\ same_vec n c2 d2
    | _, _ => False
    end.
  Definition same_pnu (n : nat) (a b : pnu R) : Prop :=
    same_vec n (u_pos a) (u_pos b) /\ same_vec n (u_nor a) (u_nor b) /\ same_vec 2 (u_uv a) (u_uv b).
  (** Two meshes that differ at most in coordinates beyond the first [n]. *)
  Definition related {A} (P : A -> A -> Prop) (a b : option A) : Prop :=
    match a, b with Some x, Some y => P x y | None, None => True | _, _ => False end.
  Definition same_mesh {FP} (n : nat) (g h : graph (pnu R) (curve R) FP) : Prop :=
    same_links g h /\ (forall v, related (same_pnu n) (vp g v) (vp h v)) /\ (forall e, related (same_curve n) (ep g e) (ep h e)) /\
    (forall f, fp g f = fp h f).
End TransSpec.
