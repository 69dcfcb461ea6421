(** Specifications for the arithmetic: sums, cross products, de Casteljau evaluation. *)
From Coq Require Import List Arith Ring_theory Setoid.
Import ListNotations.
Set Implicit Arguments.
Unset Strict Implicit.

Section AlgSpec.
  Variables (R : Type) (zero one : R) (add mul sub : R -> R -> R) (opp : R -> R).
  Infix "+" := add. Infix "*" := mul. Infix "-" := sub. Notation "- x" := (opp x).

  Definition sum (l : list R) : R := fold_right add zero l.
  (** cross product of two points of the plane *)
  Definition cross2 (p q : R * R) : R := fst p * snd q - fst q * snd p.
  (** component [c] of the cross product of two vectors of space *)
  Definition cross3 (c : nat) (a b : nat -> R) : R :=
    match c with
    | 0 => a 1 * b 2 - a 2 * b 1
    | 1 => a 2 * b 0 - a 0 * b 2
    | _ => a 0 * b 1 - a 1 * b 0
    end.
  Definition dot3 (a b : nat -> R) : R := a 0 * b 0 + a 1 * b 1 + a 2 * b 2.

  (** de Casteljau: repeatedly interpolate neighbouring control points *)
  Fixpoint casteljau_step (t : R) (l : list (nat -> R)) : list (nat -> R) :=
    match l with
    | a :: (b :: _) as r => (fun i => (one - t) * a i + t * b i) :: casteljau_step t r
    | _ => []
    end.
  Fixpoint casteljau (n : nat) (t : R) (l : list (nat -> R)) : nat -> R :=
    match n, l with
    | S n, _ :: _ :: _ => casteljau n t (casteljau_step t l)
    | _, a :: _ => a
    | _, [] => fun _ => zero
    end.
End AlgSpec.

(** A commutative ring up to an equivalence. *)
Definition is_ring (R : Type) (zero one : R) (add mul sub : R -> R -> R) (opp : R -> R) (req : R -> R -> Prop) : Prop :=
  Equivalence req /\ ring_eq_ext add mul opp req /\ ring_theory zero one add mul sub opp req.
