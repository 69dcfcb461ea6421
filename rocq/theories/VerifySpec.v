(** Specification vocabulary for the self-checks of [Triangulation]. *)
From Coq Require Import List Arith QArith.
From Verif Require Import Buffer BufferSpec.
Import ListNotations.
Set Implicit Arguments.
Unset Strict Implicit.
Local Open Scope nat_scope.

(** the triangulation that has added the triangles [T] to a buffer that held [pre] *)
Definition after (pre : list nat) (T : list (nat * nat * nat)) := mkB (pre ++ flatten T) (length pre).
(** the k-th edge of a triangle *)
Definition side (t : nat * nat * nat) (k : nat) : nat * nat :=
  match t with (a, b, c) => match k with 0 => (a, b) | 1 => (b, c) | _ => (c, a) end end.

Section VerifySpec.
  Variables (P : Type) (hm : nat -> option P).
  (** the positions of the corners *)
  Definition corners (t : (nat * nat * nat)) (p q r : P) : Prop :=
    match t with (a, b, c) => hm a = Some p /\ hm b = Some q /\ hm c = Some r end.
  Definition known (T : list (nat * nat * nat)) := Forall (fun t => exists p q r, corners t p q r) T.
  Variable negative : P -> P -> P -> bool.
  Definition sound (t : nat * nat * nat) : Prop := exists p q r, corners t p q r /\ negative p q r = false.
  (** the sum of the perimeters of [T] is [s] *)
  Variable dist : P -> P -> Q.
  Fixpoint perimeters (T : list (nat * nat * nat)) (s : Q) : Prop :=
    match T with
    | [] => s == 0
    | t :: T => exists p q r s', corners t p q r /\ perimeters T s' /\ s == dist q p + dist r q + dist p r + s'
    end%Q.
  Variable meets : P -> P -> P -> P -> bool.
  (** sides [e], [f] share a corner or do not meet *)
  Definition apart (e f : nat * nat) : Prop :=
    fst e = fst f \/ fst e = snd f \/ snd e = fst f \/ snd e = snd f \/
    exists p q r s, hm (fst e) = Some p /\ hm (snd e) = Some q /\ hm (fst f) = Some r /\ hm (snd f) = Some s /\ meets p q r s = false.
End VerifySpec.
