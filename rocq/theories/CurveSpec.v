(** Specifications for flattening curves. *)
From Coq Require Import QArith List.
Import ListNotations.

Fixpoint increasing (a : Q) (l : list Q) : Prop :=
  match l with [] => True | b :: r => a < b /\ increasing b r end.
(** every two neighbours of the list are related *)
Definition neighbours {A} (P : A -> A -> Prop) (l : list A) : Prop :=
  forall p x y q, l = p ++ x :: y :: q -> P x y.
Definition dyadic (t : Q) : Prop := exists (k : Z) (n : nat), t * inject_Z (2 ^ Z.of_nat n) == inject_Z k.
(** squared distance in dimension [D] *)
Fixpoint norm2 (D : nat) (a b : nat -> Q) : Q :=
  match D with O => 0 | S d => norm2 d a b + (a d - b d) * (a d - b d) end.
