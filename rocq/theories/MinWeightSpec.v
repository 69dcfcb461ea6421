(** Specification of minimum-weight triangulations of a polygon with vertices [0 .. n-1]. *)
From Coq Require Import List Arith.
From Verif Require Import TriSpec.
Import ListNotations.
Set Implicit Arguments.
Unset Strict Implicit.

(** Weights: a commutative monoid with a compatible total order, given by its strict part. *)
Record weights (W : Type) (add : W -> W -> W) (lt : W -> W -> bool) (zero : W) : Prop := mkWeights {
  w_assoc : forall x y z, add x (add y z) = add (add x y) z;
  w_comm : forall x y, add x y = add y x;
  w_zero : forall x, add zero x = x;
  w_trans : forall x y z, lt y x = false -> lt z y = false -> lt z x = false;
  w_asym : forall x y, lt x y = true -> lt y x = false;
  w_mono : forall x y z, lt y x = false -> lt (add y z) (add x z) = false }.

Section MWSpec.
  Variables (W : Type) (add : W -> W -> W) (zero : W).
  Variable d : nat -> nat -> W. (** length of the segment between two vertices *)

  (** total perimeter of the triangles *)
  Definition perimeter (t : nat * nat * nat) : W :=
    match t with (a, b, c) => add (add (d a c) (d c b)) (d b a) end.
  Fixpoint total (T : list (nat * nat * nat)) : W :=
    match T with [] => zero | t :: T => add (perimeter t) (total T) end.
End MWSpec.

(** [{u, v}] is a side of the polygon or a valid diagonal. *)
Definition usable (vd : nat -> nat -> bool) (n u v : nat) : Prop :=
  v = u + 1 \/ (u = 0 /\ v = n - 1) \/ vd u v = true.
Definition uses_valid (vd : nat -> nat -> bool) (n : nat) (T : list (nat * nat * nat)) : Prop :=
  forall a b c, In (a, b, c) T -> forall u v, u < v -> In u [a; b; c] -> In v [a; b; c] -> usable vd n u v.

(** triangles with every corner renamed *)
Definition relabel (ind : nat -> nat) (t : nat * nat * nat) : nat * nat * nat :=
  match t with (a, b, c) => (ind a, ind b, ind c) end.
(** the vertex list with positions [pos i] and indices [ind i], [i < n] *)
Definition vlist (P : Type) (pos : nat -> P) (ind : nat -> nat) (n : nat) : list (P * nat) :=
  map (fun i => (pos i, ind i)) (seq 0 n).
