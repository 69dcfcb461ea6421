(** Specification vocabulary for the index buffer. *)
From Coq Require Import List Arith.
Import ListNotations.
Set Implicit Arguments.
Unset Strict Implicit.

(** the buffer that stores the triangles [T] *)
Definition flatten (T : list (nat * nat * nat)) : list nat :=
  flat_map (fun t => match t with (a, b, c) => [a; b; c] end) T.
(** [t] and [u] are the same oriented triangle *)
Definition rot3 (t u : nat * nat * nat) : Prop :=
  match t with (a, b, c) => u = (a, b, c) \/ u = (b, c, a) \/ u = (c, a, b) end.
Definition distinct3 (t : nat * nat * nat) : Prop :=
  match t with (a, b, c) => a <> b /\ b <> c /\ c <> a end.
(** [T'] arises from [T] by replacing two triangles [a b c], [a d b] by [a d c], [d b c] *)
Definition flipped (a b : nat) (i j : nat) (T T' : list (nat * nat * nat)) : Prop :=
  exists c d t u, nth_error T i = Some t /\ nth_error T j = Some u /\ rot3 (a, b, c) t /\ rot3 (a, d, b) u /\
    length T' = length T /\ nth_error T' i = Some (a, d, c) /\ nth_error T' j = Some (d, b, c) /\
    forall k, k <> i -> k <> j -> nth_error T' k = nth_error T k.
