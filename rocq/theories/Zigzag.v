(** Model of the generated polygons (/repo/src/primitives/misc.rs), zigzag. *)
From Coq Require Import List Arith Bool QArith.
From Verif Require Import Base.
Import ListNotations.
Set Implicit Arguments.
Unset Strict Implicit.
Local Open Scope nat_scope.

(** A floating-point coordinate in exact arithmetic: finite, or what a division by zero gives. *)
Inductive coord := Fin (q : Q) | Infinite | NotANumber.
Definition of_nat (k : nat) : Q := inject_Z (Z.of_nat k).
(** [from_usize(x) / from_usize(h) - 1] *)
Definition over (x h : nat) : coord :=
  if h =? 0 then (if x =? 0 then NotANumber else Infinite) else Fin (of_nat x / of_nat h - 1)%Q.

(** misc.rs:9-25, the body of the closure *)
Definition zigzag_point (n i : nat) : coord * Q :=
  let (x, offset) := if n <? i then (2 * n - i, 1%Q) else (i, 0%Q) in
  let offset := if i mod 2 =? 0 then (offset + 2)%Q else offset in
  (over x (n / 2), (offset - 1)%Q).
(** misc.rs:6-26 [generate_zigzag] *)
Definition zigzag (n0 : nat) : res (list (coord * Q)) :=
  assert ((2 <=? n0) && (n0 mod 2 =? 0))
  (let n := n0 / 2 in Ok (map (zigzag_point n) (seq 0 (2 * n)))).
