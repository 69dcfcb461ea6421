(** Model of [binomial] (/repo/src/tesselate/min_weight_dynamic.rs:450-460). *)
From Coq Require Import List Arith ZArith.
From Verif Require Import Base Mesh.
Import ListNotations.
Set Implicit Arguments.
Unset Strict Implicit.
Local Open Scope Z_scope.

(** min_weight_dynamic.rs:450-460 in a debug build; numbers from [cap] on do not fit ([2^32] for [u32]), and a
    product that does not fit panics. [n - i] cannot underflow, since [i < k <= n]. *)
Definition binomial (cap : Z) (n k : nat) : res Z :=
  if (n <? k)%nat then Ok 0 else
  foldM (fun r i => let p := r * Z.of_nat (n - i) in assert (p <? cap) (Ok (p / Z.of_nat (i + 1)))) (seq 0 k) 1.
