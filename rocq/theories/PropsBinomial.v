(** Property C91: the binomial coefficients. *)
From Coq Require Import Arith ZArith.
From Verif Require Import Base Binomial BinomialProofs.
Local Open Scope Z_scope.

(** C91. [binomial] gives the numbers of Pascal's triangle as long as the products on the way fit the integer
    type, zero beyond the row included, although it divides at every step; otherwise it panics. *)
Theorem C91_binomial : forall cap n k, (k <= n)%nat -> (forall j, (j < k)%nat -> pascal n j * Z.of_nat (n - j) < cap) ->
  binomial cap n k = Ok (pascal n k).
Proof. exact binomial_ok. Qed.
Print Assumptions C91_binomial.
Theorem C91_beyond : forall cap n k, (n < k)%nat -> binomial cap n k = Ok (pascal n k).
Proof. exact binomial_zero. Qed.
Print Assumptions C91_beyond.
Theorem C91_panics : forall cap n k, (k <= n)%nat -> (exists j, (j < k)%nat /\ cap <= pascal n j * Z.of_nat (n - j)) ->
  binomial cap n k = Panic.
Proof. exact binomial_panics. Qed.
Print Assumptions C91_panics.
(** A result that fits is not always given: 34 over 17 fits in 32 bits, but a product on the way does not. *)
Theorem C91_overflow_refuted : pascal 34 17 < 2 ^ 32 /\ binomial (2 ^ 32) 34 17 = Panic.
Proof. exact binomial_overflow. Qed.
Print Assumptions C91_overflow_refuted.

Example C91_six : binomial (2 ^ 32) 6 3 = Ok 20 /\ pascal 6 3 = 20.
Proof. split; reflexivity. Qed.
