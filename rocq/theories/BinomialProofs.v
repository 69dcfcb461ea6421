(** Proofs for [binomial]. *)
From Coq Require Import List Arith ZArith Lia.
From Verif Require Import Base Mesh Binomial.
Import ListNotations.
Set Implicit Arguments.
Unset Strict Implicit.
Local Open Scope Z_scope.

(** Pascal's triangle. *)
Fixpoint pascal (n k : nat) : Z :=
  match n, k with
  | _, O => 1
  | O, S _ => 0
  | S n, S k => pascal n k + pascal n (S k)
  end.
Lemma pascal_over n : forall k, (n < k)%nat -> pascal n k = 0.
Proof. induction n as [|n IH]; intros [|k] H; cbn [pascal]; try lia. rewrite (IH k), (IH (S k)) by lia. lia. Qed.
Lemma pascal_pos n : forall k, (k <= n)%nat -> 0 < pascal n k.
Proof.
  induction n as [|n IH]; intros [|k] H; cbn; try lia. assert (0 < pascal n k) by (apply IH; lia).
  destruct (Nat.eq_dec k n) as [->|]; [rewrite (@pascal_over n (S n)) by lia; lia|]. assert (0 < pascal n (S k)) by (apply IH; lia). lia.
Qed.
Lemma pascal_0 n : pascal n 0 = 1.
Proof. destruct n; reflexivity. Qed.
(** the next number in a row *)
Lemma pascal_next n : forall k, (k <= n)%nat -> pascal n (S k) * Z.of_nat (S k) = pascal n k * Z.of_nat (n - k).
Proof.
  induction n as [|n IH]; intros k H.
  - assert (k = 0%nat) by lia. subst. reflexivity.
  - destruct k as [|k].
    + pose proof (IH 0%nat (Nat.le_0_l n)) as E. rewrite pascal_0 in E |- *. cbn [pascal]. rewrite pascal_0. lia.
    + cbn [pascal]. replace (S n - S k)%nat with (n - k)%nat by lia.
      destruct (Nat.eq_dec k n) as [->|NE].
      * rewrite (@pascal_over n (S n)), (@pascal_over n (S (S n))) by lia. replace (n - n)%nat with 0%nat by lia. lia.
      * pose proof (IH k ltac:(lia)) as E1. pose proof (IH (S k) ltac:(lia)) as E2.
        replace (n - k)%nat with (S (n - S k)) in * by lia. rewrite !Nat2Z.inj_succ in *. nia.
Qed.

Section Loop.
  Variables (cap : Z) (n : nat).
  Let step := (fun r i => let p := r * Z.of_nat (n - i) in assert (p <? cap) (Ok (p / Z.of_nat (i + 1)))) : Z -> nat -> res Z.
  Lemma step_ok i : (i < n)%nat -> pascal n i * Z.of_nat (n - i) < cap -> step (pascal n i) i = Ok (pascal n (S i)).
  Proof.
    intros I C. unfold step. apply Z.ltb_lt in C. rewrite C. cbn [assert]. f_equal. rewrite <- pascal_next by lia.
    replace (i + 1)%nat with (S i) by lia. apply Z.div_mul. lia.
  Qed.
  Lemma loop_ok k : forall i, (i + k <= n)%nat -> (forall j, (i <= j < i + k)%nat -> pascal n j * Z.of_nat (n - j) < cap) ->
    foldM step (seq i k) (pascal n i) = Ok (pascal n (i + k)).
  Proof.
    induction k as [|k IH]; intros i H C; cbn [seq foldM]; [rewrite Nat.add_0_r; reflexivity|].
    rewrite step_ok by (auto; lia || apply C; lia). cbn [bind]. rewrite IH; [f_equal; f_equal; lia|lia|intros; apply C; lia].
  Qed.
  Lemma loop_panics k : forall i, (i + k <= n)%nat -> (exists j, (i <= j < i + k)%nat /\ cap <= pascal n j * Z.of_nat (n - j)) ->
    foldM step (seq i k) (pascal n i) = Panic.
  Proof.
    induction k as [|k IH]; intros i H (j & J & C); [lia|]. cbn [seq foldM].
    destruct (Z.lt_ge_cases (pascal n i * Z.of_nat (n - i)) cap) as [L|L].
    - rewrite step_ok by (auto; lia). cbn [bind]. apply IH; [lia|]. exists j. split; auto.
      destruct (Nat.eq_dec i j) as [->|]; [lia|lia].
    - assert (E : step (pascal n i) i = Panic) by (unfold step; apply Z.ltb_ge in L; cbv zeta; rewrite L; reflexivity). rewrite E. reflexivity.
  Qed.
End Loop.

Theorem binomial_ok cap n k : (k <= n)%nat -> (forall j, (j < k)%nat -> pascal n j * Z.of_nat (n - j) < cap) -> binomial cap n k = Ok (pascal n k).
Proof.
  intros H C. unfold binomial. destruct (Nat.ltb_spec n k); [lia|]. pose proof (@loop_ok cap n k 0) as L. rewrite pascal_0 in L. apply L; [lia|]. intros. apply C. lia.
Qed.
Theorem binomial_panics cap n k : (k <= n)%nat -> (exists j, (j < k)%nat /\ cap <= pascal n j * Z.of_nat (n - j)) -> binomial cap n k = Panic.
Proof.
  intros H (j & J & C). unfold binomial. destruct (Nat.ltb_spec n k); [lia|]. pose proof (@loop_panics cap n k 0) as L. rewrite pascal_0 in L. apply L; [lia|].
  exists j. split; auto. lia.
Qed.
Theorem binomial_zero cap n k : (n < k)%nat -> binomial cap n k = Ok (pascal n k).
Proof. intros H. unfold binomial. rewrite pascal_over by auto. apply Nat.ltb_lt in H. rewrite H. reflexivity. Qed.
(** with room enough nothing panics *)
Lemma pascal_of cap n k r : binomial cap n k = Ok r -> r = pascal n k.
Proof.
  intros E. destruct (Nat.lt_ge_cases n k) as [H|H]; [rewrite (binomial_zero cap H) in E; congruence|].
  assert (D : forall m, (m <= k)%nat -> (forall j, (j < m)%nat -> pascal n j * Z.of_nat (n - j) < cap) \/ (exists j, (j < m)%nat /\ cap <= pascal n j * Z.of_nat (n - j))).
  { induction m as [|m IH]; intros M; [left; lia|]. destruct IH as [A|(j & J & C)]; [lia| |right; exists j; split; auto].
    destruct (Z.lt_ge_cases (pascal n m * Z.of_nat (n - m)) cap); [left|right; exists m; auto].
    intros j J. destruct (Nat.eq_dec j m) as [->|]; auto. apply A. lia. }
  destruct (D k (le_n k)) as [A|A]; [rewrite (binomial_ok H A) in E|rewrite (binomial_panics H A) in E]; congruence.
Qed.
Theorem binomial_overflow : pascal 34 17 < 2 ^ 32 /\ binomial (2 ^ 32) 34 17 = Panic.
Proof.
  split; [|vm_compute; reflexivity].
  assert (E : binomial (2 ^ 64) 34 17 = Ok 2333606220) by (vm_compute; reflexivity). apply pascal_of in E. rewrite <- E. reflexivity.
Qed.
