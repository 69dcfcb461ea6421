(** Results of Rust computations, reachability along a function, list helpers. *)
From Coq Require Import List Arith Lia Bool.
Import ListNotations.
Set Implicit Arguments.
Unset Strict Implicit.

(** A Rust computation either returns, panics (explicit panic, failed assert,
    [unwrap] of [None], index out of range) or runs forever ([Diverge]:
    the fuel of a modelled loop is exhausted). *)
Inductive res (A : Type) : Type :=
| Ok (a : A)
| Panic
| Diverge.
Arguments Ok {A} _.
Arguments Panic {A}.
Arguments Diverge {A}.

Definition bind {A B} (x : res A) (k : A -> res B) : res B :=
  match x with Ok a => k a | Panic => Panic | Diverge => Diverge end.

Notation "'let*' p ':=' x 'in' k" := (bind x (fun p => k))
  (at level 200, p pattern, x at level 100, k at level 200, right associativity).

(** [assert!(b); k] *)
Definition assert {A} (b : bool) (k : res A) : res A := if b then k else Panic.

(** [Option::unwrap], [Option::expect] *)
Definition unwrap {A} (o : option A) : res A :=
  match o with Some a => Ok a | None => Panic end.

Lemma bind_ok A B (x : res A) (k : A -> res B) b :
  bind x k = Ok b -> exists a, x = Ok a /\ k a = Ok b.
Proof. destruct x; simpl; intros; try discriminate. eauto. Qed.

Lemma assert_ok A b (k : res A) a : assert b k = Ok a -> b = true /\ k = Ok a.
Proof. unfold assert; destruct b; intros; [auto|discriminate]. Qed.

Lemma unwrap_ok A (o : option A) a : unwrap o = Ok a -> o = Some a.
Proof. destruct o; simpl; congruence. Qed.

(** Break a hypothesis [H : computation = Ok _] into its steps. *)
Ltac inv_ok H :=
  let a := fresh "a" in let H1 := fresh "H" in
  match type of H with
  | bind ?x ?k = Ok _ =>
      apply bind_ok in H; destruct H as [a [H1 H]]; cbv beta in H
  | assert ?b ?k = Ok _ =>
      apply assert_ok in H; destruct H as [H1 H]
  | unwrap ?o = Ok _ => apply unwrap_ok in H
  end.

(** Reachability by iterating a function: specification vocabulary for "being
    on the same loop" and "being on the same vertex wheel". *)
Inductive reach (f : nat -> nat) (a : nat) : nat -> Prop :=
| reach_refl : reach f a a
| reach_step b : reach f a b -> reach f a (f b).

Lemma reach_trans f a b c : reach f a b -> reach f b c -> reach f a c.
Proof. intros H1 H2. induction H2; auto using reach. Qed.

Lemma reach_one f a : reach f a (f a).
Proof. apply reach_step, reach_refl. Qed.

Lemma reach_inv f (P : nat -> Prop) a b :
  (forall x, P x -> P (f x)) -> P a -> reach f a b -> P b.
Proof. induction 3; auto. Qed.

Lemma reach_iter f a b : reach f a b <-> exists n, Nat.iter n f a = b.
Proof.
  split.
  - induction 1 as [|b H [n IH]]; [exists 0; reflexivity|]. exists (S n). simpl. congruence.
  - intros [n Hn]. revert b Hn. induction n; simpl; intros b Hn; subst; [constructor|].
    apply reach_step. auto.
Qed.

Lemma iter_add {A} (f : A -> A) n m x : Nat.iter (n + m) f x = Nat.iter n f (Nat.iter m f x).
Proof. induction n; simpl; congruence. Qed.

Lemma iter_swap {A} (f : A -> A) n x : Nat.iter n f (f x) = f (Nat.iter n f x).
Proof. induction n; simpl; congruence. Qed.

(** Replace position [i] of a list. *)
Fixpoint upd {A} (l : list A) (i : nat) (a : A) : list A :=
  match l, i with
  | [], _ => []
  | _ :: t, 0 => a :: t
  | h :: t, S j => h :: upd t j a
  end.

Lemma upd_length {A} (l : list A) i a : length (upd l i a) = length l.
Proof. revert i; induction l; destruct i; simpl; auto. Qed.

Lemma nth_error_upd {A} (l : list A) i a j :
  nth_error (upd l i a) j =
  if (i =? j) && (i <? length l) then Some a else nth_error l j.
Proof.
  revert i j; induction l as [|h t IH]; intros i j; destruct i, j; simpl; auto;
    try (rewrite ?andb_false_r; reflexivity).
  rewrite IH. reflexivity.
Qed.

Lemma nth_error_upd_eq {A} (l : list A) i a :
  i < length l -> nth_error (upd l i a) i = Some a.
Proof.
  intros. rewrite nth_error_upd, Nat.eqb_refl. destruct (Nat.ltb_spec i (length l)); [auto|lia].
Qed.

Lemma nth_error_upd_ne {A} (l : list A) i a j :
  i <> j -> nth_error (upd l i a) j = nth_error l j.
Proof. intros. rewrite nth_error_upd. destruct (Nat.eqb_spec i j); [lia|reflexivity]. Qed.

Lemma NoDup_decide (l : list nat) : {NoDup l} + {~ NoDup l}.
Proof.
  induction l as [|a l [IH|IH]].
  - left; constructor.
  - destruct (in_dec Nat.eq_dec a l); [right|left; constructor; auto].
    inversion 1; auto.
  - right; inversion 1; auto.
Defined.

(** Injective self-maps of finite sets: reachability is symmetric. *)
Section Finite.
  Variable f : nat -> nat.
  Variable P : nat -> Prop.
  Variable N : nat.
  Hypothesis Pf : forall x, P x -> P (f x).
  Hypothesis Pb : forall x, P x -> x < N.
  Hypothesis inj : forall x y, P x -> P y -> f x = f y -> x = y.

  Lemma P_iter n x : P x -> P (Nat.iter n f x).
  Proof. induction n; simpl; auto. Qed.

  Lemma iter_cancel n m x : P x -> Nat.iter n f x = Nat.iter (n + m) f x -> x = Nat.iter m f x.
  Proof.
    induction n; simpl; intros; auto.
    apply IHn; auto. apply inj; auto using P_iter.
  Qed.

  Lemma pigeon (g : nat -> nat) k :
    (forall i, i <= k -> g i < k) -> exists i j, i < j /\ j <= k /\ g i = g j.
  Proof.
    intros Hg.
    destruct (NoDup_decide (map g (seq 0 (S k)))) as [ND|ND].
    - exfalso. assert (incl (map g (seq 0 (S k))) (seq 0 k)).
      { intros y Hy. apply in_map_iff in Hy as [i [<- Hi]]. apply in_seq in Hi.
        apply in_seq. specialize (Hg i). lia. }
      apply NoDup_incl_length in H; auto. rewrite map_length, !seq_length in H. lia.
    - clear Hg. revert ND. 
      assert (forall s n, ~ NoDup (map g (seq s n)) -> exists i j, s <= i /\ i < j /\ j < s + n /\ g i = g j).
      { clear. intros s n; revert s; induction n; intros s ND.
        - exfalso; apply ND; constructor.
        - simpl in ND. destruct (in_dec Nat.eq_dec (g s) (map g (seq (S s) n))) as [I|I].
          + apply in_map_iff in I as [j [E Hj]]. apply in_seq in Hj. exists s, j. repeat split; try lia.
          + destruct (IHn (S s)) as (i & j & ? & ? & ? & ?).
            * intros C; apply ND; constructor; auto.
            * exists i, j. repeat split; try lia. }
      intros ND. destruct (H 0 (S k)) as (i & j & ? & ? & ? & ?); auto.
      exists i, j. repeat split; lia.
  Qed.

  (** Every orbit closes after at most [N] steps. *)
  Lemma orbit_closes x : P x -> exists k, 0 < k /\ k <= N /\ Nat.iter k f x = x.
  Proof.
    intros Px.
    destruct (@pigeon (fun n => Nat.iter n f x) N) as (i & j & Hij & Hj & E).
    - intros; auto using P_iter.
    - exists (j - i). split; [lia|]. split; [lia|].
      symmetry. apply iter_cancel with (n := i); auto. rewrite E. f_equal. lia.
  Qed.

  Lemma reach_sym x y : P x -> reach f x y -> reach f y x.
  Proof.
    intros Px H. induction H; [constructor|].
    assert (Pb' : P b) by (eapply reach_inv; eauto).
    destruct (orbit_closes Pb') as (k & Hk & _ & E).
    apply reach_trans with b; auto.
    destruct k; [lia|]. apply reach_iter. exists k. simpl in E. rewrite <- E at 2.
    rewrite iter_swap. reflexivity.
  Qed.
End Finite.
