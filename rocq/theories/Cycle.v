(** Cyclic lists and the iterators that walk them. *)
From Coq Require Import List Arith Lia Bool.
From Verif Require Import Base DVec DVecFacts Mesh Spec.
Import ListNotations.
Set Implicit Arguments.
Unset Strict Implicit.

Lemma last_cons {A} (z : A) l x : last (z :: l) x = last l z.
Proof.
  revert z x. induction l as [|w l IH]; intros; auto.
  change (last (z :: w :: l) x) with (last (w :: l) x). rewrite !IH. reflexivity.
Qed.

Lemma chain_app f x l1 y l2 :
  chain f x (l1 ++ y :: l2) <-> chain f x l1 /\ f (last l1 x) = y /\ chain f y l2.
Proof.
  revert x; induction l1 as [|z l1 IH]; intros x.
  - simpl. tauto.
  - simpl app. simpl chain. rewrite IH, last_cons. tauto.
Qed.

Lemma last_app {A} (l1 : list A) y l2 x : last (l1 ++ y :: l2) x = last l2 y.
Proof.
  revert x; induction l1; intros x; simpl app; rewrite ?last_cons; auto.
Qed.

Lemma last_in {A} (l : list A) x : In (last l x) (x :: l).
Proof.
  revert x; induction l; intros; [left; auto|]. rewrite last_cons. right. apply IHl.
Qed.

Lemma is_cycle_cons f x t : is_cycle f (x :: t) <-> NoDup (x :: t) /\ chain f x t /\ f (last t x) = x.
Proof. unfold is_cycle. rewrite last_cons. tauto. Qed.

(** Splitting point of a cycle: successor of an element *)
Lemma cycle_next f l1 x y l2 : is_cycle f (l1 ++ x :: y :: l2) -> f x = y.
Proof.
  destruct l1 as [|z l1]; simpl app; rewrite is_cycle_cons; intros (_ & C & _).
  - apply C.
  - apply chain_app in C as (_ & _ & C). apply C.
Qed.

Lemma cycle_last f x l : is_cycle f (x :: l) -> f (last l x) = x.
Proof. rewrite is_cycle_cons. tauto. Qed.

Lemma cycle_rot f l1 l2 : is_cycle f (l1 ++ l2) -> is_cycle f (l2 ++ l1).
Proof.
  destruct l1 as [|x l1]; [simpl; rewrite app_nil_r; auto|].
  destruct l2 as [|y l2]; [rewrite app_nil_r; auto|].
  simpl app. rewrite !is_cycle_cons. intros (ND & C & L).
  apply chain_app in C as (C1 & E & C2). rewrite last_app in L.
  split; [|split].
  - change (x :: l1 ++ y :: l2) with ((x :: l1) ++ y :: l2) in ND.
    change (y :: l2 ++ x :: l1) with ((y :: l2) ++ x :: l1). apply NoDup_app_comm; auto.
  - apply chain_app. auto.
  - rewrite last_app. auto.
Qed.

Lemma cycle_nodup f l : is_cycle f l -> NoDup l.
Proof. destruct l; simpl; tauto. Qed.

Lemma cycle_ne f l : is_cycle f l -> l <> [].
Proof. destruct l; simpl; [tauto|discriminate]. Qed.

Lemma chain_reach f x l y : chain f x l -> In y (x :: l) -> reach f x y.
Proof.
  revert x; induction l as [|z l IH]; intros x C H.
  - destruct H as [<-|[]]. constructor.
  - destruct H as [<-|H]; [constructor|]. simpl in C. destruct C as [<- C].
    eapply reach_trans; [apply reach_one|]. apply IH; auto.
Qed.

Lemma cycle_closed f l x : is_cycle f l -> In x l -> In (f x) l.
Proof.
  intros C H. apply in_split in H as (l1 & l2 & ->).
  destruct l2 as [|y l2].
  - destruct l1 as [|z l1].
    + simpl in C. destruct C as (_ & _ & ->). left; auto.
    + simpl app in *. pose proof (cycle_last C) as L. rewrite last_app in L. simpl in L.
      rewrite L. left; auto.
  - rewrite (cycle_next C). apply in_app_iff. right. right. left. auto.
Qed.

Lemma cycle_reach f x t y : is_cycle f (x :: t) -> (In y (x :: t) <-> reach f x y).
Proof.
  intros C. split.
  - apply chain_reach. apply C.
  - induction 1; [left; auto|]. eapply cycle_closed; eauto.
Qed.

Lemma cycle_ext f f' l : (forall x, In x l -> f x = f' x) -> is_cycle f l -> is_cycle f' l.
Proof.
  destruct l as [|x l]; auto. rewrite !is_cycle_cons. intros X (ND & C & L).
  split; auto. split.
  - clear ND L. revert x X C. induction l as [|y l IH]; intros x X C; simpl in *; auto.
    destruct C as [E C]. split; [rewrite <- X; auto|]. apply IH; auto.
  - rewrite <- X; auto. apply last_in.
Qed.

(** Two cycles sharing an element have the same elements. *)
Lemma cycle_same f l1 l2 x : is_cycle f l1 -> is_cycle f l2 -> In x l1 -> In x l2 ->
  forall y, In y l1 <-> In y l2.
Proof.
  intros C1 C2 H1 H2.
  assert (R : forall l, is_cycle f l -> In x l -> forall y, In y l <-> reach f x y).
  { clear. intros l C H y. apply in_split in H as (a & b & ->).
    apply cycle_rot in C. simpl in C. rewrite <- (cycle_reach y C).
    simpl. rewrite !in_app_iff. simpl. tauto. }
  intros y. rewrite (R l1), (R l2); auto; tauto.
Qed.

Section CycleExists.
  Variable f : nat -> nat.
  Variable P : nat -> Prop.
  Variable N : nat.
  Hypothesis Pf : forall x, P x -> P (f x).
  Hypothesis Pb : forall x, P x -> x < N.
  Hypothesis inj : forall x y, P x -> P y -> f x = f y -> x = y.

  Fixpoint traj (x : nat) (n : nat) : list nat :=
    match n with 0 => [] | S k => x :: traj (f x) k end.

  Lemma traj_length x n : length (traj x n) = n.
  Proof. revert x; induction n; simpl; auto. Qed.

  Lemma traj_in x n y : In y (traj x n) <-> exists i, i < n /\ y = Nat.iter i f x.
  Proof.
    revert x; induction n; intros x; simpl.
    - split; [tauto|]. intros (i & ? & _). lia.
    - rewrite IHn. split.
      + intros [<-|(i & ? & ->)]; [exists 0; split; [lia|auto]|].
        exists (S i). split; [lia|]. simpl. rewrite iter_swap. auto.
      + intros ([|i] & ? & ->); [left; auto|]. right. exists i. split; [lia|]. simpl.
        rewrite iter_swap. auto.
  Qed.

  Lemma traj_chain x n : chain f x (traj (f x) n).
  Proof. revert x; induction n; simpl; auto. Qed.

  Lemma traj_last x n : last (traj (f x) n) x = Nat.iter n f x.
  Proof.
    revert x; induction n; intros; auto. simpl traj. rewrite last_cons, IHn.
    simpl. apply iter_swap.
  Qed.

  Lemma least (p : nat -> bool) k : p k = true -> exists j, j <= k /\ p j = true /\ forall i, i < j -> p i = false.
  Proof.
    induction k as [k IH] using (well_founded_induction lt_wf). intros H.
    destruct (existsb p (seq 0 k)) eqn:X.
    - apply existsb_exists in X as (i & Hi & Pi). apply in_seq in Hi.
      destruct (IH i) as (j & ? & ? & ?); [lia|auto|]. exists j. repeat split; auto. lia.
    - exists k. repeat split; auto. intros i Hi. destruct (p i) eqn:Q; auto.
      assert (existsb p (seq 0 k) = true); [|congruence]. apply existsb_exists. exists i.
      split; auto. apply in_seq. lia.
  Qed.

  Lemma cycle_exists x : P x -> exists t, is_cycle f (x :: t) /\ length (x :: t) <= N.
  Proof.
    intros Px. destruct (orbit_closes Pf Pb inj Px) as (k & K0 & KN & E).
    destruct (@least (fun j => Nat.iter (S j) f x =? x) (pred k)) as (j & Hj & Ej & Lj).
    { replace (S (pred k)) with k by lia. rewrite E. apply Nat.eqb_refl. }
    apply Nat.eqb_eq in Ej.
    exists (traj (f x) j). split; [|simpl; rewrite traj_length; lia].
    rewrite is_cycle_cons. split; [|split].
    - change (NoDup (traj x (S j))).
      assert (ND : forall n, n <= S j -> NoDup (traj x n)).
      { clear - Lj inj Pf Px. intros n Hn.
        assert (G : forall i i', i < i' -> i' < S j -> Nat.iter i f x <> Nat.iter i' f x).
        { intros i i' H1 H2 E'. replace i' with (i + (i' - i)) in E' by lia.
          apply (iter_cancel Pf inj) in E'; auto.
          specialize (Lj (pred (i' - i))). replace (S (pred (i' - i))) with (i' - i) in Lj by lia.
          rewrite <- E', Nat.eqb_refl in Lj. specialize (Lj ltac:(lia)). discriminate. }
        assert (Q : forall s n, s + n <= S j -> NoDup (traj (Nat.iter s f x) n)).
        { clear n Hn. intros s n; revert s; induction n; intros s H; simpl; [constructor|]. constructor.
          - change (f (Nat.iter s f x)) with (Nat.iter (S s) f x). rewrite traj_in.
            intros (i & Hi & E'). rewrite <- iter_add in E'. apply (G s (i + S s)) in E'; auto; lia.
          - apply (IHn (S s)). lia. }
        apply (Q 0). auto. }
      apply ND. auto.
    - apply traj_chain.
    - rewrite traj_last. apply Ej.
  Qed.
End CycleExists.

(** The iterators walk cycles. *)
Section Walk.
  Variable f : nat -> nat.
  Variable step : nat -> res nat.

  Lemma walk_rest x cur l : 
    (forall y, In y (cur :: l) -> step y = Ok (f y)) ->
    chain f cur l -> f (last l cur) = x -> ~ In x l ->
    forall fuel, length l < fuel -> iter_rest step x cur fuel = Ok l.
  Proof.
    revert cur. induction l as [|z l IH]; intros cur ST C L NI fuel HF.
    - destruct fuel; [simpl in HF; lia|]. simpl. rewrite ST by (left; auto). simpl.
      simpl in L. rewrite L, Nat.eqb_refl. reflexivity.
    - destruct fuel; [simpl in HF; lia|]. simpl in HF. simpl. rewrite ST by (left; auto). simpl.
      destruct C as [-> C]. rewrite last_cons in L.
      destruct (Nat.eqb_spec z x); [subst; exfalso; apply NI; left; auto|].
      rewrite IH; auto; try lia.
      + intros y Hy; apply ST; right; auto.
      + intros H; apply NI; right; auto.
  Qed.

  Lemma walk_collect x t fuel : is_cycle f (x :: t) ->
    (forall y, In y (x :: t) -> step y = Ok (f y)) -> length (x :: t) <= fuel ->
    iter_collect step x fuel = Ok (x :: t).
  Proof.
    rewrite is_cycle_cons. intros (ND & C & L) ST HF. unfold iter_collect.
    rewrite (walk_rest ST C L); [reflexivity| |simpl in HF; lia]. inversion ND; auto.
  Qed.

  Lemma walk_find_gen (Pr : nat -> res bool) (p : nat -> bool) x cur l :
    (forall y, In y (cur :: l) -> step y = Ok (f y)) ->
    (forall y, In y (cur :: l) -> Pr y = Ok (p y)) ->
    chain f cur l -> f (last l cur) = x -> ~ In x l ->
    forall fuel, length l < fuel -> iter_find step Pr x cur fuel = Ok (find p (cur :: l)).
  Proof.
    revert cur. induction l as [|z l IH]; intros cur ST SP C L NI fuel HF.
    - destruct fuel; [simpl in HF; lia|]. simpl. rewrite SP by (left; auto). simpl.
      destruct (p cur); auto. rewrite ST by (left; auto). simpl.
      simpl in L. rewrite L, Nat.eqb_refl. reflexivity.
    - destruct fuel; [simpl in HF; lia|]. simpl in HF. 
      cbn [iter_find]. rewrite SP by (left; auto). cbn [bind find].
      destruct (p cur); auto. rewrite ST by (left; auto). cbn [bind].
      destruct C as [-> C]. rewrite last_cons in L.
      destruct (Nat.eqb_spec z x); [subst; exfalso; apply NI; left; auto|].
      rewrite IH; auto; try lia.
      + intros y Hy; apply ST; right; auto.
      + intros y Hy; apply SP; right; auto.
      + intros H; apply NI; right; auto.
  Qed.

  Lemma walk_find (Pr : nat -> res bool) (p : nat -> bool) x t fuel : is_cycle f (x :: t) ->
    (forall y, In y (x :: t) -> step y = Ok (f y)) ->
    (forall y, In y (x :: t) -> Pr y = Ok (p y)) -> length (x :: t) <= fuel ->
    iter_find step Pr x x fuel = Ok (find p (x :: t)).
  Proof.
    rewrite is_cycle_cons. intros (ND & C & L) ST SP HF.
    apply walk_find_gen; auto. inversion ND; auto.
  Qed.
End Walk.

(** Reversing a cycle *)
Lemma cycle_inverse f f' x t : is_cycle f (x :: t) ->
  (forall y, In y (x :: t) -> f' (f y) = y) -> is_cycle f' (x :: rev t).
Proof.
  rewrite !is_cycle_cons. intros (ND & C & L) I. split; [|split].
  - inversion ND; subst. constructor; [rewrite <- in_rev; auto|]. apply NoDup_rev; auto.
  - assert (G : forall a l, chain f a l -> (forall y, In y (a :: l) -> f' (f y) = y) ->
      forall z, f' z = last l a -> chain f' z (rev (a :: l))).
    { clear. intros a l; revert a. induction l as [|b l IH]; intros a C I z Hz.
      - simpl. auto.
      - simpl in C. destruct C as [Ea C]. rewrite last_cons in Hz.
        assert (chain f' z (rev (b :: l))) by (apply IH; auto; intros; apply I; right; auto).
        simpl rev in *. rewrite <- app_assoc. simpl.
        apply chain_app in H as (H1 & H2 & _). apply chain_app. split; auto. split; auto.
        simpl. split; auto. rewrite <- Ea. apply I. left; auto. }
    destruct t as [|b t]; simpl; auto.
    specialize (G x (b :: t) C I x). 
    assert (Hx : f' x = last (b :: t) x).
    { rewrite <- L at 1. apply I. apply last_in. }
    specialize (G Hx). simpl rev in G. simpl rev.
    apply chain_app in G. apply G.
  - destruct t as [|b t].
    + simpl in *. rewrite <- L at 1. apply I. left; auto.
    + simpl rev. rewrite last_app. simpl. destruct C as [E _]. rewrite <- E. apply I. left; auto.
Qed.
