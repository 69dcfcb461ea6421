(** The triangular table. *)
From Coq Require Import List Arith Lia Bool.
From Verif Require Import Base Tess TessProofs.
Import ListNotations.
Set Implicit Arguments.
Unset Strict Implicit.

Definition tnum (j : nat) : nat := j * (j - 1) / 2.
Lemma tnum_S j : tnum (S j) = tnum j + j.
Proof.
  unfold tnum. replace (S j * (S j - 1)) with (j * (j - 1) + j * 2) by (destruct j; cbn; lia).
  rewrite Nat.div_add by lia. auto.
Qed.
Lemma tnum_mono j k : j <= k -> tnum j <= tnum k.
Proof. induction 1; auto. rewrite tnum_S. lia. Qed.
Lemma tnum_lt i j n : i < j -> j < n -> tnum j + i < tnum n.
Proof. intros. pose proof (@tnum_mono (S j) n ltac:(lia)). rewrite tnum_S in *. lia. Qed.
Lemma tnum_inj i j i' j' : i < j -> i' < j' -> tnum j + i = tnum j' + i' -> i = i' /\ j = j'.
Proof.
  intros L L' E. destruct (Nat.lt_trichotomy j j') as [H|[H|H]].
  - pose proof (@tnum_lt i j j' L H). lia.
  - subst. lia.
  - pose proof (@tnum_lt i' j' j L' H). lia.
Qed.

Section Store.
  Variable A : Type.
  Implicit Types (s : store A) (a : A).
  Definition st_ok s (n : nat) : Prop := st_n s = n /\ length (st_data s) = tnum n.
  (** entry [(i, j)] as a partial function *)
  Definition ent s i j : option A := nth_error (st_data s) (tnum j + i).

  Lemma st_new_ok n a : 2 <= n -> exists s, st_new n a = Ok s /\ st_ok s n /\ forall i j, i < j -> j < n -> ent s i j = Some a.
  Proof.
    intros L. unfold st_new. destruct (Nat.ltb_spec 1 n); [|lia]. eexists. split; [reflexivity|].
    split; [split; cbn; auto; rewrite repeat_length; auto|].
    intros i j H1 H2. unfold ent. cbn. apply nth_error_repeat. fold (tnum n). apply tnum_lt; auto.
  Qed.

  Lemma st_index_ok dbg s n i j : st_ok s n -> i < j -> j < n -> st_index dbg s i j = Ok (tnum j + i).
  Proof.
    intros [N _] H1 H2. unfold st_index. rewrite N.
    replace (negb dbg || _) with true; [reflexivity|]. symmetry. apply orb_true_iff. right.
    rewrite !andb_true_iff, Nat.leb_le, !Nat.ltb_lt. lia.
  Qed.
  Lemma st_get_ok dbg s n i j a : st_ok s n -> i < j -> j < n -> (st_get dbg s i j = Ok a <-> ent s i j = Some a).
  Proof.
    intros O H1 H2. unfold st_get. rewrite (st_index_ok dbg O H1 H2). cbn. unfold at_, ent.
    destruct (nth_error _ _); cbn; split; congruence.
  Qed.
  Lemma ent_some s n i j : st_ok s n -> i < j -> j < n -> exists a, ent s i j = Some a.
  Proof.
    intros [_ L] H1 H2. unfold ent. destruct (nth_error _ _) eqn:E; eauto. apply nth_error_None in E.
    pose proof (tnum_lt H1 H2). lia.
  Qed.
  Lemma st_set_ok dbg s n i j a : st_ok s n -> i < j -> j < n ->
    exists s', st_set dbg s i j a = Ok s' /\ st_ok s' n /\ ent s' i j = Some a /\
      forall i' j', i' < j' -> (i', j') <> (i, j) -> ent s' i' j' = ent s i' j'.
  Proof.
    intros O H1 H2. unfold st_set. rewrite (st_index_ok dbg O H1 H2). cbn [bind].
    destruct O as [N L]. pose proof (tnum_lt H1 H2). destruct (Nat.ltb_spec (tnum j + i) (length (st_data s))); [|lia].
    eexists. split; [reflexivity|]. split; [split; cbn; auto; rewrite upd_length; auto|].
    unfold ent. cbn. split; [apply nth_error_upd_eq; auto|].
    intros i' j' H3 NE. apply nth_error_upd_ne. intros E. apply NE. apply tnum_inj in E as [-> ->]; auto.
  Qed.
End Store.

Lemma store_injective (A : Type) dbg (s : store A) n i j i' j' : st_ok s n -> i < j -> j < n -> i' < j' -> j' < n ->
    exists k k', st_index dbg s i j = Ok k /\ st_index dbg s i' j' = Ok k' /\ k < length (st_data s) /\
      (k = k' -> i = i' /\ j = j').
Proof.
  intros O L1 L2 L3 L4. exists (tnum j + i), (tnum j' + i').
  split; [apply (st_index_ok dbg O L1 L2)|]. split; [apply (st_index_ok dbg O L3 L4)|].
  split; [|apply tnum_inj; auto]. destruct O as [_ L]. pose proof (tnum_lt L1 L2). lia.
Qed.
Lemma store_get_set (A : Type) dbg (s : store A) n i j a : st_ok s n -> i < j -> j < n ->
    exists s', st_set dbg s i j a = Ok s' /\ st_ok s' n /\ st_get dbg s' i j = Ok a /\
      forall i' j', i' < j' -> j' < n -> (i', j') <> (i, j) -> st_get dbg s' i' j' = st_get dbg s i' j'.
Proof.
  intros O L1 L2. destruct (st_set_ok dbg a O L1 L2) as (s' & E & O' & E1 & E2). exists s'. split; auto. split; auto.
  split; [apply (st_get_ok dbg a O' L1 L2); auto|]. intros i' j' L3 L4 NE.
  destruct (ent_some O L3 L4) as (b & B). rewrite (proj2 (st_get_ok dbg b O L3 L4) B).
  apply (st_get_ok dbg b O' L3 L4). rewrite E2; auto.
Qed.
Lemma store_new (A : Type) dbg n (a : A) : 2 <= n ->
    exists s, st_new n a = Ok s /\ st_ok s n /\ forall i j, i < j -> j < n -> st_get dbg s i j = Ok a.
Proof.
  intros L. destruct (st_new_ok a L) as (s & E & O & H). exists s. split; auto. split; auto.
  intros i j L1 L2. apply (st_get_ok dbg a O L1 L2). auto.
Qed.
