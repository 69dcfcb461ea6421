From Coq Require Import List Arith Lia Bool Permutation.
From Verif Require Import Base DVec DVecFacts ArenaSpec Room.
Import ListNotations.
Set Implicit Arguments.
Unset Strict Implicit.

Section Proofs.
  Context {A : Type}.
  Variable cap : nat.

  Record ainv (d : dvec A) (s : astate) : Prop := {
    ai_ok : dv_ok d (apend s);
    ai_map : forall i, look d i = amap s i;
    ai_cap : look d cap = None /\ ~ In cap (free d) }.

  Lemma remove_split (l : list nat) i : In i l -> NoDup l ->
    exists l1 l2, l = l1 ++ i :: l2 /\ remove Nat.eq_dec i l = l1 ++ l2.
  Proof.
    intros H ND. apply in_split in H as (l1 & l2 & ->). exists l1, l2. split; auto.
    apply NoDup_remove in ND as [_ NI]. rewrite in_app_iff in NI.
    rewrite remove_app. cbn. destruct (Nat.eq_dec i i); [|congruence].
    rewrite !notin_remove; auto.
  Qed.

  Lemma look_upd (d : list (option (nat * A))) fr i x j : i < length d ->
    look (mkD (upd d i x) fr) j = if j =? i then option_map snd x else look (mkD d fr) j.
  Proof.
    intros L. unfold look. cbn. destruct (Nat.eqb_spec j i) as [->|N].
    - rewrite nth_error_upd_eq by auto. destruct x as [[? ?]|]; reflexivity.
    - rewrite nth_error_upd_ne by auto. reflexivity.
  Qed.

  Lemma cap_step (d : dvec A) r d' e : look d cap = None /\ ~ In cap (free d) ->
    arena_step cap d r = Ok (d', e) -> look d' cap = None /\ ~ In cap (free d').
  Proof.
    intros [L F] H.
    destruct r as [v| |i v|i|i f]; cbn [arena_step] in H; apply bind_ok in H as (x & H1 & H).
    - destruct x as [d1 i]. injection H as <- <-. unfold d_push in H1. destruct (free d) as [|k fr] eqn:E.
      + inv_ok H1. inv_ok H1. injection H1 as <- <-. cbn. split; auto. unfold look in *. cbn.
        rewrite nth_error_snoc. destruct (Nat.eqb_spec cap (length (slots d))); auto.
        rewrite <- e in *. rewrite Nat.eqb_refl in H0. discriminate.
      + inv_ok H1. destruct (Nat.ltb_spec k (length (slots d))); [|discriminate]. injection H1 as <- <-.
        rewrite look_upd by auto. apply negb_true_iff, Nat.eqb_neq in H.
        destruct (Nat.eqb_spec cap k); [congruence|]. split; auto. intros X; apply F; right; auto.
    - destruct x as [d1 i]. injection H as <- <-. unfold d_alloc in H1. destruct (free d) as [|k fr] eqn:E.
      + inv_ok H1. injection H1 as <- <-. cbn. split; auto. unfold look in *. cbn.
        rewrite nth_error_snoc. destruct (Nat.eqb_spec cap (length (slots d))); auto.
      + injection H1 as <- <-. split; auto. intros X; apply F; right; auto.
    - injection H as <- <-. unfold d_set in H1. destruct (nth_error _ _) as [[?|]|] eqn:E; try discriminate.
      inv_ok H1. injection H1 as <-. apply negb_true_iff, Nat.eqb_neq in H.
      rewrite look_upd by (apply nth_error_Some; congruence).
      destruct (Nat.eqb_spec cap i); [congruence|]. auto.
    - injection H as <- <-. unfold d_delete in H1. destruct (nth_error _ _) as [[[? ?]|]|] eqn:E; try discriminate.
      injection H1 as <-. rewrite look_upd by (apply nth_error_Some; congruence).
      destruct (Nat.eqb_spec cap i).
      + subst. exfalso. unfold look in L. rewrite E in L. discriminate.
      + split; auto. intros [X|X]; auto.
    - injection H as <- <-. unfold d_update in H1. destruct (nth_error _ _) as [[[? ?]|]|] eqn:E; try discriminate.
      injection H1 as <-. rewrite look_upd by (apply nth_error_Some; congruence).
      destruct (Nat.eqb_spec cap i); auto.
      subst. exfalso. unfold look in L. rewrite E in L. discriminate.
  Qed.

  Lemma step_inv d s r d' e : ainv d s -> arena_step cap d r = Ok (d', e) -> ev_disc s e ->
    ev_ok s e /\ ainv d' (anext s e).
  Proof.
    intros [OK MP CP] H D. pose proof (cap_step CP H) as CP'. clear CP.
    destruct r as [v| |i v|i|i f]; cbn [arena_step] in H.
    - apply bind_ok in H as ((d1 & i) & H1 & H). injection H as <- <-.
      destruct (push_ok _ _ OK H1) as (OK' & _ & LK & NI & LL & _). rewrite MP in LK.
      split; [split; auto|]. split; cbn; auto. intros j. rewrite LL, MP. unfold put. reflexivity.
    - apply bind_ok in H as ((d1 & i) & H1 & H). injection H as <- <-.
      destruct (alloc_ok _ OK H1) as (OK' & LK & NI & LL & _). rewrite MP in LK.
      split; [split; auto|]. split; cbn; auto. intros j. rewrite LL, MP. reflexivity.
    - apply bind_ok in H as (d1 & H1 & H). injection H as <- <-. cbn in D.
      assert (ND : NoDup (apend s)).
      { pose proof (ok_nodup OK) as N. clear - N. induction (free d); cbn in N; auto. inversion N; auto. }
      destruct (remove_split D ND) as (p1 & p2 & E1 & E2). rewrite E1 in OK.
      destruct (@set_ok _ _ _ _ _ _ _ _ OK H1) as (OK' & _ & _ & _ & LL). split.
      + cbn. rewrite <- MP. unfold d_set in H1. unfold look. destruct (nth_error _ _) as [[?|]|]; auto; discriminate.
      + split; cbn; [rewrite E2; auto| |auto]. intros j. rewrite LL, MP. reflexivity.
    - apply bind_ok in H as (d1 & H1 & H). injection H as <- <-.
      destruct (delete_ok _ OK H1) as (OK' & _ & _ & LK & LL). rewrite MP in LK.
      split; auto. split; cbn; auto. intros j. rewrite LL, MP. reflexivity.
    - apply bind_ok in H as (d1 & H1 & H). injection H as <- <-.
      destruct (update_ok _ _ OK H1) as (OK' & _ & _ & v & LK & LL). rewrite MP in LK.
      split; [cbn; congruence|]. split; cbn; auto. intros j. rewrite LL, MP. unfold put.
      destruct (j =? i); auto. rewrite LK. reflexivity.
  Qed.

  Lemma run_inv rs : forall d s d' tr, ainv d s -> arena_run cap d rs = Ok (d', tr) ->
    all_ev ev_disc s tr -> all_ev ev_ok s tr /\ ainv d' (afinal s tr).
  Proof.
    induction rs as [|r rs IH]; intros d s d' tr I H D; cbn [arena_run] in H.
    - injection H as <- <-. split; cbn; auto.
    - apply bind_ok in H as ((d1 & e) & H1 & H). apply bind_ok in H as ((d2 & es) & H2 & H).
      injection H as <- <-. destruct D as [D1 D2]. destruct (step_inv I H1 D1) as [O1 I1].
      destruct (IH _ _ _ _ I1 H2 D2) as [O2 I2]. split; [split; auto|]. exact I2.
  Qed.

  Lemma ainit_inv : ainv (@d_new A) ainit.
  Proof. split; cbn. apply new_ok. intros [|i]; reflexivity. split; auto. unfold look. cbn. destruct cap; reflexivity. Qed.

  Lemma ainv_observes d s : ainv d s -> observes d (amap s).
  Proof.
    intros [OK MP _]. split; [|split; [|split; [|split]]].
    - intros i. rewrite get_look, MP. destruct (amap s i); reflexivity.
    - intros i. rewrite has_look_b, MP. reflexivity.
    - intros i. rewrite (id_look i OK), MP. reflexivity.
    - intros i v. rewrite (iter_look OK), MP. reflexivity.
    - eapply iter_ids_nodup; eauto.
  Qed.

  Lemma arena_history rs d tr : arena_run cap (@d_new A) rs = Ok (d, tr) ->
    all_ev ev_disc ainit tr ->
    all_ev ev_ok ainit tr /\ observes d (amap (afinal ainit tr)).
  Proof.
    intros H D. destruct (run_inv ainit_inv H D) as [O I]. split; auto. apply ainv_observes; auto.
  Qed.

  (** counting *)
  Lemma arena_len rs d tr : arena_run cap (@d_new A) rs = Ok (d, tr) -> all_ev ev_disc ainit tr ->
    d_len d = length (d_iter d) + length (apend (afinal ainit tr)) /\
    d_len d <= d_cap d.
  Proof.
    intros H D. destruct (run_inv ainit_inv H D) as [_ I]. split.
    - apply len_iter. apply I. - unfold d_len, d_cap. lia.
  Qed.

  Lemma upd_cap (d : dvec A) r d' e : arena_step cap d r = Ok (d', e) ->
    d_cap d <= d_cap d' /\ (d_cap d < d_cap d' -> free d = [] /\ d_cap d' = S (d_cap d) /\ d_cap d <= cap).
  Proof.
    intros H. unfold d_cap.
    destruct r as [v| |i v|i|i f]; cbn [arena_step] in H; apply bind_ok in H as (x & H1 & H).
    - destruct x as [d1 i]. injection H as <- <-. unfold d_push in H1. destruct (free d) as [|k fr] eqn:F.
      + inv_ok H1. inv_ok H1. injection H1 as <- <-. cbn. rewrite app_length. cbn.
        apply Nat.leb_le in H. repeat split; lia.
      + inv_ok H1. destruct (Nat.ltb_spec k (length (slots d))); [|discriminate]. injection H1 as <- <-. cbn.
        rewrite upd_length. lia.
    - destruct x as [d1 i]. injection H as <- <-. unfold d_alloc in H1. destruct (free d) as [|k fr] eqn:F.
      + inv_ok H1. injection H1 as <- <-. cbn. rewrite app_length. cbn.
        apply Nat.leb_le in H. repeat split; lia.
      + injection H1 as <- <-. cbn. lia.
    - injection H as <- <-. unfold d_set in H1. destruct (nth_error _ _) as [[?|]|]; try discriminate.
      inv_ok H1. injection H1 as <-. cbn. rewrite upd_length. lia.
    - injection H as <- <-. unfold d_delete in H1. destruct (nth_error _ _) as [[?|]|]; try discriminate.
      injection H1 as <-. cbn. rewrite upd_length. lia.
    - injection H as <- <-. unfold d_update in H1. destruct (nth_error _ _) as [[[? ?]|]|]; try discriminate.
      injection H1 as <-. cbn. rewrite upd_length. lia.
  Qed.

  Lemma arena_capacity rs d tr r d' e : arena_run cap (@d_new A) rs = Ok (d, tr) ->
    all_ev ev_disc ainit tr -> arena_step cap d r = Ok (d', e) ->
    d_cap d <= d_cap d' <= S (d_cap d) /\ (d_len d < d_cap d -> d_cap d' = d_cap d).
  Proof.
    intros H D S. destruct (run_inv ainit_inv H D) as [_ I]. destruct (upd_cap S) as [C1 C2].
    destruct (Nat.eq_dec (d_cap d) (d_cap d')) as [E|E].
    - lia.
    - destruct C2 as (F & C3 & _); [lia|]. split; [lia|]. unfold d_len. rewrite F. cbn. unfold d_cap in *. lia.
  Qed.

  (** exhaustion *)
  Lemma cap_bound rs : forall (d : dvec A) d' tr, d_cap d <= S cap -> arena_run cap d rs = Ok (d', tr) -> d_cap d' <= S cap.
  Proof.
    induction rs as [|r rs IH]; intros d d' tr B H; cbn [arena_run] in H.
    - injection H as <- <-. auto.
    - apply bind_ok in H as ((d1 & e) & H1 & H). apply bind_ok in H as ((d2 & es) & H2 & H).
      injection H as <- <-. apply (IH d1 d2 es); auto. destruct (upd_cap H1) as [C1 C2].
      destruct (Nat.eq_dec (d_cap d) (d_cap d1)) as [E|E]; [lia|]. destruct C2 as (_ & C3 & C4); lia.
  Qed.

  Lemma arena_push_exhausted rs (d : dvec A) tr v : arena_run cap (@d_new A) rs = Ok (d, tr) ->
    all_ev ev_disc ainit tr ->
    match d_push cap d v with
    | Ok (d', i) => i < cap /\ d_get d i = Panic /\ d_get d' i = Ok v
    | Panic => cap <= d_len d
    | Diverge => False
    end.
  Proof.
    intros H D. destruct (run_inv ainit_inv H D) as [_ I].
    assert (B : d_cap d <= S cap) by (eapply cap_bound; [|exact H]; cbn; lia).
    destruct (d_push cap d v) as [[d' i]| |] eqn:E.
    - destruct (push_ok _ _ (ai_ok I) E) as (OK & NE & LK & _ & LL & _).
      rewrite !get_look, LK, LL, Nat.eqb_refl. split; [|split; reflexivity].
      assert (B' : d_cap d' <= S cap).
      { pose proof (@upd_cap d (RPush v) d' (EPush i v)) as U. cbn [arena_step] in U. rewrite E in U.
        destruct (U eq_refl) as [C1 C2].
        destruct (Nat.eq_dec (d_cap d) (d_cap d')) as [Q|Q]; [lia|]. destruct C2 as (_ & C3 & C4); lia. }
      assert (i < d_cap d'). { eapply look_lt. rewrite LL, Nat.eqb_refl. reflexivity. } lia.
    - unfold d_push in E. destruct (free d) as [|k fr] eqn:F.
      + destruct (Nat.leb_spec (length (slots d)) cap); cbn in E.
        * destruct (Nat.eqb_spec (length (slots d)) cap); [|discriminate]. unfold d_len. rewrite F. cbn. lia.
        * unfold d_len. rewrite F. cbn. lia.
      + destruct (Nat.eqb_spec k cap); unfold assert in E; cbn [negb] in E; [exfalso; apply (ai_cap I); rewrite F; left; auto|].
        destruct (Nat.ltb_spec k (length (slots d))); [discriminate|]. exfalso.
        assert (IN : In k (free d ++ apend (afinal ainit tr))) by (rewrite F; left; auto).
        apply (ok_dead (ai_ok I)) in IN. assert (k < length (slots d)) by (apply nth_error_Some; congruence). lia.
    - unfold d_push, assert in E.
      destruct (free d); repeat match type of E with context [if ?b then _ else _] => destruct b end; discriminate.
  Qed.
End Proofs.
