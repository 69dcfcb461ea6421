(** Inserting a twin pair at two corners (or isolated vertices) keeps a graph consistent. *)
From Coq Require Import List Arith Lia Bool.
From Verif Require Import Base DVec DVecFacts Mesh Spec Rep.
Import ListNotations.
Set Implicit Arguments.

Section Splice.
  Context {VP EP FP : Type}.
  Notation graph := (graph VP EP FP).
  Implicit Types (g : graph).

  (** An endpoint of the new edge: [Some (i, o)] is the corner between the consecutive boundary
      half-edges [i] (incoming) and [o] (outgoing); [None] is an isolated vertex. *)
  Definition cin (ca : option (nat * nat)) (d : nat) := opt ca d fst.
  Definition cout (ca : option (nat * nat)) (d : nat) := opt ca d snd.
  Definition at_in (ca : option (nat * nat)) (j : nat) : bool := opt ca false (fun p => j =? fst p).
  Definition at_out (ca : option (nat * nat)) (j : nat) : bool := opt ca false (fun p => j =? snd p).

  (** New half-edges [e1 : a -> b], [e2 : b -> a]. *)
  Definition splice (e1 e2 a b : nat) (ca cb : option (nat * nat)) (y1 y2 : EP) (g : graph) : graph :=
    mkG (fu (fu (lv g) e1 true) e2 true)
        (fun j => if j =? e1 then cout cb e2 else if j =? e2 then cout ca e1
                  else if at_in ca j then e1 else if at_in cb j then e2 else nx g j)
        (fun j => if j =? e1 then cin ca e2 else if j =? e2 then cin cb e1
                  else if at_out ca j then e2 else if at_out cb j then e1 else pv g j)
        (fun j => if j =? e1 then e2 else if j =? e2 then e1 else tw g j)
        (fun j => if j =? e1 then a else if j =? e2 then b else og g j)
        (fun j => if j =? e1 then None else if j =? e2 then None else fc g j)
        (fu (fu (ep g) e1 (Some y1)) e2 (Some y2))
        (lvv g)
        (fun v => if (v =? a) && is_none ca then Some e1
                  else if (v =? b) && is_none cb then Some e2 else ve g v)
        (vp g) (lvf g) (fe g) (fp g).

  (** Conditions on an endpoint. *)
  Definition corner_ok g (a : nat) (ca : option (nat * nat)) : Prop :=
    match ca with
    | Some (i, o) => lv g i = true /\ nx g i = o /\ og g o = a /\ fc g i = None
    | None => lvv g a = true /\ ve g a = None
    end.
  Definition corners_apart (a b : nat) (ca cb : option (nat * nat)) : Prop :=
    match ca, cb with
    | Some (i, _), Some (j, _) => i <> j
    | None, None => a <> b
    | _, _ => True
    end.

  Section Preserve.
    Variables (g : graph) (e1 e2 a b : nat) (ca cb : option (nat * nat)) (y1 y2 : EP).
    Hypothesis W : WF g.
    Hypothesis F1 : lv g e1 = false.
    Hypothesis F2 : lv g e2 = false.
    Hypothesis N12 : e1 <> e2.
    Hypothesis CA : corner_ok g a ca.
    Hypothesis CB : corner_ok g b cb.
    Hypothesis CC : corners_apart a b ca cb.
    Let g' := splice e1 e2 a b ca cb y1 y2 g.

    Lemma live_ne j : lv g j = true -> j <> e1 /\ j <> e2.
    Proof. split; intros ->; congruence. Qed.

    Lemma corner_facts v cv : corner_ok g v cv ->
      lvv g v = true /\
      forall i o, cv = Some (i, o) -> lv g i = true /\ lv g o = true /\ nx g i = o /\ pv g o = i /\
        og g o = v /\ fc g i = None /\ fc g o = None /\ og g (tw g i) = v /\ lv g (tw g i) = true /\
        ve g v <> None.
    Proof.
      destruct cv as [[i o]|]; simpl.
      - intros (L & <- & O & F).
        pose proof (wf_nx W i L). pose proof (wf_pvnx W i L). pose proof (wf_fcnx W i L).
        pose proof (wf_ognx W i L). pose proof (wf_tw W i L). pose proof (wf_og W _ H).
        destruct (wf_wheel W _ H) as (e0 & V & _).
        split; [congruence|]. intros i' o' [= <- <-]. rewrite O in *.
        repeat split; auto; congruence.
      - intros [L V]. split; auto. discriminate.
    Qed.

    Lemma live_old j : lv g' j = true -> j = e1 \/ j = e2 \/ (lv g j = true /\ j <> e1 /\ j <> e2).
    Proof.
      unfold g'; simpl; unfold fu. destruct (Nat.eqb_spec j e2); auto. destruct (Nat.eqb_spec j e1); auto.
    Qed.
    Lemma live_keep j : lv g j = true -> lv g' j = true.
    Proof.
      unfold g'; simpl; unfold fu. destruct (Nat.eqb_spec j e2); auto. destruct (Nat.eqb_spec j e1); auto.
    Qed.
    Lemma live_e1 : lv g' e1 = true.
    Proof. unfold g'; simpl; unfold fu. rewrite Nat.eqb_refl. destruct (e1 =? e2); auto. Qed.
    Lemma live_e2 : lv g' e2 = true.
    Proof. unfold g'; simpl; unfold fu. rewrite Nat.eqb_refl. auto. Qed.

    Ltac beq := repeat match goal with
      | |- context [?x =? ?y] => destruct (Nat.eqb_spec x y); try congruence
      | H : context [?x =? ?y] |- _ => destruct (Nat.eqb_spec x y); try congruence
      end.

    (** all facts about both corners *)
    Lemma corner_apart_in i o j p : ca = Some (i, o) -> cb = Some (j, p) -> i <> j /\ o <> p.
    Proof.
      intros EA EB. destruct (corner_facts _ _ CA) as [_ HA]. destruct (corner_facts _ _ CB) as [_ HB].
      destruct (HA _ _ EA) as (? & ? & ? & ? & _). destruct (HB _ _ EB) as (? & ? & ? & ? & _).
      unfold corners_apart in CC. rewrite EA, EB in CC. split; auto. congruence.
    Qed.

    Lemma corner_cases v cv : corner_ok g v cv ->
      (exists i o, cv = Some (i, o) /\ lv g i = true /\ lv g o = true /\ nx g i = o /\ pv g o = i /\
        og g o = v /\ fc g i = None /\ fc g o = None /\ og g (tw g i) = v /\ lv g (tw g i) = true /\
        ve g v <> None) \/ cv = None.
    Proof.
      intros H. destruct (corner_facts _ _ H) as [_ F]. destruct cv as [[i o]|]; auto.
      left. exists i, o. split; auto.
    Qed.

    Ltac sm := cbn [cout cin opt fst snd at_in at_out] in *.

    Ltac setup :=
      pose proof corner_apart_in as AP;
      destruct (corner_cases _ _ CA) as [(ia & oa & Ea & ? & ? & ? & ? & ? & ? & ? & ? & ? & ?)|Ea];
      destruct (corner_cases _ _ CB) as [(ib & ob & Eb & ? & ? & ? & ? & ? & ? & ? & ? & ? & ?)|Eb];
      try (destruct (AP _ _ _ _ Ea Eb)); clear AP; rewrite ?Ea, ?Eb;
      repeat match goal with
      | H : at_in ca _ = _ |- _ => rewrite Ea in H
      | H : at_in cb _ = _ |- _ => rewrite Eb in H
      | H : at_out ca _ = _ |- _ => rewrite Ea in H
      | H : at_out cb _ = _ |- _ => rewrite Eb in H
      end.

    Lemma s_nx_old j : lv g j = true -> at_in ca j = false -> at_in cb j = false -> nx g' j = nx g j.
    Proof.
      intros L A B. destruct (live_ne _ L). unfold g'. simpl. rewrite A, B. beq.
    Qed.

    Lemma s_nx j : lv g j = true ->
      nx g' j = if at_in ca j then e1 else if at_in cb j then e2 else nx g j.
    Proof. intros L. destruct (live_ne _ L). unfold g'. simpl. beq. Qed.
    Lemma s_nx1 : nx g' e1 = cout cb e2.
    Proof. unfold g'. simpl. beq. Qed.
    Lemma s_nx2 : nx g' e2 = cout ca e1.
    Proof. unfold g'. simpl. beq. Qed.
    Lemma s_pv j : lv g j = true ->
      pv g' j = if at_out ca j then e2 else if at_out cb j then e1 else pv g j.
    Proof. intros L. destruct (live_ne _ L). unfold g'. simpl. beq. Qed.
    Lemma s_pv1 : pv g' e1 = cin ca e2.
    Proof. unfold g'. simpl. beq. Qed.
    Lemma s_pv2 : pv g' e2 = cin cb e1.
    Proof. unfold g'. simpl. beq. Qed.
    Lemma s_tw j : lv g j = true -> tw g' j = tw g j.
    Proof. intros L. destruct (live_ne _ L). unfold g'. simpl. beq. Qed.
    Lemma s_tw1 : tw g' e1 = e2.
    Proof. unfold g'. simpl. beq. Qed.
    Lemma s_tw2 : tw g' e2 = e1.
    Proof. unfold g'. simpl. beq. Qed.
    Lemma s_og j : lv g j = true -> og g' j = og g j.
    Proof. intros L. destruct (live_ne _ L). unfold g'. simpl. beq. Qed.
    Lemma s_og1 : og g' e1 = a.
    Proof. unfold g'. simpl. beq. Qed.
    Lemma s_og2 : og g' e2 = b.
    Proof. unfold g'. simpl. beq. Qed.
    Lemma s_fc j : lv g j = true -> fc g' j = fc g j.
    Proof. intros L. destruct (live_ne _ L). unfold g'. simpl. beq. Qed.
    Lemma s_fc1 : fc g' e1 = None.
    Proof. unfold g'. simpl. beq. Qed.
    Lemma s_fc2 : fc g' e2 = None.
    Proof. unfold g'. simpl. beq. Qed.

    Lemma at_in_true cv j : at_in cv j = true -> exists o, cv = Some (j, o).
    Proof. destruct cv as [[i o]|]; simpl; [|discriminate]. destruct (Nat.eqb_spec j i); [|discriminate]. subst. eauto. Qed.

    Lemma at_out_true cv j : at_out cv j = true -> exists i, cv = Some (i, j).
    Proof. destruct cv as [[i o]|]; simpl; [|discriminate]. destruct (Nat.eqb_spec j o); [|discriminate]. subst. eauto. Qed.

    Lemma at_in_some i o : at_in (Some (i, o)) i = true.
    Proof. simpl. apply Nat.eqb_refl. Qed.

    (** every old step of the wheel is one or two new steps *)
    Lemma s_wheel_step j : lv g j = true -> reach (wheel g') j (wheel g j).
    Proof.
      intros L. unfold wheel. pose proof (wf_tw W j L) as LT.
      assert (S1 : wheel g' j = nx g' (tw g j)) by (unfold wheel; rewrite s_tw; auto).
      destruct (at_in ca (tw g j)) eqn:A.
      - destruct (at_in_true _ _ A) as [o Ho]. 
        assert (wheel g' j = e1) by (rewrite S1, s_nx, A; auto).
        assert (wheel g' e1 = nx g (tw g j)).
        { unfold wheel. rewrite s_tw1, s_nx2, Ho. simpl.
          destruct (corner_facts _ _ CA) as [_ HA]. destruct (HA _ _ Ho) as (_ & _ & ? & _). auto. }
        rewrite <- H0. apply reach_step. rewrite <- H. apply reach_one.
      - destruct (at_in cb (tw g j)) eqn:B.
        + destruct (at_in_true _ _ B) as [o Ho]. 
          assert (wheel g' j = e2) by (rewrite S1, s_nx, A, B; auto).
          assert (wheel g' e2 = nx g (tw g j)).
          { unfold wheel. rewrite s_tw2, s_nx1, Ho. simpl.
            destruct (corner_facts _ _ CB) as [_ HB]. destruct (HB _ _ Ho) as (_ & _ & ? & _). auto. }
          rewrite <- H0. apply reach_step. rewrite <- H. apply reach_one.
        + replace (nx g (tw g j)) with (wheel g' j); [apply reach_one|].
          rewrite S1, s_nx, A, B; auto.
    Qed.

    Lemma s_wheel_reach x y : lv g x = true -> reach (wheel g) x y -> reach (wheel g') x y.
    Proof.
      intros L H. induction H; [constructor|].
      eapply reach_trans; [eassumption|]. apply s_wheel_step.
      apply reach_inv with (f := wheel g) (a := x) (P := fun j => lv g j = true); auto.
      intros. unfold wheel. apply W, W; auto.
    Qed.

    Lemma splice_WF : WF g'.
    Proof.
      split.
      - intros j H. destruct (live_old _ H) as [->|[->|(L & _)]].
        + rewrite s_tw1. apply live_e2. + rewrite s_tw2. apply live_e1.
        + rewrite s_tw by auto. apply live_keep. apply W; auto.
      - intros j H. destruct (live_old _ H) as [->|[->|(L & _)]].
        + rewrite s_tw1. apply s_tw2. + rewrite s_tw2. apply s_tw1.
        + rewrite !s_tw by (try rewrite s_tw by auto; auto; apply W; auto). apply W; auto.
      - intros j H. destruct (live_old _ H) as [->|[->|(L & _)]].
        + rewrite s_tw1. auto. + rewrite s_tw2. auto.
        + rewrite s_tw by auto. apply W; auto.
      - intros j H. destruct (live_old _ H) as [->|[->|(L & _)]].
        + rewrite s_nx1. setup; sm; auto using live_keep, live_e2.
        + rewrite s_nx2. setup; sm; auto using live_keep, live_e1.
        + rewrite s_nx by auto. destruct (at_in ca j); [apply live_e1|].
          destruct (at_in cb j); [apply live_e2|]. apply live_keep. apply W; auto.
      - intros j H. destruct (live_old _ H) as [->|[->|(L & _)]].
        + rewrite s_pv1. setup; sm; auto using live_keep, live_e2.
        + rewrite s_pv2. setup; sm; auto using live_keep, live_e1.
        + rewrite s_pv by auto. destruct (at_out ca j); [apply live_e2|].
          destruct (at_out cb j); [apply live_e1|]. apply live_keep. apply W; auto.
      - intros j H. destruct (live_old _ H) as [->|[->|(L & _)]].
        + rewrite s_nx1. setup; sm; rewrite ?s_pv2, ?Ea, ?Eb; sm; auto; rewrite s_pv by auto; rewrite ?Ea, ?Eb; sm; beq; auto.
        + rewrite s_nx2. setup; sm; rewrite ?s_pv1, ?Ea, ?Eb; sm; auto; rewrite s_pv by auto; rewrite ?Ea, ?Eb; sm; beq; auto.
        + rewrite s_nx by auto. destruct (at_in ca j) eqn:A.
          { destruct (at_in_true _ _ A) as [o Ho]. rewrite s_pv1, Ho. auto. }
          destruct (at_in cb j) eqn:B.
          { destruct (at_in_true _ _ B) as [o Ho]. rewrite s_pv2, Ho. auto. }
          pose proof (wf_nx W j L). pose proof (wf_pvnx W j L).
          rewrite s_pv by auto. setup; sm; beq; auto.
      - intros j H. destruct (live_old _ H) as [->|[->|(L & _)]].
        + rewrite s_pv1. setup; sm; rewrite ?s_nx2, ?Ea, ?Eb; sm; auto; rewrite s_nx by auto; rewrite ?Ea, ?Eb; sm; beq; auto.
        + rewrite s_pv2. setup; sm; rewrite ?s_nx1, ?Ea, ?Eb; sm; auto; rewrite s_nx by auto; rewrite ?Ea, ?Eb; sm; beq; auto.
        + rewrite s_pv by auto. destruct (at_out ca j) eqn:A.
          { destruct (at_out_true _ _ A) as [o Ho]. rewrite s_nx2, Ho. auto. }
          destruct (at_out cb j) eqn:B.
          { destruct (at_out_true _ _ B) as [o Ho]. rewrite s_nx1, Ho. auto. }
          pose proof (wf_pv W j L). pose proof (wf_nxpv W j L).
          rewrite s_nx by auto. setup; sm; beq; auto.
      - intros j H. destruct (live_old _ H) as [->|[->|(L & _)]].
        + rewrite s_nx1, s_tw1, s_og2. setup; sm; rewrite ?s_og2, ?Ea, ?Eb; sm; auto; rewrite s_og; auto.
        + rewrite s_nx2, s_tw2, s_og1. setup; sm; rewrite ?s_og1, ?Ea, ?Eb; sm; auto; rewrite s_og; auto.
        + rewrite s_nx, s_tw by auto. pose proof (wf_tw W j L). rewrite (s_og _ H0).
          destruct (at_in ca j) eqn:A.
          { destruct (at_in_true _ _ A) as [o Ho]. rewrite s_og1.
            destruct (corner_facts _ _ CA) as [_ HA]. destruct (HA _ _ Ho) as (?&?&?&?&?&?&?&?&?&?). auto. }
          destruct (at_in cb j) eqn:B.
          { destruct (at_in_true _ _ B) as [o Ho]. rewrite s_og2.
            destruct (corner_facts _ _ CB) as [_ HB]. destruct (HB _ _ Ho) as (?&?&?&?&?&?&?&?&?&?). auto. }
          rewrite s_og by (apply W; auto). apply W; auto.
      - intros j H. destruct (live_old _ H) as [->|[->|(L & _)]].
        + rewrite s_nx1, s_fc1. setup; sm; rewrite ?s_fc2, ?Ea, ?Eb; sm; auto; rewrite s_fc; auto.
        + rewrite s_nx2, s_fc2. setup; sm; rewrite ?s_fc1, ?Ea, ?Eb; sm; auto; rewrite s_fc; auto.
        + rewrite s_nx by auto. rewrite (s_fc _ L).
          destruct (at_in ca j) eqn:A.
          { destruct (at_in_true _ _ A) as [o Ho]. rewrite s_fc1.
            destruct (corner_facts _ _ CA) as [_ HA]. destruct (HA _ _ Ho) as (?&?&?&?&?&?&?&?&?&?). auto. }
          destruct (at_in cb j) eqn:B.
          { destruct (at_in_true _ _ B) as [o Ho]. rewrite s_fc2.
            destruct (corner_facts _ _ CB) as [_ HB]. destruct (HB _ _ Ho) as (?&?&?&?&?&?&?&?&?&?). auto. }
          rewrite s_fc by (apply W; auto). apply W; auto.
      - intros j H. destruct (live_old _ H) as [->|[->|(L & _)]].
        + rewrite s_og1. apply (corner_facts _ _ CA).
        + rewrite s_og2. apply (corner_facts _ _ CB).
        + rewrite s_og by auto. unfold g'. simpl. apply W; auto.
      - (* wheel *)
        assert (OLD : forall j, lv g j = true ->
          exists e0, ve g' (og g j) = Some e0 /\ reach (wheel g') e0 j).
        { intros j L. destruct (wf_wheel W _ L) as (e0 & V & R).
          assert (LE : lv g e0 = true) by (apply (wf_ve W (og g j)); auto; apply W; auto).
          exists e0. split; [|apply s_wheel_reach; auto].
          unfold g'. simpl.
          destruct (Nat.eqb_spec (og g j) a) as [Ea'|]; simpl.
          - destruct ca as [[? ?]|]; simpl in *.
            + destruct (Nat.eqb_spec (og g j) b); simpl; auto. destruct cb as [[? ?]|]; simpl in *; auto.
              destruct CB. congruence.
            + destruct CA. congruence.
          - destruct (Nat.eqb_spec (og g j) b); simpl; auto. destruct cb as [[? ?]|]; simpl in *; auto.
            destruct CB. congruence. }
        intros j H. destruct (live_old _ H) as [->|[->|(L & _)]].
        + rewrite s_og1. destruct (corner_cases _ _ CA) as [(i & o & Ea & Li&Lo&?&?&Oo&?&?&Ot&Lt&?)|Ea].
          * destruct (OLD _ Lt) as (e0 & V & R). rewrite Ot in V.
            exists e0. split; auto. 
            replace e1 with (wheel g' (tw g i)); [apply reach_step; auto|].
            unfold wheel. rewrite s_tw by auto. rewrite (wf_twtw W) by auto.
            rewrite s_nx by auto. rewrite Ea, at_in_some. reflexivity.
          * exists e1. split; [|constructor]. unfold g'. simpl. rewrite Ea, Nat.eqb_refl. reflexivity.
        + rewrite s_og2. destruct (corner_cases _ _ CB) as [(i & o & Eb & Li&Lo&?&?&Oo&?&?&Ot&Lt&?)|Eb].
          * destruct (OLD _ Lt) as (e0 & V & R). rewrite Ot in V.
            exists e0. split; auto. 
            replace e2 with (wheel g' (tw g i)); [apply reach_step; auto|].
            unfold wheel. rewrite s_tw by auto. rewrite (wf_twtw W) by auto.
            rewrite s_nx by auto. rewrite Eb, at_in_some.
            destruct (at_in ca i) eqn:A; auto. destruct (at_in_true _ _ A) as [o' Ho].
            unfold corners_apart in CC. rewrite Ho, Eb in CC. congruence.
          * exists e2. split; [|constructor]. unfold g'. simpl. rewrite Eb, Nat.eqb_refl. simpl.
            destruct (Nat.eqb_spec b a); simpl; auto. unfold corners_apart in CC. rewrite Eb in CC.
            destruct ca as [[? ?]|]; simpl; auto. congruence.
        + rewrite s_og by auto. apply OLD; auto.
      - intros v e LV. unfold g' in *. simpl. simpl in LV.
        destruct (Nat.eqb_spec v a); simpl.
        + destruct ca as [[? ?]|] eqn:Ea; simpl.
          * destruct (Nat.eqb_spec v b); simpl.
            { destruct cb as [[? ?]|] eqn:Eb; simpl; intros V.
              - destruct (wf_ve W _ LV V). destruct (live_ne _ H). unfold fu. beq. auto.
              - injection V as <-. unfold fu. beq. auto. }
            intros V. destruct (wf_ve W _ LV V). destruct (live_ne _ H). unfold fu. beq. auto.
          * intros [= <-]. unfold fu. beq. auto.
        + destruct (Nat.eqb_spec v b); simpl.
          { destruct cb as [[? ?]|] eqn:Eb; simpl; intros V.
            - destruct (wf_ve W _ LV V). destruct (live_ne _ H). unfold fu. beq. auto.
            - injection V as <-. unfold fu. beq. auto. }
          intros V. destruct (wf_ve W _ LV V). destruct (live_ne _ H). unfold fu. beq. auto.
      - intros j f H. destruct (live_old _ H) as [->|[->|(L & _)]].
        + rewrite s_fc1. discriminate. + rewrite s_fc2. discriminate.
        + rewrite s_fc by auto. intros F. destruct (wf_fc W _ L F) as [LF R].
          split; [unfold g'; simpl; auto|].
          destruct (wf_fe W _ LF) as [LE FE].
          apply reach_ext with (P := fun x => lv g x = true /\ fc g x = Some f) (f := nx g).
          * intros x [Lx Fx]. split; [apply W; auto|]. rewrite (wf_fcnx W); auto.
          * intros x [Lx Fx]. rewrite s_nx by auto.
            destruct (at_in ca x) eqn:A.
            { destruct (at_in_true _ _ A) as [o Ho]. destruct (corner_facts _ _ CA) as [_ HA].
              destruct (HA _ _ Ho) as (?&?&?&?&?&?&?&?&?&?). congruence. }
            destruct (at_in cb x) eqn:B; auto.
            { destruct (at_in_true _ _ B) as [o Ho]. destruct (corner_facts _ _ CB) as [_ HB].
              destruct (HB _ _ Ho) as (?&?&?&?&?&?&?&?&?&?). congruence. }
          * auto.
          * auto.
      - intros f LF. unfold g' in LF. simpl in LF. destruct (wf_fe W _ LF) as [LE FE].
        change (fe g' f) with (fe g f). rewrite s_fc by auto. auto using live_keep.
    Qed.
  End Preserve.
End Splice.
