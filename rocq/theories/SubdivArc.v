(** Interpolators that depend on the two ends of an edge only. *)
From Coq Require Import List Arith Lia Bool.
From Verif Require Import Base DVec DVecFacts Mesh Spec MeshSpec MeshProofs SubdivSpec.
Import ListNotations.
Set Implicit Arguments.
Unset Strict Implicit.

Section Arc.
  Context {VP EP FP : Type}.
  Notation graph := (graph VP EP FP).
  Implicit Types (g : graph).
  Variables (arc : VP -> VP -> VP) (phi : list (nat * VP) -> VP).
  Hypothesis PHI : forall p q r, phi [(1, p); (1, q); (0, r)] = arc p q /\ phi [(0, p); (1, q); (1, r)] = arc q r /\ phi [(1, p); (0, q); (1, r)] = arc r p.

  Lemma same_loop g e f : WF g -> triangles g -> lv g e = true -> fc g e = Some f ->
    lv g (fe g f) = true /\ (e = fe g f \/ e = nx g (fe g f) \/ e = nx g (nx g (fe g f))).
  Proof.
    intros W T L F. destruct (wf_fc W _ L F) as [LF RE]. destruct (wf_fe W _ LF) as [LX _]. split; auto.
    set (x := fe g f) in *. destruct (tm_three T LX) as [C _].
    clearbody x. clear - RE C. induction RE as [|y RE IH]; auto. destruct IH as [-> | [-> | ->]]; auto.
  Qed.

  Lemma mid_ends g e a : WF g -> triangles g -> lv g e = true -> mid_payload phi g e = Some a ->
    exists p q, vp g (og g e) = Some p /\ vp g (og g (nx g e)) = Some q /\ a = arc p q.
  Proof.
    intros W T L. unfold mid_payload. destruct (fc g e) as [f|] eqn:F; [|discriminate]. destruct (same_loop W T L F) as [LX EX].
    set (x := fe g f) in *. clearbody x. destruct (tm_three T LX) as [C _].
    assert (LY : lv g (nx g x) = true) by (apply W; auto). assert (LZ : lv g (nx g (nx g x)) = true) by (apply W; auto).
    pose proof (tm_apart T LX) as A1. pose proof (tm_apart T LY) as A2. pose proof (tm_apart T LZ) as A3.
    rewrite <- (wf_ognx W) in A1, A2, A3 by auto. rewrite C in A3.
    destruct (vp g (og g x)) as [px|] eqn:X1; [|discriminate]. destruct (vp g (og g (nx g x))) as [py|] eqn:X2; [|discriminate].
    destruct (vp g (og g (nx g (nx g x)))) as [pz|] eqn:X3; [|discriminate]. intros [= <-].
    destruct (PHI px py pz) as (H1 & H2 & H3).
    destruct EX as [-> | [-> | ->]]; rewrite ?C, ?Nat.eqb_refl, ?orb_true_r; cbn [orb].
    - rewrite (proj2 (Nat.eqb_neq _ _) A2), (proj2 (Nat.eqb_neq _ _) (not_eq_sym A3)). cbn [orb]. eauto.
    - rewrite (proj2 (Nat.eqb_neq _ _) A3), (proj2 (Nat.eqb_neq _ _) (not_eq_sym A1)). cbn [orb]. eauto.
    - rewrite (proj2 (Nat.eqb_neq _ _) A1), (proj2 (Nat.eqb_neq _ _) (not_eq_sym A2)). cbn [orb]. eauto.
  Qed.

  (** The new vertex on an edge lies on an arc between its ends. *)
  Lemma middle_arc g g' mid e : WF g -> triangles g -> middles phi mid g g' -> lv g e = true ->
    exists p q a, vp g (og g e) = Some p /\ vp g (og g (nx g e)) = Some q /\ vp g' (mid e) = Some a /\ (a = arc p q \/ a = arc q p).
  Proof.
    intros W T M L. destruct (M e L) as (e' & E & EQ & NN). destruct (vp g' (mid e)) as [a|] eqn:A; [|tauto]. symmetry in EQ.
    destruct E as [-> | ->].
    - destruct (mid_ends W T L EQ) as (p & q & X & Y & Z). exists p, q, a. auto.
    - assert (LT : lv g (tw g e) = true) by (apply W; auto). destruct (mid_ends W T LT EQ) as (p & q & X & Y & Z).
      rewrite <- (wf_ognx W _ L) in X. rewrite (wf_ognx W _ LT), (wf_twtw W _ L) in Y. exists q, p, a. auto.
  Qed.

  Lemma arc_survives (P : VP -> VP -> VP -> Prop) : (forall p q r, P p q r -> P q r p) ->
    (forall p q r a b c, P p q r -> a = arc p q \/ a = arc q p -> b = arc q r \/ b = arc r q -> c = arc r p \/ c = arc p r -> P p a c /\ P a b c) ->
    survives (EP := EP) (FP := FP) P phi.
  Proof.
    intros ROT HP mid g g' W T EF W' T' SD MD h p q r L Vp Vq Vr.
    assert (K : forall k, triangle g' k (og g' k) (og g' (nx g' k)) (og g' (nx g' (nx g' k))) -> forall e, lv g e = true ->
      (triangle g' k (og g e) (mid e) (mid (pv g e)) \/ triangle g' k (mid e) (mid (nx g e)) (mid (pv g e))) ->
      forall p q r, vp g' (og g' k) = Some p -> vp g' (og g' (nx g' k)) = Some q -> vp g' (og g' (nx g' (nx g' k))) = Some r -> P p q r).
    { clear h p q r L Vp Vq Vr. intros k _ e L TR p q r Vp Vq Vr.
      assert (LN : lv g (nx g e) = true) by (apply W; auto). assert (LP : lv g (pv g e) = true) by (apply W; auto).
      destruct (tm_three T L) as [C _].
      assert (PV : pv g e = nx g (nx g e)) by (rewrite <- C at 1; apply (wf_pvnx W); apply W; auto).
      destruct (middle_arc W T MD L) as (x & y & a & X1 & X2 & X3 & X4).
      destruct (middle_arc W T MD LN) as (y' & z & b & Y1 & Y2 & Y3 & Y4).
      destruct (middle_arc W T MD LP) as (z' & x' & c & Z1 & Z2 & Z3 & Z4).
      rewrite PV in Z1. rewrite (wf_nxpv W _ L) in Z2. rewrite PV in Z3.
      assert (y' = y) by congruence. assert (z' = z) by congruence. assert (x' = x) by congruence. subst y' z' x'.
      pose proof (EF e x y z L X1 X2 Y2) as Pe.
      destruct (HP x y z a b c Pe X4 Y4 Z4) as [Q1 Q2].
      destruct TR as [(_ & _ & O1 & O2 & O3)|(_ & _ & O1 & O2 & O3)]; rewrite O1 in Vp; rewrite O2 in Vq; rewrite O3, PV in Vr.
      - rewrite (sd_keep SD) in Vp by (apply W; auto). assert (p = x) by congruence. assert (q = a) by congruence. assert (r = c) by congruence. subst. auto.
      - assert (p = a) by congruence. assert (q = b) by congruence. assert (r = c) by congruence. subst. auto. }
    destruct (sd_only SD L) as (e & k & Le & EK & TR). destruct (tm_three T' L) as [C _].
    assert (Lk : lv g' k = true) by (destruct TR as [TR|TR]; apply TR). destruct (tm_three T' Lk) as [Ck _].
    assert (Tk : triangle g' k (og g' k) (og g' (nx g' k)) (og g' (nx g' (nx g' k)))) by (repeat split; auto).
    destruct EK as [-> | [-> | ->]].
    - eapply K; eauto.
    - apply ROT, ROT. apply (K _ Tk _ Le TR); rewrite ?C; auto.
    - apply ROT. apply (K _ Tk _ Le TR); rewrite ?C; auto.
  Qed.

  (** After any number of steps: the old vertices are where they were, the others satisfy [Q]. *)
  Lemma refined_vertices (P : VP -> VP -> VP -> Prop) (Q : VP -> Prop) : survives (EP := EP) (FP := FP) P phi ->
    (forall p q r, P p q r -> Q (arc p q) /\ Q (arc q p)) ->
    forall k g g', WF g -> triangles g -> every_face P g -> (forall v, lvv g v = true -> vp g v <> None) -> refined phi k g g' ->
      (forall v, lvv g v = true -> lvv g' v = true /\ vp g' v = vp g v) /\
      (forall v, lvv g' v = true -> lvv g v = true \/ exists p, vp g' v = Some p /\ Q p).
  Proof.
    intros SV HQ k g g' W T EF VL H. induction H as [g|k g g1 g' mid W1 T1 SD MD RF IH].
    - split; auto.
    - assert (VL1 : forall v, lvv g1 v = true -> vp g1 v <> None).
      { intros v L. apply (sd_vertices SD) in L as [L|(e & L & ->)]; [rewrite (sd_keep SD L); auto|]. destruct (MD e L) as (_ & _ & _ & N). exact N. }
      destruct (IH W1 T1 (SV mid g g1 W T EF W1 T1 SD MD) VL1) as [A B]. split.
      + intros v L. assert (L1 : lvv g1 v = true) by (apply (sd_vertices SD); auto). destruct (A v L1) as [X Y]. split; auto. rewrite Y. apply (sd_keep SD L).
      + intros v L. destruct (B v L) as [L1|]; auto. pose proof (A v L1) as [_ Y].
        apply (sd_vertices SD) in L1 as [L1|(e & Le & ->)]; auto. right.
        destruct (middle_arc W T MD Le) as (p & q & a & X1 & X2 & X3 & X4).
        assert (Lnn : lv g (nx g (nx g e)) = true) by (apply W, W; auto).
        pose proof (VL _ (wf_og W _ Lnn)) as NN. destruct (vp g (og g (nx g (nx g e)))) as [r|] eqn:E3; [|tauto].
        destruct (HQ p q r (EF e p q r Le X1 X2 E3)) as [Q1 Q2]. exists a. split; [congruence|]. destruct X4 as [-> | ->]; auto.
  Qed.
End Arc.
