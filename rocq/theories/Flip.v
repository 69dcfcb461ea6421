(** [HalfEdge::flip]: exchanging a half-edge with its twin. *)
From Coq Require Import List Arith Lia Bool.
From Verif Require Import Base DVec DVecFacts Mesh Spec Rep Cycle Traverse Room Ops Ops2.
Import ListNotations.
Set Implicit Arguments.
Unset Strict Implicit.

(** Exchange two ids. *)
Definition swp (e t x : nat) : nat := if x =? e then t else if x =? t then e else x.

Lemma swp_l e t : swp e t e = t.
Proof. unfold swp. rewrite Nat.eqb_refl. reflexivity. Qed.
Lemma swp_r e t : swp e t t = e.
Proof. unfold swp. rewrite Nat.eqb_refl. destruct (Nat.eqb_spec t e); auto. Qed.
Lemma swp_o e t x : x <> e -> x <> t -> swp e t x = x.
Proof. intros A B. unfold swp. apply Nat.eqb_neq in A, B. rewrite A, B. reflexivity. Qed.
Lemma swp_swp e t x : swp e t (swp e t x) = x.
Proof.
  destruct (Nat.eq_dec x e) as [->|N]; [rewrite swp_l; apply swp_r|].
  destruct (Nat.eq_dec x t) as [->|M]; [rewrite swp_r; apply swp_l|]. rewrite (@swp_o e t x) by auto. apply swp_o; auto.
Qed.

Section Flip.
  Context {VP EP FP : Type}.
  Notation mesh := (mesh VP EP FP).
  Notation graph := (graph VP EP FP).
  Implicit Types (g : graph) (m : mesh) (c : cfg).

  Definition gflip (e : nat) g : graph :=
    let t := tw g e in
    let s := swp e t in
    mkG (lv g) (fun j => s (nx g (s j))) (fun j => s (pv g (s j))) (tw g) (fun j => og g (s j))
        (fun j => fc g (s j)) (ep g) (lvv g)
        (fu (fu (ve g) (og g e) (Some t)) (og g t) (Some e)) (vp g) (lvf g)
        (fun f => if oeqb (fc g t) (Some f) then e else if oeqb (fc g e) (Some f) then t else fe g f)
        (fp g).

  (** [e] is neither dangling nor part of a loop of length one. *)
  Definition flippable g (e : nat) : Prop :=
    nx g e <> e /\ nx g e <> tw g e /\ nx g (tw g e) <> e /\ nx g (tw g e) <> tw g e.

  Lemma w_upd5 m qe qv qf g e n p o f m' :
    rep m qe qv qf g ->
    upd_edge m e (fun z => mkE n (e_twin z) p o f (e_pay z)) = Ok m' ->
    lv g e = true /\ rep m' qe qv qf (gw_face e f (gw_origin e o (gw_prev e p (gw_next e n g)))).
  Proof.
    intros R H. destruct (upd_edge_look R H) as (L0 & OK & EV & EF & x & L & LL).
    split; auto. split; auto; rewrite ?EV, ?EF; try apply R; intros i; cbn -[Nat.eqb]; rewrite ?EV, ?EF; try apply R.
    rewrite LL. pose proof (r_e R i) as Q. unfold fu. destruct (Nat.eqb_spec i e); subst; cbn; auto.
    rewrite L in Q. intuition.
  Qed.

  Lemma flip_edge_ok m g e m' : rep m [] [] [] g -> WF g -> flip_edge m e = Ok m' ->
    lv g e = true /\ (flippable g e -> rep m' [] [] [] (gflip e g)).
  Proof.
    intros R W H. unfold flip_edge in H.
    rewrite (r_origin_id R) in H. destruct (lv g e) eqn:L; [|discriminate]. cbn [bind] in H.
    rewrite (target_step R W L) in H. cbn [bind] in H.
    destruct (r_edge_live R _ L) as (x & EX & X1 & X2 & X3 & X4 & X5 & _). rewrite EX in H. cbn [bind] in H.
    pose proof (wf_tw W _ L) as LT.
    rewrite <- X3 in H. destruct (r_edge_live R _ LT) as (y & EY & Y1 & Y2 & Y3 & Y4 & Y5 & _).
    rewrite EY in H. cbn [bind] in H. rewrite <- X1, <- X2, <- X5, <- Y1, <- Y2, <- Y5 in H.
    split; auto. intros (F1 & F2 & F3 & F4). clear EX EY X1 X2 X3 X4 X5 Y1 Y2 Y3 Y4 Y5 x y.
    apply bind_ok in H as (m1 & H1 & H). destruct (w_upd5 R H1) as (_ & R1).
    apply bind_ok in H as (m2 & H2 & H). destruct (w_set_prev R1 H2) as (_ & R2).
    apply bind_ok in H as (m3 & H3 & H). destruct (w_set_next R2 H3) as (_ & R3).
    apply bind_ok in H as (m4 & H4 & H). destruct (w_upd5 R3 H4) as (_ & R4).
    apply bind_ok in H as (m5 & H5 & H). destruct (w_set_prev R4 H5) as (_ & R5).
    apply bind_ok in H as (m6 & H6 & H). destruct (w_set_next R5 H6) as (_ & R6).
    apply bind_ok in H as (m7 & H7 & H). destruct (w_set_vedge R6 H7) as (_ & R7).
    apply bind_ok in H as (m8 & H8 & H). destruct (w_set_vedge R7 H8) as (_ & R8).
    clear R1 R2 R3 R4 R5 R6 R7 H1 H2 H3 H4 H5 H6 H7 H8.
    apply bind_ok in H as (m9 & H9 & H).
    set (t := tw g e) in *.
    assert (NET : t <> e) by (apply W; auto).
    assert (G : exists g9, rep m' [] [] [] g9 /\ geq (mkG (lv g)
        (fu (fu (fu (fu (nx g) e (nx g t)) (pv g t) e) t (nx g e)) (pv g e) t)
        (fu (fu (fu (fu (pv g) e (pv g t)) (nx g t) e) t (pv g e)) (nx g e) t)
        (tw g) (fu (fu (og g) e (og g t)) t (og g e)) (fu (fu (fc g) e (fc g t)) t (fc g e)) (ep g) (lvv g)
        (fu (fu (ve g) (og g e) (Some t)) (og g t) (Some e)) (vp g) (lvf g)
        (fun f => if oeqb (fc g t) (Some f) then e else if oeqb (fc g e) (Some f) then t else fe g f)
        (fp g)) g9).
    { destruct (fc g e) as [f1|] eqn:FE, (fc g t) as [f2|] eqn:FT.
      - destruct (w_set_fedge R8 H9) as (_ & R9). destruct (w_set_fedge R9 H) as (_ & R10).
        eexists; split; [exact R10|]. split; intros j; cbn -[Nat.eqb]; unfold fu; auto.
        intros _. eqcase.
      - destruct (w_set_fedge R8 H9) as (_ & R9). injection H as <-.
        eexists; split; [exact R9|]. split; intros j; cbn -[Nat.eqb]; unfold fu; auto.
        intros _. eqcase.
      - injection H9 as <-. destruct (w_set_fedge R8 H) as (_ & R10).
        eexists; split; [exact R10|]. split; intros j; cbn -[Nat.eqb]; unfold fu; auto.
        intros _. eqcase.
      - injection H9 as <-. injection H as <-.
        eexists; split; [exact R8|]. split; intros j; cbn -[Nat.eqb]; unfold fu; auto. }
    destruct G as (g9 & R9 & Q). eapply rep_geq_l; [exact R9|]. eapply geq_trans; [apply geq_sym, Q|].
    assert (pv g e <> e) by (intros X; apply F1; rewrite <- X at 1; apply W; auto).
    assert (pv g e <> t) by (intros X; apply F3; rewrite <- X; apply W; auto).
    assert (pv g t <> e) by (intros X; apply F2; rewrite <- X; apply W; auto).
    assert (pv g t <> t) by (intros X; apply F4; rewrite <- X at 1; apply W; auto).
    assert (tw g t = e) by (apply W; auto).
    assert (NX1 : forall j, lv g j = true -> nx g j = e -> j = pv g e).
    { intros j Lj <-. symmetry. apply W; auto. }
    assert (NX2 : forall j, lv g j = true -> nx g j = t -> j = pv g t).
    { intros j Lj <-. symmetry. apply W; auto. }
    assert (PV1 : forall j, lv g j = true -> pv g j = e -> j = nx g e).
    { intros j Lj <-. symmetry. apply W; auto. }
    assert (PV2 : forall j, lv g j = true -> pv g j = t -> j = nx g t).
    { intros j Lj <-. symmetry. apply W; auto. }
    pose proof (wf_nxpv W _ L). pose proof (wf_nxpv W _ LT). pose proof (wf_pvnx W _ L). pose proof (wf_pvnx W _ LT).
    split; intros j; cbn -[Nat.eqb]; fold t; auto; intros Lj; unfold fu.
    - destruct (Nat.eq_dec j e) as [->|Ne].
      { rewrite swp_l, swp_o by auto. eqcase. }
      destruct (Nat.eq_dec j t) as [->|Nt].
      { rewrite swp_r, swp_o by auto. eqcase. }
      rewrite (@swp_o e t j) by auto. unfold swp. specialize (NX1 j Lj). specialize (NX2 j Lj). eqcase; exfalso; intuition (subst; congruence).
    - destruct (Nat.eq_dec j e) as [->|Ne].
      { rewrite swp_l, swp_o by auto. eqcase. }
      destruct (Nat.eq_dec j t) as [->|Nt].
      { rewrite swp_r, swp_o by auto. eqcase. }
      rewrite (@swp_o e t j) by auto. unfold swp. specialize (PV1 j Lj). specialize (PV2 j Lj). eqcase; exfalso; intuition (subst; congruence).
    - unfold swp. eqcase.
    - unfold swp. eqcase.
  Qed.

  (** The result is consistent. *)
  Section WFflip.
    Variables (m : mesh) (g : graph) (e : nat).
    Hypothesis R : rep m [] [] [] g.
    Hypothesis W : WF g.
    Hypothesis L : lv g e = true.
    Let t := tw g e.
    Let s := swp e t.

    Lemma s_live j : lv g (s j) = lv g j.
    Proof.
      assert (lv g t = true) by (apply W; auto).
      unfold s, swp. destruct (Nat.eqb_spec j e); [congruence|]. destruct (Nat.eqb_spec j t); congruence.
    Qed.
    Lemma s_inv j : s (s j) = j. Proof. apply swp_swp. Qed.
    Lemma s_tw j : lv g j = true -> s (tw g (s j)) = tw g j.
    Proof.
      intros Lj. assert (T : tw g t = e) by (apply W; auto). unfold s.
      destruct (Nat.eq_dec j e) as [->|Ne]. { rewrite swp_l, T. apply swp_l. }
      destruct (Nat.eq_dec j t) as [->|Nt]. { rewrite swp_r, T. fold t. apply swp_r. }
      rewrite (@swp_o e t j) by auto. apply swp_o.
      - intros X. apply Nt. unfold t. rewrite <- X. symmetry. apply W; auto.
      - intros X. apply Ne. apply (tw_inj W); auto.
    Qed.
    Lemma tw_s j : lv g j = true -> tw g (s j) = s (tw g j).
    Proof. intros Lj. rewrite <- (s_inv (tw g (s j))). rewrite s_tw; auto. Qed.

    Lemma reach_s a b : lv g a = true -> reach (wheel g) a b -> reach (wheel (gflip e g)) (s a) (s b).
    Proof.
      intros La H. induction H; [constructor|].
      assert (Lb : lv g b = true). { eapply reach_inv with (P := fun x => lv g x = true); eauto. apply (wheel_live W). }
      replace (s (wheel g b)) with (wheel (gflip e g) (s b)). { apply reach_step; auto. }
      unfold wheel. cbn [gflip nx tw]. fold t. change (swp e t) with s.
      rewrite tw_s, s_inv by auto. reflexivity.
    Qed.

    Lemma reach_s' a b x y : lv g a = true -> x = s a -> s b = y -> reach (wheel g) a b ->
      reach (wheel (gflip e g)) x y.
    Proof. intros La -> <-. apply reach_s; auto. Qed.

    Lemma wheel_sym a b : lv g a = true -> reach (wheel g) a b -> reach (wheel g) b a.
    Proof.
      intros La H. eapply reach_sym with (P := fun x => lv g x = true) (N := length (slots (edges m))); eauto.
      - apply (wheel_live W). - apply (r_bound R). - intros x y. apply (wheel_inj W).
    Qed.

    Lemma orbit_of a b : lv g a = true -> lv g b = true -> og g a = og g b -> reach (wheel g) a b.
    Proof.
      intros La Lb O. destruct (wf_wheel W _ La) as (x & V & RA). destruct (wf_wheel W _ Lb) as (y & V' & RB).
      rewrite O, V' in V. injection V as ->.
      assert (Lx : lv g x = true) by (eapply (wf_ve W); eauto; apply W; auto).
      eapply reach_trans; [|exact RB]. apply wheel_sym; auto.
    Qed.

    Lemma reach_nx_s a b : lv g a = true -> reach (nx g) a b -> reach (nx (gflip e g)) (s a) (s b).
    Proof.
      intros La H. induction H; [constructor|].
      replace (s (nx g b)) with (nx (gflip e g) (s b)). { apply reach_step; auto. }
      cbn [gflip nx]. fold t. change (swp e t) with s. rewrite s_inv. reflexivity.
    Qed.

    Lemma reach_nx_s' a b x y : lv g a = true -> x = s a -> s b = y -> reach (nx g) a b ->
      reach (nx (gflip e g)) x y.
    Proof. intros La -> <-. apply reach_nx_s; auto. Qed.

    Lemma loop_of a b f : lv g a = true -> lv g b = true -> fc g a = Some f -> fc g b = Some f -> reach (nx g) a b.
    Proof.
      intros La Lb Fa Fb. destruct (wf_fc W _ La Fa) as [Lf RA]. destruct (wf_fc W _ Lb Fb) as [_ RB].
      destruct (wf_fe W _ Lf) as [Le _].
      eapply reach_trans; [|exact RB].
      eapply reach_sym with (P := fun x => lv g x = true) (N := length (slots (edges m))); eauto.
      - intros; apply W; auto. - apply (r_bound R). - intros x y. apply (nx_inj W).
    Qed.

    Lemma gflip_WF : WF (gflip e g).
    Proof.
      pose proof (wf_tw W _ L) as LT. fold t in LT.
      assert (T : tw g t = e) by (apply W; auto).
      split; cbn [gflip lv nx pv tw og fc ep lvv ve vp lvf fe fp]; fold t; change (swp e t) with s; try apply W.
      - intros j Lj. rewrite s_live. apply W. rewrite s_live; auto.
      - intros j Lj. rewrite s_live. apply W. rewrite s_live; auto.
      - intros j Lj. rewrite s_inv, (wf_pvnx W). apply s_inv. rewrite s_live; auto.
      - intros j Lj. rewrite s_inv, (wf_nxpv W). apply s_inv. rewrite s_live; auto.
      - intros j Lj. rewrite s_inv, (wf_ognx W) by (rewrite s_live; auto). rewrite tw_s; auto.
      - intros j Lj. rewrite s_inv, (wf_fcnx W) by (rewrite s_live; auto). reflexivity.
      - intros j Lj. apply W. rewrite s_live; auto.
      - intros j Lj. assert (Ls : lv g (s j) = true) by (rewrite s_live; auto).
        unfold fu. destruct (Nat.eqb_spec (og g (s j)) (og g t)) as [E1|E1].
        + exists e. split; auto. apply (@reach_s' t (s j)); auto using s_inv; [symmetry; apply swp_r|]. apply orbit_of; auto.
        + destruct (Nat.eqb_spec (og g (s j)) (og g e)) as [E2|E2].
          * exists t. split; auto. apply (@reach_s' e (s j)); auto using s_inv; [symmetry; apply swp_l|]. apply orbit_of; auto.
          * destruct (wf_wheel W _ Ls) as (x & V & RX). exists x. split; auto.
            destruct (wf_ve W _ (wf_og W _ Ls) V) as [Lx Ox].
            apply (@reach_s' x (s j)); auto using s_inv.
            symmetry. apply swp_o; intros ->; congruence.
      - intros v x Lv. unfold fu. destruct (Nat.eqb_spec v (og g t)) as [->|E1].
        + intros [= <-]. split; auto. unfold s. rewrite swp_l. auto.
        + destruct (Nat.eqb_spec v (og g e)) as [->|E2].
          * intros [= <-]. split; auto. unfold s. rewrite swp_r. auto.
          * intros V. destruct (wf_ve W _ Lv V) as [Lx Ox]. split; auto. rewrite <- Ox. f_equal.
            apply swp_o; intros ->; congruence.
      - intros j f Lj Fj. assert (Ls : lv g (s j) = true) by (rewrite s_live; auto).
        destruct (wf_fc W _ Ls Fj) as [Lf RF]. split; auto.
        destruct (fc g t) as [f2|] eqn:FT.
        + cbn. destruct (Nat.eqb_spec f2 f) as [->|E1].
          * apply (@reach_nx_s' t (s j)); auto using s_inv; [symmetry; apply swp_r|]. eapply loop_of; eauto.
          * destruct (fc g e) as [f1|] eqn:FE.
            -- cbn. destruct (Nat.eqb_spec f1 f) as [->|E2].
               ++ apply (@reach_nx_s' e (s j)); auto using s_inv; [symmetry; apply swp_l|]. eapply loop_of; eauto.
               ++ destruct (wf_fe W _ Lf) as [Le Fe]. apply (@reach_nx_s' (fe g f) (s j)); auto using s_inv; symmetry; apply swp_o; congruence.
            -- cbn. destruct (wf_fe W _ Lf) as [Le Fe]. apply (@reach_nx_s' (fe g f) (s j)); auto using s_inv; symmetry; apply swp_o; congruence.
        + cbn. destruct (fc g e) as [f1|] eqn:FE.
          * cbn. destruct (Nat.eqb_spec f1 f) as [->|E2].
            -- apply (@reach_nx_s' e (s j)); auto using s_inv; [symmetry; apply swp_l|]. eapply loop_of; eauto.
            -- destruct (wf_fe W _ Lf) as [Le Fe]. apply (@reach_nx_s' (fe g f) (s j)); auto using s_inv; symmetry; apply swp_o; congruence.
          * cbn. destruct (wf_fe W _ Lf) as [Le Fe]. apply (@reach_nx_s' (fe g f) (s j)); auto using s_inv; symmetry; apply swp_o; congruence.
      - intros f Lf. destruct (wf_fe W _ Lf) as [Le Fe].
        destruct (oeqb (fc g t) (Some f)) eqn:O1.
        + split; auto. unfold s. rewrite swp_l. destruct (fc g t); cbn in O1; [|discriminate]. apply Nat.eqb_eq in O1. congruence.
        + destruct (oeqb (fc g e) (Some f)) eqn:O2.
          * split; auto. unfold s. rewrite swp_r. destruct (fc g e); cbn in O2; [|discriminate]. apply Nat.eqb_eq in O2. congruence.
          * split; auto. replace (s (fe g f)) with (fe g f); auto. symmetry. apply swp_o; intros E.
            -- rewrite <- E, Fe in O2. cbn in O2. rewrite Nat.eqb_refl in O2. discriminate.
            -- rewrite <- E, Fe in O1. cbn in O1. rewrite Nat.eqb_refl in O1. discriminate.
    Qed.
  End WFflip.

  (** [flip] never fails on a live half-edge of a consistent mesh. *)
  Lemma f_flip_edge c m g e a b d : rep m [] [] [] g -> WF g -> lv g e = true -> room c m a b d ->
    exists m', flip_edge m e = Ok m' /\ room c m' a b d.
  Proof.
    intros R W L RM. unfold flip_edge. rewrite (r_origin_id R), L. cbn [bind].
    rewrite (target_step R W L). cbn [bind].
    destruct (r_edge_live R _ L) as (x & EX & X1 & X2 & X3 & X4 & X5 & _). rewrite EX. cbn [bind].
    pose proof (wf_tw W _ L) as LT.
    rewrite <- X3. destruct (r_edge_live R _ LT) as (y & EY & Y1 & Y2 & Y3 & Y4 & Y5 & _).
    rewrite EY. cbn [bind]. rewrite <- X1, <- X2, <- X5, <- Y1, <- Y2, <- Y5.
    destruct (@f_upd_edge _ _ _ c m [] [] [] g e (fun z => mkE (nx g (tw g e)) (e_twin z) (pv g (tw g e)) (og g (tw g e)) (fc g (tw g e)) (e_pay z)) a b d R L RM) as (m1 & H1 & RM1).
    rewrite H1. cbn [bind]. destruct (w_upd5 R H1) as (_ & R1).
    destruct (@f_set_prev _ _ _ c m1 [] [] [] _ (nx g (tw g e)) e a b d R1) as (m2 & -> & R2 & RM2); auto. { cbn. apply W; auto. }
    cbn [bind]. destruct (@f_set_next _ _ _ c m2 [] [] [] _ (pv g (tw g e)) e a b d R2) as (m3 & -> & R3 & RM3); auto. { cbn. apply W; auto. }
    cbn [bind]. destruct (@f_upd_edge _ _ _ c m3 [] [] [] _ (tw g e) (fun z => mkE (nx g e) (e_twin z) (pv g e) (og g e) (fc g e) (e_pay z)) a b d R3) as (m4 & H4 & RM4); auto.
    rewrite H4. cbn [bind]. destruct (w_upd5 R3 H4) as (_ & R4).
    destruct (@f_set_prev _ _ _ c m4 [] [] [] _ (nx g e) (tw g e) a b d R4) as (m5 & -> & R5 & RM5); auto. { cbn. apply W; auto. }
    cbn [bind]. destruct (@f_set_next _ _ _ c m5 [] [] [] _ (pv g e) (tw g e) a b d R5) as (m6 & -> & R6 & RM6); auto. { cbn. apply W; auto. }
    cbn [bind]. destruct (@f_set_vedge _ _ _ c m6 [] [] [] _ (og g e) (Some (tw g e)) a b d R6) as (m7 & -> & R7 & RM7); auto. { cbn. apply W; auto. }
    cbn [bind]. destruct (@f_set_vedge _ _ _ c m7 [] [] [] _ (og g (tw g e)) (Some e) a b d R7) as (m8 & -> & R8 & RM8); auto. { cbn. apply W; auto. }
    cbn [bind].
    assert (S9 : exists m9 g9, match fc g e with Some f => set_fedge m8 f (tw g e) | None => Ok m8 end = Ok m9 /\
       rep m9 [] [] [] g9 /\ lvf g9 = lvf g /\ room c m9 a b d).
    { destruct (fc g e) as [f|] eqn:F; [|exists m8; eexists; split; [reflexivity|]; split; [exact R8|]; split; [reflexivity|exact RM8]].
      destruct (@f_set_fedge _ _ _ c m8 [] [] [] _ f (tw g e) a b d R8) as (m9 & E & R9 & RM9); auto.
      { cbn. apply (wf_fc W e); auto. } exists m9; eexists; split; [exact E|]; split; [exact R9|]; split; [reflexivity|exact RM9]. }
    destruct S9 as (m9 & g9 & -> & R9 & LF & RM9). cbn [bind].
    destruct (fc g (tw g e)) as [f|] eqn:F; [|eauto].
    destruct (@f_set_fedge _ _ _ c m9 [] [] [] _ f e a b d R9) as (m10 & E & R10 & RM10); auto.
    { rewrite LF. apply (wf_fc W (tw g e)); auto. } eauto.
  Qed.
End Flip.
