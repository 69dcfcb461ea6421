(** insert_vertices_into_edge divides an edge, if the origin has exactly two edges. *)
From Coq Require Import List Arith Lia Bool Permutation.
From Verif Require Import Base DVec DVecFacts Mesh Spec Rep Splice Cycle Traverse Room Ops Ops2 MeshSpec MeshMore MeshProofs BuildSpec RefineSpec.
Import ListNotations.
Set Implicit Arguments.
Unset Strict Implicit.

Lemma chain_agree f f' x l : chain f x l -> (forall y, In y (removelast (x :: l)) -> f' y = f y) -> chain f' x l.
Proof.
  revert x. induction l as [|z l IH]; intros x C A; [exact I|]. destruct C as [C1 C2]. split.
  - rewrite A; auto. left; auto.
  - apply IH; auto. intros y I. apply A. right; auto.
Qed.
Lemma removelast_incl {A} (l : list A) x : In x (removelast l) -> In x l.
Proof.
  induction l as [|a [|b l] IH]; [auto|intros []|]. intros [<-|I]; [left; auto|right; apply IH; auto].
Qed.
Lemma last_not_removelast {A} (x : A) l : NoDup (x :: l) -> ~ In (last l x) (removelast (x :: l)).
Proof.
  revert x. induction l as [|z l IH]; intros x D; [intros []|]. apply NoDup_cons_iff in D as [D1 D2].
  rewrite last_cons. intros [E|I].
  - apply D1. rewrite E. apply last_in.
  - revert I. apply IH; auto.
Qed.

Section Divide.
  Context {VP EP FP : Type}.
  Notation mesh := (mesh VP EP FP).
  Notation graph := (graph VP EP FP).
  Implicit Types (g : graph) (m : mesh) (c : cfg).
  Local Arguments abs : simpl never.

  (** One new vertex on the edge of [e]. *)
  Record sub1 g g' (e v e1 e2 : nat) (y : VP) (y1 y2 : EP) : Prop := {
    s1_fresh : lv g e1 = false /\ lv g e2 = false /\ e1 <> e2 /\ lvv g v = false;
    s1_lv : forall x, lv g' x = true <-> lv g x = true \/ x = e1 \/ x = e2;
    s1_nx : forall x, lv g x = true ->
      nx g' x = if x =? pv g e then e1 else if x =? tw g e then e2 else nx g x;
    s1_nx1 : nx g' e1 = e;
    s1_nx2 : nx g' e2 = nx g (tw g e);
    s1_pv : forall x, lv g x = true ->
      pv g' x = if x =? e then e1 else if x =? nx g (tw g e) then e2 else pv g x;
    s1_pv1 : pv g' e1 = pv g e;
    s1_pv2 : pv g' e2 = tw g e;
    s1_tw : forall x, lv g x = true -> tw g' x = tw g x;
    s1_tw1 : tw g' e1 = e2;
    s1_tw2 : tw g' e2 = e1;
    s1_og : forall x, lv g x = true -> og g' x = if x =? e then v else og g x;
    s1_og1 : og g' e1 = og g e;
    s1_og2 : og g' e2 = v;
    s1_fc : forall x, lv g x = true -> fc g' x = fc g x;
    s1_fc1 : fc g' e1 = fc g e;
    s1_fc2 : fc g' e2 = fc g (tw g e);
    s1_ep : forall x, lv g x = true -> ep g' x = ep g x;
    s1_ep1 : ep g' e1 = Some y1;
    s1_ep2 : ep g' e2 = Some y2;
    s1_lvv : forall x, lvv g' x = true <-> lvv g x = true \/ x = v;
    s1_vp : forall x, lvv g x = true -> vp g' x = vp g x;
    s1_vpv : vp g' v = Some y;
    s1_ve : forall x, lvv g x = true -> x <> og g e -> ve g' x = ve g x;
    s1_vev : ve g' v = Some e2;
    s1_veo : (ve g' (og g e) = Some e1 /\
               forall x, lv g x = true -> og g x = og g e -> reach (wheel g) e x) \/
             (ve g' (og g e) = ve g (og g e) /\ ve g (og g e) <> Some e);
    s1_f : forall f, keep_face g g' f
  }.

  Section Sub1.
    Variables (g g' : graph) (e v e1 e2 : nat) (y : VP) (y1 y2 : EP).
    Hypothesis W : WF g.
    Hypothesis L : lv g e = true.
    Hypothesis NE : pv g e <> tw g e.
    Hypothesis S1 : sub1 g g' e v e1 e2 y y1 y2.

    Let t := tw g e.
    Let p := pv g e.
    Lemma d_lt : lv g t = true. Proof. apply W; auto. Qed.
    Lemma d_lp : lv g p = true. Proof. apply W; auto. Qed.
    Lemma d_old x : lv g x = true -> x <> e1 /\ x <> e2.
    Proof. destruct (s1_fresh S1) as (A & B & _). split; intros ->; congruence. Qed.
    Lemma d_live x : lv g x = true -> lv g' x = true.
    Proof. intros. apply (s1_lv S1); auto. Qed.
    Lemma d_live1 : lv g' e1 = true. Proof. apply (s1_lv S1); auto. Qed.
    Lemma d_live2 : lv g' e2 = true. Proof. apply (s1_lv S1); auto. Qed.
    Lemma d_nxt : nx g t <> e.
    Proof. intros X. apply NE. fold t. rewrite <- X. apply W. apply d_lt. Qed.

    (** the place of a half-edge in the wheel of its old origin *)
    Let phi (x : nat) := if x =? e then e1 else x.

    Lemma d_wheel x : lv g x = true -> wheel g' (phi x) = phi (wheel g x).
    Proof.
      intros Lx. unfold wheel, phi. destruct (Nat.eqb_spec x e) as [->|N].
      - rewrite (s1_tw1 S1), (s1_nx2 S1). fold t. destruct (Nat.eqb_spec (nx g t) e); auto.
        exfalso; apply d_nxt; auto.
      - pose proof (wf_tw W _ Lx) as Lt. rewrite (s1_tw S1) by auto. rewrite (s1_nx S1) by auto.
        destruct (Nat.eqb_spec (tw g x) (pv g e)) as [E|N1].
        + rewrite E, (wf_nxpv W), Nat.eqb_refl; auto.
        + destruct (Nat.eqb_spec (tw g x) (tw g e)) as [E|N2].
          * exfalso. apply N. rewrite <- (wf_twtw W x), <- (wf_twtw W e), E; auto.
          * destruct (Nat.eqb_spec (nx g (tw g x)) e) as [E|]; auto.
            exfalso. apply N1. rewrite <- E. symmetry. apply W; auto.
    Qed.

    Lemma wheel_reach_live x z : lv g x = true -> reach (wheel g) x z -> lv g z = true.
    Proof.
      intros Lx. apply (reach_inv (P := fun z => lv g z = true)); auto.
      intros u Lu. unfold wheel. apply W, W; auto.
    Qed.
    Lemma d_wheel_reach x z : lv g x = true -> reach (wheel g) x z -> reach (wheel g') (phi x) (phi z).
    Proof.
      intros Lx H. induction H as [|b H IH]; [constructor|].
      rewrite <- d_wheel by (eapply wheel_reach_live; eauto). apply reach_step; auto.
    Qed.

    (** every old step of a loop is one or two new steps *)
    Lemma d_nx_step x : lv g x = true -> reach (nx g') x (nx g x).
    Proof.
      intros Lx. pose proof (s1_nx S1 Lx) as E. destruct (Nat.eqb_spec x (pv g e)) as [->|N1].
      - rewrite (wf_nxpv W) by auto. rewrite <- (s1_nx1 S1) at 2. apply reach_step. rewrite <- E. apply reach_one.
      - destruct (Nat.eqb_spec x (tw g e)) as [->|N2].
        + rewrite <- (s1_nx2 S1). apply reach_step. rewrite <- E. apply reach_one.
        + rewrite <- E. apply reach_one.
    Qed.
    Lemma d_nx_reach x z : lv g x = true -> reach (nx g) x z -> reach (nx g') x z.
    Proof.
      intros Lx H. induction H as [|b H IH]; [constructor|].
      eapply reach_trans; [exact IH|]. apply d_nx_step.
      apply (reach_inv (P := fun z => lv g z = true)) with (3 := H); auto. intros; apply W; auto.
    Qed.

    Ltac beq := repeat match goal with
      | |- context [?x =? ?y] => destruct (Nat.eqb_spec x y); try congruence
      end.

    Lemma sub1_WF : WF g'.
    Proof.
      destruct (s1_fresh S1) as (F1 & F2 & N12 & FV).
      pose proof d_lt as LT. pose proof d_lp as LP.
      assert (CS : forall x, lv g' x = true -> x = e1 \/ x = e2 \/ lv g x = true)
        by (intros x H; apply (s1_lv S1) in H; tauto).
      assert (OV : forall x, lv g x = true -> og g x <> v)
        by (intros x Lx X; pose proof (wf_og W _ Lx); congruence).
      split.
      - intros x H. destruct (CS _ H) as [->|[->|Lx]].
        + rewrite (s1_tw1 S1). apply d_live2. + rewrite (s1_tw2 S1). apply d_live1.
        + rewrite (s1_tw S1) by auto. apply d_live, W; auto.
      - intros x H. destruct (CS _ H) as [->|[->|Lx]].
        + rewrite (s1_tw1 S1). apply (s1_tw2 S1). + rewrite (s1_tw2 S1). apply (s1_tw1 S1).
        + rewrite (s1_tw S1 (x := x)) by auto. rewrite (s1_tw S1) by (apply (wf_tw W); auto). apply (wf_twtw W); auto.
      - intros x H. destruct (CS _ H) as [->|[->|Lx]].
        + rewrite (s1_tw1 S1). auto. + rewrite (s1_tw2 S1). auto.
        + rewrite (s1_tw S1) by auto. apply W; auto.
      - intros x H. destruct (CS _ H) as [->|[->|Lx]].
        + rewrite (s1_nx1 S1). apply d_live; auto. + rewrite (s1_nx2 S1). apply d_live, W; auto.
        + rewrite (s1_nx S1) by auto. destruct (x =? _); [apply d_live1|]. destruct (x =? _); [apply d_live2|].
          apply d_live, W; auto.
      - intros x H. destruct (CS _ H) as [->|[->|Lx]].
        + rewrite (s1_pv1 S1). apply d_live; auto. + rewrite (s1_pv2 S1). apply d_live; auto.
        + rewrite (s1_pv S1) by auto. destruct (x =? _); [apply d_live1|]. destruct (x =? _); [apply d_live2|].
          apply d_live, W; auto.
      - intros x H. destruct (CS _ H) as [->|[->|Lx]].
        + rewrite (s1_nx1 S1), (s1_pv S1), Nat.eqb_refl by auto. auto.
        + rewrite (s1_nx2 S1), (s1_pv S1) by (apply W; auto). rewrite Nat.eqb_refl.
          destruct (Nat.eqb_spec (nx g (tw g e)) e) as [X|]; auto. exfalso; apply d_nxt; auto.
        + rewrite (s1_nx S1) by auto. destruct (Nat.eqb_spec x (pv g e)) as [->|N1]; [apply (s1_pv1 S1)|].
          destruct (Nat.eqb_spec x (tw g e)) as [->|N2]; [apply (s1_pv2 S1)|].
          rewrite (s1_pv S1) by (apply W; auto).
          destruct (Nat.eqb_spec (nx g x) e) as [X|].
          { exfalso. apply N1. rewrite <- X. symmetry. apply W; auto. }
          destruct (Nat.eqb_spec (nx g x) (nx g (tw g e))) as [X|]; [|apply W; auto].
          exfalso. apply N2. rewrite <- (wf_pvnx W x), X by auto. apply W; auto.
      - intros x H. destruct (CS _ H) as [->|[->|Lx]].
        + rewrite (s1_pv1 S1), (s1_nx S1) by auto. rewrite Nat.eqb_refl. auto.
        + rewrite (s1_pv2 S1), (s1_nx S1) by auto. rewrite Nat.eqb_refl.
          destruct (Nat.eqb_spec (tw g e) (pv g e)) as [X|]; auto. exfalso; apply NE; auto.
        + rewrite (s1_pv S1) by auto. destruct (Nat.eqb_spec x e) as [->|N1]; [apply (s1_nx1 S1)|].
          destruct (Nat.eqb_spec x (nx g (tw g e))) as [->|N2]; [apply (s1_nx2 S1)|].
          rewrite (s1_nx S1) by (apply W; auto).
          destruct (Nat.eqb_spec (pv g x) (pv g e)) as [X|].
          { exfalso. apply N1. rewrite <- (wf_nxpv W x), X by auto. apply W; auto. }
          destruct (Nat.eqb_spec (pv g x) (tw g e)) as [X|]; [|apply W; auto].
          exfalso. apply N2. rewrite <- X. symmetry. apply W; auto.
      - intros x H. destruct (CS _ H) as [->|[->|Lx]].
        + rewrite (s1_nx1 S1), (s1_tw1 S1), (s1_og2 S1), (s1_og S1), Nat.eqb_refl; auto.
        + rewrite (s1_nx2 S1), (s1_tw2 S1), (s1_og1 S1), (s1_og S1) by (apply W; auto).
          destruct (Nat.eqb_spec (nx g (tw g e)) e) as [X|]; [exfalso; apply d_nxt; auto|].
          rewrite (wf_ognx W) by auto. rewrite (wf_twtw W); auto.
        + rewrite (s1_nx S1), (s1_tw S1) by auto. pose proof (wf_tw W _ Lx) as Ltx.
          rewrite (s1_og S1) with (x := tw g x) by auto.
          destruct (Nat.eqb_spec x (pv g e)) as [->|N1].
          * rewrite (s1_og1 S1). destruct (Nat.eqb_spec (tw g (pv g e)) e) as [X|].
            { exfalso. apply NE. rewrite <- X at 2. symmetry. apply W; auto. }
            rewrite <- (wf_ognx W) by auto. rewrite (wf_nxpv W); auto.
          * destruct (Nat.eqb_spec x (tw g e)) as [->|N2].
            { rewrite (s1_og2 S1), (wf_twtw W), Nat.eqb_refl; auto. }
            rewrite (s1_og S1) by (apply W; auto).
            destruct (Nat.eqb_spec (nx g x) e) as [X|].
            { exfalso. apply N1. rewrite <- X. symmetry. apply W; auto. }
            destruct (Nat.eqb_spec (tw g x) e) as [X|]; [|apply W; auto].
            exfalso. apply N2. rewrite <- X. symmetry. apply W; auto.
      - intros x H. destruct (CS _ H) as [->|[->|Lx]].
        + rewrite (s1_nx1 S1), (s1_fc1 S1), (s1_fc S1); auto.
        + rewrite (s1_nx2 S1), (s1_fc2 S1), (s1_fc S1) by (apply W; auto). apply W; auto.
        + rewrite (s1_nx S1), (s1_fc S1 (x := x)) by auto.
          destruct (Nat.eqb_spec x (pv g e)) as [->|N1].
          { rewrite (s1_fc1 S1), <- (wf_fcnx W (pv g e)) by auto. rewrite (wf_nxpv W); auto. }
          destruct (Nat.eqb_spec x (tw g e)) as [->|N2]; [apply (s1_fc2 S1)|].
          rewrite (s1_fc S1) by (apply W; auto). apply W; auto.
      - intros x H. apply (s1_lvv S1). destruct (CS _ H) as [->|[->|Lx]].
        + rewrite (s1_og1 S1). left. apply W; auto. + rewrite (s1_og2 S1). auto.
        + rewrite (s1_og S1) by auto. destruct (x =? e); auto. left. apply W; auto.
      - (* wheel *)
        assert (OLD : forall x, lv g x = true -> exists e0, ve g' (og g x) = Some e0 /\ reach (wheel g') e0 (phi x)).
        { intros x Lx. destruct (wf_wheel W _ Lx) as (e0 & V & R).
          assert (LE0 : lv g e0 = true) by (apply (wf_ve W _ (wf_og W _ Lx) V)).
          destruct (Nat.eq_dec (og g x) (og g e)) as [E|N].
          - rewrite E. destruct (s1_veo S1) as [[V1 RE]|[V1 V2]].
            + exists e1. split; auto. replace e1 with (phi e) by (unfold phi; rewrite Nat.eqb_refl; auto).
              apply d_wheel_reach; auto.
            + exists e0. rewrite V1. rewrite E in V. split; auto.
              replace e0 with (phi e0); [apply d_wheel_reach; auto|].
              unfold phi. destruct (Nat.eqb_spec e0 e) as [X|]; auto. congruence.
          - exists e0. rewrite (s1_ve S1) by (auto; apply W; auto). split; auto.
            replace e0 with (phi e0); [apply d_wheel_reach; auto|].
            unfold phi. destruct (Nat.eqb_spec e0 e) as [X|]; auto. exfalso. apply N.
            destruct (wf_ve W _ (wf_og W _ Lx) V) as [_ O]. congruence. }
        intros x H. destruct (CS _ H) as [->|[->|Lx]].
        + rewrite (s1_og1 S1). destruct (OLD _ L) as (e0 & A & B). exists e0. split; auto.
          unfold phi in B. rewrite Nat.eqb_refl in B. auto.
        + rewrite (s1_og2 S1). exists e2. split; [apply (s1_vev S1)|constructor].
        + rewrite (s1_og S1) by auto. destruct (Nat.eqb_spec x e) as [->|N].
          * exists e2. split; [apply (s1_vev S1)|]. replace e with (wheel g' e2); [apply reach_one|].
            unfold wheel. rewrite (s1_tw2 S1). apply (s1_nx1 S1).
          * destruct (OLD _ Lx) as (e0 & A & B). exists e0. split; auto.
            unfold phi in B. apply Nat.eqb_neq in N. rewrite N in B. auto.
      - intros u x Lu V. apply (s1_lvv S1) in Lu. destruct (Nat.eq_dec u v) as [->|NV].
        { rewrite (s1_vev S1) in V. injection V as <-. split; [apply d_live2|apply (s1_og2 S1)]. }
        destruct Lu as [Lu|]; [|contradiction].
        destruct (Nat.eq_dec u (og g e)) as [->|N].
        + destruct (s1_veo S1) as [[V1 _]|[V1 V2]].
          * rewrite V1 in V. injection V as <-. split; [apply d_live1|apply (s1_og1 S1)].
          * rewrite V1 in V. destruct (wf_ve W _ Lu V) as [Lx Ox]. split; [apply d_live; auto|].
            rewrite (s1_og S1) by auto. destruct (Nat.eqb_spec x e); [congruence|auto].
        + rewrite (s1_ve S1) in V by auto. destruct (wf_ve W _ Lu V) as [Lx Ox]. split; [apply d_live; auto|].
          rewrite (s1_og S1) by auto. destruct (Nat.eqb_spec x e); [congruence|auto].
      - intros x f H F.
        assert (OLD : forall z, lv g z = true -> fc g z = Some f -> lvf g' f = true /\ reach (nx g') (fe g' f) z).
        { intros z Lz Fz. destruct (wf_fc W _ Lz Fz) as [LF R]. destruct (s1_f S1 f) as [K1 K2].
          destruct (K2 LF) as [K3 _]. split; [congruence|]. rewrite K3. apply d_nx_reach; auto.
          apply (wf_fe W _ LF). }
        destruct (CS _ H) as [->|[->|Lx]].
        + rewrite (s1_fc1 S1) in F. destruct (OLD _ LP) as [A B].
          { rewrite <- (wf_fcnx W p) by auto. unfold p. rewrite (wf_nxpv W); auto. }
          split; auto. replace e1 with (nx g' p); [apply reach_step; auto|].
          rewrite (s1_nx S1) by auto. unfold p. rewrite Nat.eqb_refl. auto.
        + rewrite (s1_fc2 S1) in F. destruct (OLD _ LT F) as [A B].
          split; auto. replace e2 with (nx g' t); [apply reach_step; auto|].
          rewrite (s1_nx S1) by auto. unfold t. rewrite Nat.eqb_refl.
          destruct (Nat.eqb_spec (tw g e) (pv g e)) as [X|]; auto. exfalso; apply NE; auto.
        + rewrite (s1_fc S1) in F by auto. auto.
      - intros f LF. destruct (s1_f S1 f) as [K1 K2]. rewrite K1 in LF. destruct (K2 LF) as [K3 _].
        rewrite K3. destruct (wf_fe W _ LF) as [A B]. split; [apply d_live; auto|].
        rewrite (s1_fc S1); auto.
    Qed.

    Lemma d_agree x : lv g x = true -> x <> p -> x <> t -> nx g' x = nx g x.
    Proof.
      intros Lx A B. rewrite (s1_nx S1) by auto. apply Nat.eqb_neq in A, B. fold p t. rewrite A, B. auto.
    Qed.
    Lemma d_nxp : nx g' p = e1.
    Proof. rewrite (s1_nx S1) by apply d_lp. unfold p. rewrite Nat.eqb_refl. auto. Qed.
    Lemma d_nxt' : nx g' t = e2.
    Proof.
      rewrite (s1_nx S1) by apply d_lt. fold p t. rewrite Nat.eqb_refl.
      destruct (Nat.eqb_spec t p) as [X|]; auto. exfalso; apply NE; auto.
    Qed.
    Lemma d_last s : loop g (e :: s) -> last s e = p.
    Proof.
      intros [LL C]. pose proof (cycle_last C) as E. unfold p. rewrite <- E at 2. symmetry.
      apply W. apply LL. apply last_in.
    Qed.

    Lemma sub1_loop_e s : loop g (e :: s) -> ~ In t s -> loop g' (e :: s ++ [e1]).
    Proof.
      intros H NT. pose proof (d_last H) as LA. destruct H as [LL C].
      apply is_cycle_cons in C as (D & C & _).
      assert (FR : forall x, In x (e :: s) -> x <> e1 /\ x <> e2) by (intros; apply d_old; auto).
      assert (TE : t <> e) by (apply W; auto).
      split.
      - intros x [<-|I]; [apply d_live; auto|]. apply in_app_or in I as [I|[<-|[]]]; [|apply d_live1].
        apply d_live, LL. right; auto.
      - apply is_cycle_cons. split; [|split].
        + change (NoDup ((e :: s) ++ [e1])). apply nd_app; auto.
          { constructor; auto. constructor. }
          intros x I [<-|[]]. destruct (FR e1 I); auto.
        + apply chain_app. split; [|split; [|exact I]].
          * eapply chain_agree; [exact C|]. intros x I. pose proof (removelast_incl I) as J. apply d_agree; auto.
            { intros ->. rewrite <- LA in I. revert I. apply last_not_removelast; auto. }
            intros ->. destruct J as [J|J]; auto.
          * rewrite LA. apply d_nxp.
        + rewrite last_app. cbn. apply (s1_nx1 S1).
    Qed.

    Lemma sub1_loop_t s : loop g (t :: s) -> ~ In e s -> loop g' (t :: e2 :: s).
    Proof.
      intros [LL C] NT.
      assert (TE : t <> e) by (apply W; auto).
      assert (NP : ~ In p (t :: s)).
      { intros I. pose proof (cycle_closed C I) as J. unfold p in J. rewrite (wf_nxpv W) in J by auto.
        destruct J as [J|J]; auto. }
      apply is_cycle_cons in C as (D & C & Z).
      assert (FR : forall x, In x (t :: s) -> x <> e1 /\ x <> e2) by (intros; apply d_old; auto).
      destruct (@graft (nx g) (nx g') t e2 s t) as [G1 G2]; auto.
      { apply (s1_nx2 S1). }
      { intros x I. apply d_agree; [apply LL; right; auto| |].
        - intros ->. apply NP. right; auto. - intros ->. apply NoDup_cons_iff in D. tauto. }
      split.
      - intros x [<-|[<-|I]]; [apply d_live, LL; left; auto|apply d_live2|apply d_live, LL; right; auto].
      - apply is_cycle_cons. split; [|split].
        + apply NoDup_cons_iff in D as [D1 D2]. constructor; [|constructor; auto].
          * intros [X|X]; auto. destruct (FR t) as [_ F]; [left; auto|]. auto.
          * intros X. destruct (FR e2) as [_ F]; [right; auto|]. auto.
        + split; [apply d_nxt'|auto].
        + rewrite last_cons. auto.
    Qed.

    Lemma sub1_loop_both s1 s2 : loop g (e :: s1 ++ t :: s2) -> loop g' (e :: s1 ++ t :: e2 :: s2 ++ [e1]).
    Proof.
      intros H. pose proof (d_last H) as LA. rewrite last_app in LA. destruct H as [LL C].
      assert (TE : t <> e) by (apply W; auto).
      apply is_cycle_cons in C as (D & C & _).
      assert (FR : forall x, In x (e :: s1 ++ t :: s2) -> x <> e1 /\ x <> e2) by (intros; apply d_old; auto).
      destruct s2 as [|z s2]; [exfalso; apply NE; symmetry; exact LA|].
      rewrite last_cons in LA. apply chain_app in C as (C1 & E1 & E2 & C2).
      change (e :: s1 ++ t :: z :: s2) with ((e :: s1) ++ t :: z :: s2) in *.
      destruct (nd_app_inv D) as (D1 & D2 & DJ). apply NoDup_cons_iff in D2 as [NT D2].
      assert (PI : In p (z :: s2)) by (rewrite <- LA; apply last_in).
      split.
      - intros x [<-|I]; [apply d_live; auto|]. apply in_app_or in I as [I|[<-|[<-|I]]];
          [apply d_live, LL; apply in_or_app; left; right; auto|apply d_live, d_lt|apply d_live2|].
        apply in_app_or in I as [I|[<-|[]]]; [|apply d_live1]. apply d_live, LL, in_or_app. right; right; auto.
      - apply is_cycle_cons. split; [|split].
        + assert (Q : NoDup (e1 :: e2 :: (e :: s1) ++ t :: z :: s2)).
          { constructor; [|constructor; auto].
            - intros [X|X]; [destruct (s1_fresh S1) as (_ & _ & F & _); auto|]. destruct (FR e1 X); auto.
            - intros X. destruct (FR e2 X); auto. }
          eapply Permutation_NoDup; [|exact Q].
          change (e :: s1 ++ t :: e2 :: (z :: s2) ++ [e1]) with ((e :: s1) ++ t :: e2 :: (z :: s2) ++ [e1]).
          apply Permutation_trans with (e2 :: (e :: s1) ++ t :: (z :: s2) ++ [e1]).
          * apply Permutation_trans with (e2 :: e1 :: (e :: s1) ++ t :: z :: s2); [apply perm_swap|].
            apply perm_skip. change (t :: (z :: s2) ++ [e1]) with ((t :: z :: s2) ++ [e1]).
            rewrite app_assoc. apply Permutation_cons_append.
          * change (t :: e2 :: (z :: s2) ++ [e1]) with ([t] ++ e2 :: (z :: s2) ++ [e1]).
            rewrite app_assoc. change (t :: (z :: s2) ++ [e1]) with ([t] ++ (z :: s2) ++ [e1]).
            rewrite app_assoc. apply Permutation_middle.
        + assert (A1 : forall x, In x (e :: s1) -> nx g' x = nx g x).
          { intros x I. apply d_agree; [apply LL, in_or_app; auto| |]; intros ->; apply (DJ _ I); [right; auto|left; auto]. }
          apply chain_app. split; [|split; [|split; [apply d_nxt'|]]].
          * eapply chain_agree; [exact C1|]. intros x I. apply A1, removelast_incl; auto.
          * rewrite A1 by apply last_in. auto.
          * cbn [app]. split; [rewrite (s1_nx2 S1); exact E2|]. apply chain_app. split; [|split; [|exact I]].
            -- eapply chain_agree; [exact C2|]. intros x I. pose proof (removelast_incl I) as J. apply d_agree.
               ++ apply LL, in_or_app. right; right; auto.
               ++ intros ->. rewrite <- LA in I. revert I. apply last_not_removelast; auto.
               ++ intros ->. auto.
            -- rewrite LA. apply d_nxp.
        + rewrite last_app. rewrite last_cons. rewrite last_app. cbn. apply (s1_nx1 S1).
    Qed.

    Lemma sub1_loops l : loop g l -> ~ In e l -> ~ In t l -> loop g' l.
    Proof.
      intros [LL C] NE' NT. split; [intros; apply d_live; auto|].
      eapply cycle_ext; [|exact C]. intros x I. symmetry. apply d_agree; auto.
      - intros ->. apply NE'. pose proof (cycle_closed C I) as J. unfold p in J. rewrite (wf_nxpv W) in J; auto.
      - intros ->. auto.
    Qed.
  End Sub1.

  (** *** composition *)
  Lemma lt_snoc g g' es vs a e e1 v b :
    (forall x u w, In x es -> leads g x u w -> leads g' x u w) ->
    (forall u w, leads g e u w -> leads g' e1 u v /\ leads g' e v w) ->
    leads_through g (es ++ [e]) (a :: vs ++ [b]) ->
    leads_through g' ((es ++ [e1]) ++ [e]) (a :: (vs ++ [v]) ++ [b]).
  Proof.
    intros A B. revert vs a. induction es as [|x es IH]; intros vs a H.
    - destruct vs as [|w vs]; cbn in *.
      + destruct H as [H _]. apply B in H as [H1 H2]. auto.
      + destruct H as [_ H]. destruct vs; destruct H.
    - destruct vs as [|w vs].
      + cbn in H. destruct H as [_ H]. destruct es; destruct H.
      + cbn [app leads_through] in H |- *. destruct H as [H1 H2]. split; [apply A; auto; left; auto|].
        apply IH; auto. intros; apply A; auto. right; auto.
  Qed.

  Lemma divided_geq0 g g' e : WF g -> lv g e = true -> geq g g' -> edge_divided g g' e [] [] [].
  Proof.
    intros W L Q. pose proof (wf_tw W _ L) as LT. split; cbn [app map rev]; auto.
    - split; [constructor|]. split; [intros x []|]. intros x. rewrite (q_lv Q). cbn. tauto.
    - split; [constructor|]. split; [intros x []|]. intros x. rewrite (q_lvv Q). cbn. tauto.
    - intros f. eapply keep_face_geq; eauto. split; auto.
    - intros x [].
    - split; [|exact I]. unfold leads, target. rewrite <- (q_lv Q), <- (q_tw Q) by auto. rewrite <- !(q_og Q) by auto. auto.
    - intros x [].
    - intros x Lx. rewrite <- (q_tw Q), <- (q_fc Q), <- (q_ep Q), <- (q_og Q) by auto. auto.
    - intros x Lx. rewrite <- (q_vp Q), <- (q_ve Q) by auto. auto.
    - intros s H _. rewrite app_nil_r. eapply loop_geq; eauto.
    - intros s H _. eapply loop_geq; eauto.
    - intros s1 s2 H. rewrite app_nil_r. eapply loop_geq; eauto.
    - intros. eapply loop_geq; eauto.
  Qed.

  Lemma divided_step g G G' e es vs ps v e1 e2 y y1 y2 : WF g -> WF G -> lv g e = true ->
    edge_divided g G e es vs ps -> pv G e <> tw G e -> og G e = last vs (og g e) ->
    sub1 G G' e v e1 e2 y y1 y2 ->
    edge_divided g G' e (es ++ [e1]) (vs ++ [v]) (ps ++ [(y1, y2, y)]).
  Proof.
    intros Wg W Le ED NE OL S1.
    destruct (ed_e ED) as (N1 & FR1 & LV1). destruct (ed_v ED) as (N2 & FR2 & LV2).
    destruct (s1_fresh S1) as (F1 & F2 & N12 & FV).
    assert (LG : forall x, lv g x = true -> lv G x = true) by (intros; apply LV1; auto).
    assert (LE : lv G e = true) by auto.
    assert (LES : forall x, In x es -> lv G x = true) by (intros x I; apply LV1; right; apply in_or_app; auto).
    assert (TE : tw G e = tw g e) by (apply (ed_old_e ED); auto).
    assert (MT : map (tw G') (es ++ [e1]) = map (tw G) es ++ [e2]).
    { rewrite map_app. cbn. rewrite (s1_tw1 S1). f_equal. apply map_ext_in. intros x I. apply (s1_tw S1); auto. }
    assert (RT : rev (map (tw G') (es ++ [e1])) = e2 :: rev (map (tw G) es)) by (rewrite MT, rev_app_distr; auto).
    assert (LTW : forall x, In x es -> lv G (tw G x) = true) by (intros; apply W; auto).
    assert (NI : forall x, lv G x = true -> x <> e1 /\ x <> e2) by (intros x Lx; split; intros ->; congruence).
    assert (EES : ~ In e es).
    { intros I. assert (lv g e = false) by (apply FR1; apply in_or_app; auto). congruence. }
    assert (NTS : ~ In (tw g e) es).
    { intros I. assert (lv g (tw g e) = false) by (apply FR1; apply in_or_app; auto).
      pose proof (wf_tw Wg _ Le). congruence. }
    assert (NES : ~ In e (map (tw G) es)).
    { intros I. assert (lv g e = false) by (apply FR1; apply in_or_app; auto). congruence. }
    split.
    - rewrite MT. split; [|split].
      + assert (Q : NoDup (e1 :: e2 :: es ++ map (tw G) es)).
        { constructor; [|constructor; auto].
          - intros [X|X]; auto. assert (lv G e1 = true) by (apply LV1; auto). congruence.
          - intros X. assert (lv G e2 = true) by (apply LV1; auto). congruence. }
        eapply Permutation_NoDup; [|exact Q]. rewrite <- app_assoc. cbn [app].
        apply Permutation_trans with (e1 :: es ++ map (tw G) es ++ [e2]).
        * apply perm_skip. rewrite app_assoc. apply Permutation_cons_append.
        * apply Permutation_middle.
      + intros x I. rewrite !in_app_iff in I. cbn [In] in I.
        assert (X : forall z, lv G z = false -> lv g z = false).
        { intros z Z. destruct (lv g z) eqn:Q; auto. rewrite LG in Z; auto. }
        destruct I as [[I|[<-|[]]]|[I|[<-|[]]]]; auto; apply FR1, in_or_app; auto.
      + intros x. rewrite (s1_lv S1), LV1, !in_app_iff. cbn [In]. intuition.
    - split; [|split].
      + apply nd_app; auto. { constructor; [intros []|constructor]. }
        intros x I [<-|[]]. assert (lvv G v = true) by (apply LV2; auto). congruence.
      + intros x I. apply in_app_or in I as [I|[<-|[]]]; auto.
        destruct (lvv g v) eqn:Q; auto. assert (lvv G v = true) by (apply LV2; auto). congruence.
      + intros x. rewrite (s1_lvv S1), LV2, in_app_iff. cbn [In]. intuition.
    - intros f. destruct (ed_f ED f) as [A B]. destruct (s1_f S1 f) as [A' B']. split; [congruence|].
      intros LF. destruct (B LF). rewrite <- A in LF. destruct (B' LF). split; congruence.
    - intros x I. apply in_app_or in I as [I|[<-|[]]].
      + rewrite (s1_tw S1 (x := x)) by auto. rewrite (s1_tw S1) by auto. apply (ed_twin ED); auto.
      + rewrite (s1_tw1 S1). apply (s1_tw2 S1).
    - apply lt_snoc with (g := G); [| |apply (ed_path ED)].
      + intros x u w I (A & B & C). unfold leads, target in *. rewrite (s1_tw S1) by auto.
        rewrite !(s1_og S1) by auto. split; [apply (s1_lv S1); auto|].
        destruct (Nat.eqb_spec x e) as [X|]; [congruence|]. split; auto.
        destruct (Nat.eqb_spec (tw G x) e) as [X|]; auto. exfalso. apply NES. rewrite <- X. apply in_map; auto.
      + intros u w (A & B & C). unfold leads, target in *. rewrite (s1_tw1 S1), (s1_tw S1) by auto.
        rewrite (s1_og1 S1), (s1_og2 S1). rewrite !(s1_og S1) by (auto; apply W; auto). rewrite Nat.eqb_refl.
        destruct (Nat.eqb_spec (tw G e) e) as [X|]; [exfalso; exact (wf_twne W LE X)|].
        split; split; auto; apply (s1_lv S1); auto.
    - rewrite !map_app. cbn. rewrite (s1_ep1 S1). f_equal. rewrite <- (ed_pay1 ED).
      apply map_ext_in. intros x I. apply (s1_ep S1); auto.
    - rewrite MT, !map_app. cbn. rewrite (s1_ep2 S1). f_equal. rewrite <- (ed_pay2 ED).
      apply map_ext_in. intros x I. apply in_map_iff in I as (z & <- & I). apply (s1_ep S1); auto.
    - rewrite !map_app. cbn. rewrite (s1_vpv S1). f_equal. rewrite <- (ed_pay ED).
      apply map_ext_in. intros x I. apply (s1_vp S1). apply LV2; auto.
    - intros x I. apply in_app_or in I as [I|[<-|[]]].
      + destruct (ed_face ED I) as [A B]. rewrite (s1_tw S1) by auto. rewrite !(s1_fc S1) by auto. auto.
      + destruct (ed_old_e ED Le) as (_ & A & _).
        destruct (ed_old_e ED (wf_tw Wg _ Le)) as (_ & B & _).
        rewrite (s1_tw1 S1), (s1_fc1 S1), (s1_fc2 S1), TE. auto.
    - intros x Lx. destruct (ed_old_e ED Lx) as (A & B & C & D). pose proof (LG _ Lx).
      rewrite (s1_tw S1), (s1_fc S1), (s1_ep S1), (s1_og S1) by auto. repeat split; auto.
      intros N. apply Nat.eqb_neq in N. rewrite N. apply D. apply Nat.eqb_neq; auto.
    - intros x Lx. destruct (ed_old_v ED Lx) as (A & B). assert (LX : lvv G x = true) by (apply LV2; auto).
      rewrite (s1_vp S1) by auto. split; auto. intros N. rewrite (s1_ve S1); auto. rewrite OL.
      destruct vs as [|w vs]; auto. rewrite last_cons. intros X.
      assert (lvv g x = false); [|congruence]. apply FR2. rewrite X. apply last_in.
    - intros s H NT. rewrite app_assoc. apply (sub1_loop_e W LE S1); [apply (ed_loop_e ED); auto|].
      rewrite TE. rewrite in_app_iff. tauto.
    - intros s H NT. rewrite RT. cbn [app]. rewrite <- TE. apply (sub1_loop_t W LE NE S1).
      + rewrite TE. apply (ed_loop_t ED); auto.
      + rewrite in_app_iff, <- in_rev. tauto.
    - intros s1 s2 H. rewrite RT. cbn [app]. rewrite <- TE.
      replace (rev (map (tw G) es) ++ s2 ++ es ++ [e1]) with ((rev (map (tw G) es) ++ s2 ++ es) ++ [e1])
        by (rewrite <- !app_assoc; auto).
      apply (sub1_loop_both W LE NE S1). rewrite TE. apply (ed_loop_both ED); auto.
    - intros l H A B. apply (sub1_loops W LE S1); auto; [apply (ed_loops ED); auto|rewrite TE; auto].
  Qed.

  Lemma divided_geq g g1 g2 e es vs ps : WF g1 -> geq g1 g2 -> lv g e = true ->
    edge_divided g g1 e es vs ps -> edge_divided g g2 e es vs ps.
  Proof.
    intros W Q Le ED.
    destruct (ed_e ED) as (N1 & FR1 & LV1). destruct (ed_v ED) as (N2 & FR2 & LV2).
    assert (LES : forall x, In x es -> lv g1 x = true) by (intros x I; apply LV1; right; apply in_or_app; auto).
    assert (LG : forall x, lv g x = true -> lv g1 x = true) by (intros; apply LV1; auto).
    assert (MT : map (tw g2) es = map (tw g1) es) by (apply map_ext_in; intros x I; symmetry; apply Q; auto).
    assert (LTW : forall x, In x es -> lv g1 (tw g1 x) = true) by (intros; apply W; auto).
    split.
    - rewrite MT. split; auto. split; auto. intros x. rewrite <- (q_lv Q). auto.
    - split; auto. split; auto. intros x. rewrite <- (q_lvv Q). auto.
    - intros f. eapply keep_face_geq; [exact Q|]. apply ED.
    - intros x I. rewrite <- (q_tw Q x) by auto. rewrite <- (q_tw Q) by auto. apply ED; auto.
    - assert (X : forall x a b, leads g1 x a b -> leads g2 x a b).
      { intros x a b (A & B & C). unfold leads, target in *. rewrite <- (q_lv Q), <- (q_tw Q) by auto.
        rewrite <- !(q_og Q) by (auto; apply W; auto). auto. }
      assert (Y : forall l k, leads_through g1 l k -> leads_through g2 l k).
      { induction l as [|x l IH]; intros [|a [|b k]] H; cbn in *; auto. destruct H; auto. }
      apply Y. apply ED.
    - rewrite <- (ed_pay1 ED). apply map_ext_in. intros x I. symmetry. apply Q; auto.
    - rewrite MT, <- (ed_pay2 ED). apply map_ext_in. intros x I. symmetry. apply in_map_iff in I as (z & <- & I). apply Q; auto.
    - rewrite <- (ed_pay ED). apply map_ext_in. intros x I. symmetry. apply Q. apply LV2; auto.
    - intros x I. rewrite <- (q_tw Q) by auto. rewrite <- !(q_fc Q) by auto. apply ED; auto.
    - intros x Lx. pose proof (LG _ Lx). rewrite <- (q_tw Q), <- (q_fc Q), <- (q_ep Q), <- (q_og Q) by auto. apply ED; auto.
    - intros x Lx. assert (lvv g1 x = true) by (apply LV2; auto).
      rewrite <- (q_vp Q), <- (q_ve Q) by auto. apply ED; auto.
    - intros. eapply loop_geq; [exact Q|]. apply ED; auto.
    - intros. rewrite MT. eapply loop_geq; [exact Q|]. apply ED; auto.
    - intros. rewrite MT. eapply loop_geq; [exact Q|]. apply ED; auto.
    - intros. eapply loop_geq; [exact Q|]. apply ED; auto.
  Qed.

  (** *** the loop of the code *)
  Definition gstep (e : nat) (f1 f2 : option nat) (first : bool) (cur v e1 e2 : nat) (y : VP) (y1 y2 : EP) g : graph :=
    let g1 := gw_face e2 f2 (gw_face e1 f1
      (splice e1 e2 (og g (tw g cur)) v (Some (cur, tw g cur)) None y1 y2 (gw_vertex v None y g))) in
    if first then gw_vedge (og g e) (Some e1) g1 else g1.
  Definition gfin (e t cur curt v : nat) g : graph :=
    gw_origin e v (gw_next t curt (gw_prev curt t (gw_prev e cur (gw_next cur e g)))).

  Ltac sim := cbn -[Nat.eqb]; unfold fu, at_in, at_out, cin, cout, opt; cbn -[Nat.eqb].
  Ltac beq := repeat match goal with
    | |- context [?x =? ?y] => destruct (Nat.eqb_spec x y); try congruence
    end.

  (** What the loop needs in order not to panic. *)
  Record ready g (e t cur curt : nat) : Prop := {
    rd_e : lv g e = true; rd_t : lv g t = true; rd_o : lvv g (og g e) = true;
    rd_cur : lv g cur = true; rd_curt : lv g curt = true;
    rd_tc : lv g (tw g cur) = true; rd_nc : lv g (nx g cur) = true;
    rd_og : og g (nx g cur) = og g (tw g cur)
  }.

  Lemma ive_step_ok c m g e t f1 f2 first cur curt lastv y y1 y2 a b d :
    rep m [] [] [] g -> room c m (2 + a) (S b) d -> ready g e t cur curt ->
    exists m' v e1 e2, ive_step c e f1 f2 (m, cur, curt, lastv, first) (y1, y2, y) = Ok (m', e1, e2, v, false) /\
      lv g e1 = false /\ lv g e2 = false /\ e1 <> e2 /\ lvv g v = false /\
      rep m' [] [] [] (gstep e f1 f2 first cur v e1 e2 y y1 y2 g) /\ room c m' a b d.
  Proof.
    intros R RM RD. unfold ive_step. rewrite (r_twin_id R), (rd_cur RD). cbn [bind].
    destruct (f_add_vertex_via_edge y y1 y2 R RM (rd_cur RD) (rd_tc RD) (rd_nc RD) (rd_og RD)) as (m1 & v & e1 & e2 & E & RM1).
    rewrite E. cbn [bind].
    destruct (add_vertex_via_edge_ok R (or_intror (rd_cur RD)) E) as (_ & _ & _ & FV & F1 & F2 & N & R1).
    set (g1 := splice _ _ _ _ _ _ _ _ _) in R1.
    assert (L1 : lv g1 e1 = true) by (unfold g1; sim; beq; auto).
    assert (L2 : lv g1 e2 = true) by (unfold g1; sim; beq; auto).
    destruct (@f_set_face _ _ _ c m1 [] [] [] g1 e1 f1 a b d R1) as (m2 & -> & R2 & RM2); auto.
    { intros _. unfold g1. sim. beq. }
    cbn [bind].
    destruct (@f_set_face _ _ _ c m2 [] [] [] _ e2 f2 a b d R2) as (m3 & -> & R3 & RM3); auto.
    { intros _. unfold g1. sim. beq. }
    cbn [bind]. destruct first.
    - assert (LE : lv g e = true) by apply RD.
      assert (OE : og g1 e = og g e) by (unfold g1; sim; beq).
      rewrite (r_origin_id R3). cbn [gw_face lv og].
      assert (LE1 : lv g1 e = true) by (unfold g1; sim; beq; auto). rewrite LE1. cbn [bind].
      rewrite OE.
      destruct (@f_set_vedge _ _ _ c m3 [] [] [] _ (og g e) (Some e1) a b d R3) as (m4 & -> & R4 & RM4); auto.
      { unfold g1. sim. pose proof (rd_o RD). beq; auto. }
      cbn [bind]. exists m4, v, e1, e2. do 5 (split; [auto|]). split; auto.
    - cbn [bind]. exists m3, v, e1, e2. do 5 (split; [auto|]). split; auto.
  Qed.

  Lemma gstep_ready g e t f1 f2 first cur curt v e1 e2 y y1 y2 : ready g e t cur curt ->
    lv g e1 = false -> lv g e2 = false -> e1 <> e2 -> lvv g v = false ->
    ready (gstep e f1 f2 first cur v e1 e2 y y1 y2 g) e t e1 e2.
  Proof.
    intros RD F1 F2 N FV. destruct RD. unfold gstep.
    destruct first; split; sim; rewrite ?Nat.eqb_refl; beq; auto.
  Qed.

  Lemma gfin_ok c m g e t cur curt v a b d : rep m [] [] [] g -> room c m a b d -> ready g e t cur curt ->
    exists m', (let* m2 := set_next m cur e in
                let* m3 := set_prev m2 e cur in
                let* m4 := set_prev m3 curt t in
                let* m5 := set_next m4 t curt in
                let* m6 := set_origin m5 e v in Ok (m6, e)) = Ok (m', e) /\
      rep m' [] [] [] (gfin e t cur curt v g) /\ room c m' a b d.
  Proof.
    intros R RM RD. destruct RD.
    destruct (@f_set_next _ _ _ c m [] [] [] g cur e a b d R) as (m2 & -> & R2 & RM2); auto. cbn [bind].
    destruct (@f_set_prev _ _ _ c m2 [] [] [] _ e cur a b d R2) as (m3 & -> & R3 & RM3); auto. cbn [bind].
    destruct (@f_set_prev _ _ _ c m3 [] [] [] _ curt t a b d R3) as (m4 & -> & R4 & RM4); auto. cbn [bind].
    destruct (@f_set_next _ _ _ c m4 [] [] [] _ t curt a b d R4) as (m5 & -> & R5 & RM5); auto. cbn [bind].
    destruct (@f_set_origin _ _ _ c m5 [] [] [] _ e v a b d R5) as (m6 & -> & R6 & RM6); auto. cbn [bind].
    exists m6. auto.
  Qed.

  (** *** an origin with two edges *)
  Record dividing g0 g (e t cur curt lastv : nat) (f1 f2 : option nat) (first : bool) (es vs : list nat)
    (ps : list (EP * EP * VP)) : Prop := {
    dv_wf : WF (gfin e t cur curt lastv g);
    dv_div : edge_divided g0 (gfin e t cur curt lastv g) e es vs ps;
    dv_tw : tw g e = t /\ tw g cur = curt /\ cur <> t /\ curt <> e /\ t <> e;
    dv_og : og g curt = lastv /\ lvv g lastv = true;
    dv_fc : fc g e = f1 /\ fc g t = f2;
    dv_last : last vs (og g0 e) = lastv;
    dv_first : if first then og g e = lastv /\
                 forall x, lv g x = true -> og (gfin e t cur curt lastv g) x = lastv ->
                   reach (wheel (gfin e t cur curt lastv g)) e x
               else ve g lastv = Some curt
  }.

  Lemma gstep_sub1 g0 g e t cur curt lastv f1 f2 first es vs ps v e1 e2 y y1 y2 :
    ready g e t cur curt -> dividing g0 g e t cur curt lastv f1 f2 first es vs ps ->
    lv g e1 = false -> lv g e2 = false -> e1 <> e2 -> lvv g v = false ->
    sub1 (gfin e t cur curt lastv g)
      (gfin e t e1 e2 v (gstep e f1 f2 first cur v e1 e2 y y1 y2 g)) e v e1 e2 y y1 y2.
  Proof.
    intros RD DV F1 F2 N FV. destruct RD. destruct (dv_tw DV) as (T1 & T2 & T3 & T4 & T5).
    destruct (dv_og DV) as [O1 O2]. destruct (dv_fc DV) as [C1 C2]. pose proof (dv_first DV) as FI.
    assert (PE : pv (gfin e t cur curt lastv g) e = cur).
    { sim. beq. }
    assert (NT : nx (gfin e t cur curt lastv g) t = curt).
    { sim. beq. }
    assert (TE : tw (gfin e t cur curt lastv g) e = t) by auto.
    split.
    - auto.
    - intros x. destruct first; sim; destruct (Nat.eqb_spec x e2); destruct (Nat.eqb_spec x e1); intuition congruence.
    - intros x Lx. rewrite PE, TE. change (lv g x = true) in Lx. destruct first; sim; beq.
    - destruct first; sim; beq.
    - rewrite TE, NT. destruct first; sim; beq.
    - intros x Lx. rewrite TE, NT. change (lv g x = true) in Lx. destruct first; sim; beq.
    - rewrite PE. destruct first; sim; beq.
    - rewrite TE. destruct first; sim; beq.
    - intros x Lx. change (lv g x = true) in Lx. destruct first; sim; beq.
    - destruct first; sim; beq.
    - destruct first; sim; beq.
    - intros x Lx. change (lv g x = true) in Lx. destruct first; sim; beq.
    - destruct first; sim; beq.
    - destruct first; sim; beq.
    - intros x Lx. change (lv g x = true) in Lx. destruct first; sim; beq.
    - destruct first; sim; beq.
    - rewrite TE. destruct first; sim; beq.
    - intros x Lx. change (lv g x = true) in Lx. destruct first; sim; beq.
    - destruct first; sim; beq.
    - destruct first; sim; beq.
    - intros x. destruct first; sim; destruct (Nat.eqb_spec x v); intuition congruence.
    - intros x Lx. change (lvv g x = true) in Lx. destruct first; sim; beq.
    - destruct first; sim; beq.
    - assert (OE : og (gfin e t cur curt lastv g) e = lastv) by (sim; beq).
      rewrite OE. intros x Lx NX. change (lvv g x = true) in Lx. destruct first; [destruct FI|]; sim; rewrite ?andb_false_r, ?andb_true_r; beq.
    - destruct first; [destruct FI|]; sim; rewrite ?andb_false_r, ?andb_true_r; beq.
    - assert (OE : og (gfin e t cur curt lastv g) e = lastv) by (sim; beq).
      rewrite OE. destruct first.
      + left. destruct FI as [F3 F4]. split; auto. sim. rewrite ?andb_false_r, ?andb_true_r. beq.
      + right. split; sim; rewrite ?andb_false_r, ?andb_true_r; beq. rewrite FI. congruence.
    - intros f. split; destruct first; sim; auto.
  Qed.

  Lemma dividing_step g0 g e t cur curt lastv f1 f2 first es vs ps v e1 e2 y y1 y2 :
    WF g0 -> lv g0 e = true ->
    ready g e t cur curt -> dividing g0 g e t cur curt lastv f1 f2 first es vs ps ->
    lv g e1 = false -> lv g e2 = false -> e1 <> e2 -> lvv g v = false ->
    dividing g0 (gstep e f1 f2 first cur v e1 e2 y y1 y2 g) e t e1 e2 v f1 f2 false
      (es ++ [e1]) (vs ++ [v]) (ps ++ [(y1, y2, y)]).
  Proof.
    intros W0 L0 RD DV F1 F2 N FV. pose proof (gstep_sub1 y y1 y2 RD DV F1 F2 N FV) as S1.
    destruct (dv_tw DV) as (T1 & T2 & T3 & T4 & T5). destruct (dv_og DV) as [O1 O2].
    destruct (dv_fc DV) as [C1 C2].
    assert (PE : pv (gfin e t cur curt lastv g) e = cur) by (sim; beq).
    assert (TE : tw (gfin e t cur curt lastv g) e = t) by auto.
    assert (LE : lv (gfin e t cur curt lastv g) e = true) by apply RD.
    assert (NE : pv (gfin e t cur curt lastv g) e <> tw (gfin e t cur curt lastv g) e) by congruence.
    destruct RD. split.
    - eapply sub1_WF; [apply DV|exact LE|exact NE|exact S1].
    - eapply divided_step; [exact W0|apply DV|exact L0|apply DV|exact NE| |exact S1].
      transitivity lastv; [sim; beq|]. symmetry. apply DV.
    - repeat split; try (destruct first; sim; beq; fail); congruence.
    - split; destruct first; sim; beq.
    - split; destruct first; sim; beq.
    - apply last_last.
    - pose proof (dv_first DV) as FI. destruct first; [destruct FI|]; sim; rewrite ?andb_false_r, ?andb_true_r; beq.
  Qed.

  (** *** any other origin *)
  Record broken g0 g (e t cur curt : nat) : Prop := {
    bk_old : forall x, lv g0 x = true -> lv g x = true /\ (x <> tw g0 (pv g0 e) -> pv g x = pv g0 x);
    bk_new : lv g0 cur = false /\ lv g0 curt = false;
    bk_h : exists h, lv g0 h = false /\ lv g h = true /\ h <> cur /\ nx g h = tw g0 (pv g0 e)
  }.

  Lemma broken_start g e t f1 f2 curt v e1 e2 y y1 y2 : WF g -> lv g e = true ->
    ready g e t (pv g e) curt -> lv g e1 = false -> lv g e2 = false -> e1 <> e2 -> lvv g v = false ->
    broken g (gstep e f1 f2 true (pv g e) v e1 e2 y y1 y2 g) e t e1 e2.
  Proof.
    intros W L RD F1 F2 N FV. destruct RD. split; auto.
    - intros x Lx. split; sim; beq; auto.
    - exists e2. split; auto. split; [sim; beq; auto|]. split; auto. sim. beq.
  Qed.
  Lemma broken_step g0 g e t f1 f2 cur curt v e1 e2 y y1 y2 : WF g0 -> lv g0 e = true ->
    ready g e t cur curt -> broken g0 g e t cur curt -> tw g cur = curt ->
    lv g e1 = false -> lv g e2 = false -> e1 <> e2 -> lvv g v = false ->
    broken g0 (gstep e f1 f2 false cur v e1 e2 y y1 y2 g) e t e1 e2.
  Proof.
    intros W L RD BK TC F1 F2 N FV. destruct RD. destruct (bk_new BK) as [B1 B2].
    assert (OL : forall x, lv g x = false -> lv g0 x = false).
    { intros x Lx. destruct (lv g0 x) eqn:Q; auto. apply (bk_old BK) in Q as [Q _]. congruence. }
    split; auto.
    - intros x Lx. destruct (bk_old BK Lx) as [A B]. split; sim; beq; auto.
    - destruct (bk_h BK) as (h & H1 & H2 & H3 & H4). exists h. split; auto.
      split; [sim; beq; auto|]. split; [congruence|]. sim. beq.
  Qed.

  Lemma broken_end g e t cur curt lastv gk : WF g -> lv g e = true -> t = tw g e ->
    broken g gk e t cur curt -> ~ (tw g (pv g e) = nx g t /\ pv g e <> t) ->
    ~ WF (gfin e t cur curt lastv gk).
  Proof.
    intros W L -> BK NB WG. destruct (bk_new BK) as [B1 B2].
    pose proof (wf_tw W _ L) as LT. pose proof (wf_pv W _ L) as LP.
    destruct (Nat.eq_dec (pv g e) (tw g e)) as [E|N].
    - destruct (bk_h BK) as (h & H1 & H2 & H3 & H4). rewrite E, (wf_twtw W) in H4 by auto.
      assert (X : nx (gfin e (tw g e) cur curt lastv gk) h = e) by (sim; beq).
      assert (Y : pv (gfin e (tw g e) cur curt lastv gk) (nx (gfin e (tw g e) cur curt lastv gk) h) = h)
        by (apply (wf_pvnx WG); exact H2).
      rewrite X in Y. revert Y. sim. beq.
    - assert (Z : tw g (pv g e) <> nx g (tw g e)) by tauto.
      assert (ZE : nx g (tw g e) <> e).
      { intros X. apply N. rewrite <- X at 1. apply W; auto. }
      pose proof (wf_nx W _ LT) as LZ. destruct (bk_old BK LZ) as [A B].
      assert (X : pv (gfin e (tw g e) cur curt lastv gk) (nx g (tw g e)) = tw g e).
      { sim. beq. rewrite B by auto. apply W; auto. }
      assert (Y : nx (gfin e (tw g e) cur curt lastv gk) (pv (gfin e (tw g e) cur curt lastv gk) (nx g (tw g e))) = nx g (tw g e))
        by (apply (wf_nxpv WG); exact A).
      rewrite X in Y. revert Y. sim. beq.
  Qed.

  (** *** the whole loop *)
  Lemma ive_fold c e t f1 f2 ps0 (P : graph -> nat -> nat -> nat -> bool -> list nat -> list nat -> list (EP * EP * VP) -> Prop) :
    (forall g cur curt lastv first es vs ps v e1 e2 y y1 y2,
       ready g e t cur curt -> P g cur curt lastv first es vs ps ->
       lv g e1 = false -> lv g e2 = false -> e1 <> e2 -> lvv g v = false ->
       P (gstep e f1 f2 first cur v e1 e2 y y1 y2 g) e1 e2 v false (es ++ [e1]) (vs ++ [v]) (ps ++ [(y1, y2, y)])) ->
    forall m g cur curt lastv first es vs ps a b d,
      rep m [] [] [] g -> room c m (2 * length ps0 + a) (length ps0 + b) d -> ready g e t cur curt ->
      P g cur curt lastv first es vs ps ->
      exists m' g' cur' curt' lastv' es' vs',
        foldM (ive_step c e f1 f2) ps0 (m, cur, curt, lastv, first) =
          Ok (m', cur', curt', lastv', match ps0 with [] => first | _ => false end) /\
        rep m' [] [] [] g' /\ room c m' a b d /\ ready g' e t cur' curt' /\
        P g' cur' curt' lastv' (match ps0 with [] => first | _ => false end) es' vs' (ps ++ ps0).
  Proof.
    intros ST. induction ps0 as [|((y1, y2), y) ps0 IH]; intros m g cur curt lastv first es vs ps a b d R RM RD H.
    - cbn [foldM]. exists m, g, cur, curt, lastv, es, vs. rewrite app_nil_r. auto.
    - cbn [foldM length] in *.
      replace (2 * S (length ps0) + a) with (2 + (2 * length ps0 + a)) in RM by lia.
      destruct (@ive_step_ok c m g e t f1 f2 first cur curt lastv y y1 y2 _ _ _ R RM RD) as (m1 & v & e1 & e2 & -> & F1 & F2 & N & FV & R1 & RM1).
      cbn [bind]. pose proof (gstep_ready f1 f2 first y y1 y2 RD F1 F2 N FV) as RD1.
      pose proof (ST _ _ _ _ _ _ _ _ v e1 e2 y y1 y2 RD H F1 F2 N FV) as H1.
      destruct (IH m1 _ e1 e2 v false _ _ _ a b d R1 RM1 RD1 H1) as (m' & g' & cur' & curt' & lastv' & es' & vs' & E & A1 & A2 & A3 & A4).
      exists m', g', cur', curt', lastv', es', vs'. rewrite <- app_assoc in A4. cbn [app] in A4.
      destruct ps0; auto.
  Qed.

  Lemma start_ready g e : WF g -> lv g e = true -> ready g e (tw g e) (pv g e) (nx g (tw g e)).
  Proof.
    intros W L. pose proof (wf_pv W _ L). split; auto; try (apply W; auto; fail).
    - apply W, W; auto.
  Qed.
  Lemma gfin_start g e : WF g -> lv g e = true -> geq g (gfin e (tw g e) (pv g e) (nx g (tw g e)) (og g e) g).
  Proof.
    intros W L. pose proof (wf_tw W _ L) as LT. split; auto; intros x Lx; sim; beq; auto.
    - subst. apply W; auto.
    - subst. apply W; auto.
  Qed.

  Lemma two_edges_links m g e : rep m [] [] [] g -> WF g -> lv g e = true ->
    (two_edges g e <-> tw g (pv g e) = nx g (tw g e) /\ pv g e <> tw g e).
  Proof.
    intros R W L. pose proof (wf_pv W _ L) as LP. pose proof (wf_tw W _ L) as LT.
    assert (FULL : forall t, is_cycle (wheel g) (e :: t) -> forall y, lv g y = true -> og g y = og g e -> In y (e :: t)).
    { intros t C y Ly Oy. destruct (wf_wheel W _ Ly) as (e0 & V0 & R0). destruct (wf_wheel W _ L) as (e0' & V0' & R0').
      rewrite Oy in V0. rewrite V0 in V0'. injection V0' as <-.
      apply (cycle_reach y C). eapply reach_trans; [|exact R0].
      apply (@reach_sym (wheel g) (fun x => lv g x = true) (length (slots (edges m)))); auto.
      - intros x Lx. apply (wheel_live W Lx).
      - intros x Lx. apply (r_bound R _ Lx).
      - intros x y' Lx Ly'. apply (wheel_inj W Lx Ly').
      - destruct (wf_ve W _ (wf_og W _ L) V0). auto. }
    split.
    - intros (x & NX & Lx & Ox & AL).
      assert (C1 : nx g (tw g e) <> e).
      { intros X. assert (C : is_cycle (wheel g) [e]).
        { split; [constructor; [intros []|constructor]|]. split; [exact I|]. cbn. exact X. }
        destruct (FULL _ C x Lx Ox) as [->|[]]. congruence. }
      assert (C2 : nx g (tw g e) = x).
      { destruct (AL (nx g (tw g e))); try contradiction; auto. - apply W; auto.
        - rewrite (wf_ognx W) by auto. rewrite (wf_twtw W); auto. }
      assert (C3 : pv g e <> tw g e) by (intros X; apply C1; rewrite <- X; apply W; auto).
      split; auto. rewrite C2.
      destruct (AL (tw g (pv g e))) as [E|E]; auto.
      + apply W; auto.
      + rewrite <- (wf_ognx W) by auto. rewrite (wf_nxpv W); auto.
      + exfalso. apply C3. rewrite <- E at 2. symmetry. apply W; auto.
    - intros [E N]. exists (nx g (tw g e)).
      assert (C1 : nx g (tw g e) <> e) by (intros X; apply N; rewrite <- X at 1; apply W; auto).
      split; auto. split; [apply W; auto|]. split; [rewrite (wf_ognx W), (wf_twtw W); auto|].
      assert (C : is_cycle (wheel g) [e; nx g (tw g e)]).
      { split; [constructor; [intros [X|[]]; auto|constructor; [intros []|constructor]]|].
        split; [split; [reflexivity|exact I]|]. cbn [last]. unfold wheel at 1. rewrite <- E.
        rewrite (wf_twtw W) by auto. apply W; auto. }
      intros y Ly Oy. destruct (FULL _ C y Ly Oy) as [<-|[<-|[]]]; auto.
  Qed.

  Lemma wheel_all m g e : rep m [] [] [] g -> WF g -> lv g e = true ->
    forall x, lv g x = true -> og g x = og g e -> reach (wheel g) e x.
  Proof.
    intros R W L y Ly Oy. destruct (wf_wheel W _ Ly) as (e0 & V0 & R0). destruct (wf_wheel W _ L) as (e0' & V0' & R0').
    rewrite Oy in V0. rewrite V0 in V0'. injection V0' as <-. eapply reach_trans; [|exact R0].
    apply (@reach_sym (wheel g) (fun x => lv g x = true) (length (slots (edges m)))); auto.
    - intros x Lx. apply (wheel_live W Lx).
    - intros x Lx. apply (r_bound R _ Lx).
    - intros x y' Lx Ly'. apply (wheel_inj W Lx Ly').
    - destruct (wf_ve W _ (wf_og W _ L) V0). auto.
  Qed.

  Lemma ive_body c m e ps g : rep m [] [] [] g -> WF g -> lv g e = true ->
    insert_vertices_into_edge c m e ps =
      let* (m1, current, current_twin, last_v, _) :=
        foldM (ive_step c e (fc g e) (fc g (tw g e))) ps (m, pv g e, nx g (tw g e), og g e, true) in
      let* m2 := set_next m1 current e in
      let* m3 := set_prev m2 e current in
      let* m4 := set_prev m3 current_twin (tw g e) in
      let* m5 := set_next m4 (tw g e) current_twin in
      let* m6 := set_origin m5 e last_v in
      Ok (m6, e).
  Proof.
    intros R W L. unfold insert_vertices_into_edge.
    rewrite (r_twin_id R), L. cbn [bind]. rewrite (r_prev_id R), L. cbn [bind].
    rewrite (r_next_id R), (wf_tw W _ L). cbn [bind]. rewrite (r_face_id R), L. cbn [bind].
    rewrite (r_face_id R), (wf_tw W _ L). cbn [bind]. rewrite (r_origin_id R), L. reflexivity.
  Qed.

  (** src/halfedge/mesh/builder/builder.rs:119-152 *)
  Lemma insert_vertices_divides c m e ps a b d : wf m -> lv (abs m) e = true -> two_edges (abs m) e ->
    fits c m (2 * length ps + a) (length ps + b) d ->
    exists m' es vs, insert_vertices_into_edge c m e ps = Ok (m', e) /\ wf m' /\ fits c m' a b d /\
      edge_divided (abs m) (abs m') e es vs ps.
  Proof.
    intros Wm L T F. destruct (wf_abs Wm) as [R W]. apply fits_room in F; auto.
    apply (two_edges_links R W L) in T as [T1 T2].
    rewrite (ive_body c ps R W L).
    pose proof (start_ready W L) as RD. pose proof (gfin_start W L) as Q.
    set (t := tw (abs m) e) in *.
    assert (DV : dividing (abs m) (abs m) e t (pv (abs m) e) (nx (abs m) t) (og (abs m) e)
      (fc (abs m) e) (fc (abs m) t) true [] [] []).
    { pose proof (WF_geq Q W) as WG. split; auto.
      - apply divided_geq0; auto.
      - assert (NT : nx (abs m) t <> e).
        { intros X. apply T2. rewrite <- X at 1. apply (wf_pvnx W). apply W; auto. }
        repeat split; auto. apply (wf_twne W L).
      - split; [|apply (wf_og W); auto]. unfold t. rewrite (wf_ognx W) by (apply W; auto).
        rewrite (wf_twtw W); auto.
      - split; auto. intros x Lx Ox. assert (Ox' : og (abs m) x = og (abs m) e).
        { rewrite (q_og Q) by auto. auto. }
        pose proof (wheel_all R W L Lx Ox') as RE.
        eapply reach_ext with (P := fun x => lv (abs m) x = true); [| |exact L|exact RE].
        + intros z Lz. apply (wheel_live W Lz).
        + intros z Lz. unfold wheel. rewrite (q_tw Q) by auto. rewrite <- (q_nx Q); auto.
          rewrite <- (q_tw Q) by auto. apply W; auto. }
    destruct (@ive_fold c e t (fc (abs m) e) (fc (abs m) t) ps
      (fun g cur curt lastv first es vs ps => dividing (abs m) g e t cur curt lastv (fc (abs m) e) (fc (abs m) t) first es vs ps)
      (fun g cur curt lastv first es vs ps v e1 e2 y y1 y2 => @dividing_step (abs m) g e t cur curt lastv _ _ first es vs ps v e1 e2 y y1 y2 W L)
      m (abs m) (pv (abs m) e) (nx (abs m) t) (og (abs m) e) true [] [] [] a b d R F RD DV)
      as (m1 & g1 & cur & curt & lastv & es & vs & -> & R1 & RM1 & RD1 & DV1).
    cbn [bind]. destruct (gfin_ok lastv R1 RM1 RD1) as (m' & E & R2 & RM2).
    exists m', es, vs. rewrite E. pose proof (dv_wf DV1) as WG.
    destruct (rep_wf R2 WG) as [Wm' Q2]. split; auto. split; auto. split; [apply fits_room; auto|].
    eapply divided_geq; [exact WG|exact Q2|exact L|]. exact (dv_div DV1).
  Qed.

  Lemma insert_vertices_breaks c m e p ps a b d : wf m -> lv (abs m) e = true -> ~ two_edges (abs m) e ->
    fits c m (2 * length (p :: ps) + a) (length (p :: ps) + b) d ->
    exists m', insert_vertices_into_edge c m e (p :: ps) = Ok (m', e) /\ ~ wf m'.
  Proof.
    intros Wm L T F. destruct (wf_abs Wm) as [R W]. apply fits_room in F; auto.
    rewrite (two_edges_links R W L) in T. rewrite (ive_body c (p :: ps) R W L).
    pose proof (start_ready W L) as RD. set (t := tw (abs m) e) in *.
    destruct p as [[y1 y2] y]. cbn [foldM length] in *.
    replace (2 * S (length ps) + a) with (2 + (2 * length ps + a)) in F by lia.
    destruct (@ive_step_ok c m (abs m) e t (fc (abs m) e) (fc (abs m) t) true _ _ (og (abs m) e) y y1 y2 _ _ _ R F RD)
      as (m1 & v & e1 & e2 & -> & F1 & F2 & N & FV & R1 & RM1). cbn [bind].
    pose proof (gstep_ready (fc (abs m) e) (fc (abs m) t) true y y1 y2 RD F1 F2 N FV) as RD1.
    pose proof (broken_start (fc (abs m) e) (fc (abs m) t) y y1 y2 W L RD F1 F2 N FV) as BK.
    set (g1 := gstep _ _ _ _ _ _ _ _ _ _ _ _) in *.
    destruct (@ive_fold c e t (fc (abs m) e) (fc (abs m) t) ps
      (fun g cur curt lastv first es vs ps => first = false /\ tw g cur = curt /\ broken (abs m) g e t cur curt))
      with (m := m1) (g := g1) (cur := e1) (curt := e2) (lastv := v) (first := false)
           (es := @nil nat) (vs := @nil nat) (ps := @nil (EP * EP * VP)) (a := a) (b := b) (d := d)
      as (m2 & g2 & cur & curt & lastv & es & vs & E2 & R2 & RM2 & RD2 & _ & _ & BK2); auto.
    { intros g cur curt lastv first es vs ps' v' e1' e2' z z1 z2 RD' (-> & TC & BK') A1 A2 A3 A4.
      split; auto. split; [sim; beq|]. apply broken_step with (curt := curt); auto. }
    { split; auto. split; auto. unfold g1. sim. beq. }
    rewrite E2. cbn [bind]. destruct (gfin_ok lastv R2 RM2 RD2) as (m' & E & R3 & RM3).
    exists m'. rewrite E. split; auto. intros Wm'.
    destruct (wf_abs Wm') as [R' W']. apply (broken_end (lastv := lastv) W L eq_refl BK2 T).
    eapply WF_geq; [|exact W']. apply (rep_geq R' R3).
  Qed.
End Divide.
