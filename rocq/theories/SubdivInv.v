(** The shape of the mesh while it is being subdivided. *)
From Coq Require Import List Arith Lia Bool.
From Verif Require Import Base DVec DVecFacts Mesh Spec Rep Splice Cycle Traverse Room Ops Ops2 Subdivision SubdivSpec SubdivStep SubdivFace.
Import ListNotations.
Set Implicit Arguments.
Unset Strict Implicit.

(** the half-edges that belong to an original half-edge [e]: itself, its second half, the side of the
    corner triangle opposite to its origin, and the twin of that *)
Inductive tag := tO | tS | tC | tD.
Definition tag_eqb (a b : tag) : bool :=
  match a, b with tO, tO | tS, tS | tC, tC | tD, tD => true | _, _ => false end.
Lemma tag_eqb_eq a b : tag_eqb a b = true -> a = b.
Proof. destruct a, b; auto; discriminate. Qed.

(** What has been done: split half-edges and cut faces; the ids of the second halves, of the new
    pairs, of the vertices on half-edges, of the corner faces and of the central faces. *)
Record st := mkSt { sp : nat -> bool; pr : nat -> bool; sn : nat -> nat; cn : nat -> nat; dn : nat -> nat;
  mu : nat -> nat; ka : nat -> nat; ze : nat -> nat }.

Section Inv.
  Context {VP EP FP : Type}.
  Notation mesh := (mesh VP EP FP).
  Notation graph := (graph VP EP FP).
  Implicit Types (g : graph) (m : mesh) (c : cfg) (q : st).
  Variable g0 : graph.
  Variable W : WF g0.
  Variable T : triangles g0.
  Variable phi : list (nat * VP) -> VP.

  Definition F0 (e : nat) : nat := match fc g0 e with Some f => f | None => 0 end.

  Lemma F0_some e : lv g0 e = true -> fc g0 e = Some (F0 e).
  Proof. intros L. unfold F0. pose proof (tm_closed T L). destruct (fc g0 e); congruence. Qed.
  Lemma F0_live e : lv g0 e = true -> lvf g0 (F0 e) = true.
  Proof. intros L. apply (wf_fc W _ L (F0_some L)). Qed.
  Lemma F0_nx e : lv g0 e = true -> F0 (nx g0 e) = F0 e.
  Proof. intros L. unfold F0. rewrite (wf_fcnx W); auto. Qed.
  Lemma F0_pv e : lv g0 e = true -> F0 (pv g0 e) = F0 e.
  Proof. intros L. rewrite <- (wf_nxpv W _ L) at 2. symmetry. apply F0_nx. apply W; auto. Qed.
  Lemma pv_nn e : lv g0 e = true -> pv g0 e = nx g0 (nx g0 e).
  Proof.
    intros L. destruct (tm_three T L) as [E _]. rewrite <- E at 1. apply (wf_pvnx W). apply W, W; auto.
  Qed.
  Lemma pp_nx e : lv g0 e = true -> pv g0 (pv g0 e) = nx g0 e.
  Proof. intros L. rewrite (pv_nn L). apply (wf_pvnx W). apply W; auto. Qed.
  Lemma nn_pv e : lv g0 e = true -> nx g0 (nx g0 e) = pv g0 e.
  Proof. intros L. symmetry. apply pv_nn; auto. Qed.
  Lemma nx_ne e : lv g0 e = true -> nx g0 e <> e.
  Proof. intros L. apply (tm_three T L). Qed.
  Lemma pv_ne e : lv g0 e = true -> pv g0 e <> e.
  Proof. intros L E. apply (nx_ne L). rewrite <- E at 1. apply (wf_nxpv W _ L). Qed.
  Lemma nx_pv e : lv g0 e = true -> nx g0 e <> pv g0 e.
  Proof.
    intros L E. apply (@nx_ne (nx g0 e)); [apply W; auto|]. rewrite (nn_pv L). auto.
  Qed.
  Lemma same_face x y : lv g0 x = true -> lv g0 y = true -> F0 x = F0 y -> y = x \/ y = nx g0 x \/ y = pv g0 x.
  Proof.
    assert (K : forall z, lv g0 z = true -> reach (nx g0) (fe g0 (F0 z)) z) by (intros; apply (wf_fc W); auto using F0_some).
    assert (Q : forall a b, lv g0 a = true -> reach (nx g0) a b -> b = a \/ b = nx g0 a \/ b = pv g0 a).
    { intros a b L H. induction H as [|b H IH]; auto. destruct IH as [-> | [-> | ->]]; auto.
      - right; right. apply nn_pv; auto. - left. apply (wf_nxpv W); auto. }
    intros Lx Ly E. assert (LF : lv g0 (fe g0 (F0 x)) = true) by (apply (wf_fe W), F0_live; auto).
    pose proof (Q _ _ LF (K x Lx)) as A. rewrite E in LF, A. pose proof (Q _ _ LF (K y Ly)) as B.
    set (z := fe g0 (F0 y)) in *. clearbody z.
    assert (nx g0 (nx g0 z) = pv g0 z) by (apply nn_pv; auto). assert (pv g0 (pv g0 z) = nx g0 z) by (apply pp_nx; auto).
    assert (nx g0 (pv g0 z) = z) by (apply (wf_nxpv W); auto). assert (pv g0 (nx g0 z) = z) by (apply (wf_pvnx W); auto).
    destruct A as [-> | [-> | ->]], B as [-> | [-> | ->]]; auto; intuition congruence.
  Qed.
  Lemma twin_face e : lv g0 e = true -> F0 (tw g0 e) <> F0 e.
  Proof.
    intros L E. assert (LT : lv g0 (tw g0 e) = true) by (apply W; auto).
    assert (K : forall x, lv g0 x = true -> tw g0 x = nx g0 x -> False).
    { intros x Lx Q. assert (LN : lv g0 (nx g0 x) = true) by (apply W; auto).
      assert (LP : lv g0 (pv g0 x) = true) by (apply W; auto).
      apply (tm_apart T LP). rewrite <- (wf_ognx W _ LP), (wf_nxpv W _ Lx).
      rewrite <- (nn_pv Lx), (wf_ognx W _ LN), <- Q, (wf_twtw W _ Lx). reflexivity. }
    destruct (same_face L LT (eq_sym E)) as [H | [H | H]].
    - exact (wf_twne W L H).
    - apply (K e); auto.
    - apply (K (tw g0 e)); auto. rewrite (wf_twtw W _ L), H, (wf_nxpv W _ L). auto.
  Qed.
  Lemma live_n e : lv g0 e = true -> lv g0 (nx g0 e) = true. Proof. apply W. Qed.
  Lemma live_p e : lv g0 e = true -> lv g0 (pv g0 e) = true. Proof. apply W. Qed.
  Lemma live_t e : lv g0 e = true -> lv g0 (tw g0 e) = true. Proof. apply W. Qed.

  Definition pre q (e : nat) : bool := pr q (F0 e).
  Definition nm q (t : tag) (e : nat) : nat :=
    match t with tO => e | tS => sn q e | tC => cn q e | tD => dn q e end.
  Definition dom q (t : tag) (e : nat) : bool :=
    lv g0 e && match t with tO => true | tS => sp q e | _ => pre q e end.

  Definition NX q t e := match t with
    | tO => if pre q e then cn q e else if sp q e then sn q e else nx g0 e
    | tS => nx g0 e | tC => sn q (pv g0 e) | tD => dn q (nx g0 e) end.
  Definition PV q t e := match t with
    | tO => if sp q (pv g0 e) then sn q (pv g0 e) else pv g0 e
    | tS => if pre q e then cn q (nx g0 e) else e | tC => e | tD => dn q (pv g0 e) end.
  Definition TW q t e := match t with
    | tO => if sp q e && sp q (tw g0 e) then sn q (tw g0 e) else tw g0 e
    | tS => tw g0 e | tC => dn q e | tD => cn q e end.
  Definition OG q t e := match t with
    | tO => og g0 e | tS | tC => mu q e | tD => mu q (pv g0 e) end.
  Definition FC q t e := match t with
    | tO => if pre q e then ka q e else F0 e
    | tS => if pre q e then ka q (nx g0 e) else F0 e
    | tC => ka q e | tD => ze q (F0 e) end.

  Record Inv q g : Prop := {
    i_inj : forall t e t' e', dom q t e = true -> dom q t' e' = true -> nm q t e = nm q t' e' -> t = t' /\ e = e';
    i_lv : forall j, lv g j = true <-> exists t e, dom q t e = true /\ j = nm q t e;
    i_pre : forall e, lv g0 e = true -> pre q e = true -> sp q e = true;
    i_nx : forall t e, dom q t e = true -> nx g (nm q t e) = NX q t e;
    i_pv : forall t e, dom q t e = true -> pv g (nm q t e) = PV q t e;
    i_tw : forall t e, dom q t e = true -> tw g (nm q t e) = TW q t e;
    i_og : forall t e, dom q t e = true -> og g (nm q t e) = OG q t e;
    i_fc : forall t e, dom q t e = true -> fc g (nm q t e) = Some (FC q t e);
    (* vertices *)
    i_mu1 : forall e, lv g0 e = true -> sp q e = true -> lvv g0 (mu q e) = false;
    i_mu2 : forall e e', lv g0 e = true -> lv g0 e' = true -> sp q e = true -> sp q e' = true ->
      mu q e = mu q e' -> e' = e \/ e' = tw g0 e;
    i_mu3 : forall e, lv g0 e = true -> sp q e = true -> sp q (tw g0 e) = true -> mu q (tw g0 e) = mu q e;
    i_lvv : forall v, lvv g v = true <-> lvv g0 v = true \/ exists e, lv g0 e = true /\ sp q e = true /\ v = mu q e;
    i_old : forall v, lvv g0 v = true -> ve g v = ve g0 v /\ vp g v = vp g0 v;
    i_new : forall e, lv g0 e = true -> sp q e = true -> exists e', (e' = e \/ e' = tw g0 e) /\ sp q e' = true /\
      ve g (mu q e) = Some (sn q e') /\ vp g (mu q e) = mid_payload phi g0 e';
    (* faces *)
    i_lvf : forall f, lvf g f = true <-> (lvf g0 f = true /\ pr q f = false) \/
      (exists e, lv g0 e = true /\ pre q e = true /\ f = ka q e) \/ (exists f', lvf g0 f' = true /\ pr q f' = true /\ f = ze q f');
    i_fold : forall f, lvf g0 f = true -> pr q f = false -> fe g f = fe g0 f /\ fp g f = fp g0 f;
    i_fk : forall e, lv g0 e = true -> pre q e = true -> fe g (ka q e) = e /\
      exists cu y, fp g0 (F0 e) = Some (cu, y) /\ fp g (ka q e) = Some (false, y);
    i_fz : forall f, lvf g0 f = true -> pr q f = true ->
      (exists e, lv g0 e = true /\ F0 e = f /\ fe g (ze q f) = dn q e) /\
      exists cu y, fp g0 f = Some (cu, y) /\ fp g (ze q f) = Some (false, y);
    i_kk : forall e e', lv g0 e = true -> lv g0 e' = true -> pre q e = true -> pre q e' = true -> ka q e = ka q e' -> e = e';
    i_zz : forall f f', lvf g0 f = true -> lvf g0 f' = true -> pr q f = true -> pr q f' = true -> ze q f = ze q f' -> f = f';
    i_kz : forall e f, lv g0 e = true -> lvf g0 f = true -> pre q e = true -> pr q f = true -> ka q e <> ze q f;
    i_ko : forall e, lv g0 e = true -> pre q e = true -> lvf g0 (ka q e) = true -> pr q (ka q e) = true;
    i_zo : forall f, lvf g0 f = true -> pr q f = true -> lvf g0 (ze q f) = true -> pr q (ze q f) = true }.

  Definition q0 : st := mkSt (fun _ => false) (fun _ => false) (fun _ => 0) (fun _ => 0) (fun _ => 0) (fun _ => 0) (fun _ => 0) (fun _ => 0).
  Lemma inv_start : Inv q0 g0.
  Proof.
    split; unfold dom, pre, q0; cbn; try discriminate; auto.
    - intros [] e [] e'; rewrite ?andb_false_r, ?andb_true_r; try discriminate; auto.
    - intros j. split; [intros L; exists tO, j; rewrite L; auto|].
      intros ([] & e & H & ->); rewrite ?andb_false_r, ?andb_true_r in H; auto; discriminate.
    - intros [] e; rewrite ?andb_false_r; try discriminate; auto.
    - intros [] e; rewrite ?andb_false_r; try discriminate; auto.
    - intros [] e; rewrite ?andb_false_r; try discriminate; auto.
    - intros [] e; rewrite ?andb_false_r; try discriminate; auto.
    - intros [] e; rewrite ?andb_false_r, ?andb_true_r; try discriminate; auto. cbn. apply F0_some.
    - intros v. split; auto. intros [H | (? & _ & [=] & _)]; auto.
    - intros f. split; auto. intros [[H _] | [(? & _ & [=] & _) | (? & _ & [=] & _)]]; auto.
  Qed.

  Section At.
    Variables (q : st) (g : graph).
    Hypothesis I : Inv q g.

    Lemma dom_live t e : dom q t e = true -> lv g (nm q t e) = true.
    Proof. intros D. apply (i_lv I). eauto. Qed.
    Lemma dom_lv0 t e : dom q t e = true -> lv g0 e = true.
    Proof. unfold dom. intros H. apply andb_prop in H. tauto. Qed.
    Lemma dO e : lv g0 e = true -> dom q tO e = true.
    Proof. unfold dom. intros ->. auto. Qed.
    Lemma dS e : lv g0 e = true -> sp q e = true -> dom q tS e = true.
    Proof. unfold dom. intros -> ->. auto. Qed.
    Lemma dC e : lv g0 e = true -> pre q e = true -> dom q tC e = true.
    Proof. unfold dom. intros -> ->. auto. Qed.
    Lemma dD e : lv g0 e = true -> pre q e = true -> dom q tD e = true.
    Proof. unfold dom. intros -> ->. auto. Qed.
    Lemma nm_eqb t e t' e' : dom q t e = true -> dom q t' e' = true ->
      (nm q t e =? nm q t' e') = tag_eqb t t' && (e =? e').
    Proof.
      intros A B. destruct (Nat.eqb_spec (nm q t e) (nm q t' e')) as [E|E].
      - apply (i_inj I) in E as [-> ->]; auto. rewrite Nat.eqb_refl. destruct t'; reflexivity.
      - destruct (tag_eqb t t') eqn:Q; auto. apply tag_eqb_eq in Q as ->. destruct (Nat.eqb_spec e e'); subst; auto; tauto.
    Qed.
    Lemma pre_nx e : lv g0 e = true -> pre q (nx g0 e) = pre q e.
    Proof. intros. unfold pre. rewrite F0_nx; auto. Qed.
    Lemma pre_pv e : lv g0 e = true -> pre q (pv g0 e) = pre q e.
    Proof. intros. unfold pre. rewrite F0_pv; auto. Qed.
    Lemma nsp_npre e : lv g0 e = true -> sp q e = false -> pre q e = false.
    Proof. intros L H. destruct (pre q e) eqn:E; auto. rewrite (i_pre I) in H; auto. Qed.
  End At.

  (** *** splitting a half-edge *)
  Definition q_split q e n v : st := mkSt (fu (sp q) e true) (pr q) (fu (sn q) e n) (cn q) (dn q) (fu (mu q) e v) (ka q) (ze q).

  Lemma dom_split q e n v t e1 : lv g0 e = true -> sp q e = false ->
    (dom (q_split q e n v) t e1 = true <-> dom q t e1 = true \/ (t = tS /\ e1 = e)).
  Proof.
    intros L S. unfold dom, pre, q_split. cbn -[Nat.eqb]. unfold fu. destruct t; split; intros H; auto.
    all: try (destruct H as [H | [? ?]]; [exact H | discriminate]).
    - destruct (Nat.eqb_spec e1 e); auto.
    - destruct H as [H | [_ ->]]; [|rewrite Nat.eqb_refl, L; auto]. destruct (Nat.eqb_spec e1 e); auto. subst. rewrite S, andb_false_r in H. discriminate.
  Qed.
  Lemma nm_split q e n v t e1 : sp q e = false -> dom q t e1 = true -> nm (q_split q e n v) t e1 = nm q t e1.
  Proof.
    intros S D. destruct t; cbn -[Nat.eqb]; auto. unfold fu. destruct (Nat.eqb_spec e1 e); auto. subst.
    unfold dom in D. rewrite S, andb_false_r in D. discriminate.
  Qed.

  Section Split.
    Variables (q : st) (g : graph) (e : nat).
    Hypothesis I : Inv q g.
    Hypothesis L : lv g0 e = true.
    Hypothesis NS : sp q e = false.
    Let q' n v := q_split q e n v.

    Lemma split_pre e1 : lv g0 e1 = true -> pre q e1 = true -> e1 <> e /\ pv g0 e1 <> e /\ nx g0 e1 <> e.
    Proof.
      intros L1 P. pose proof (nsp_npre I L NS) as Q. split; [|split]; intros E; subst e; try congruence.
      - rewrite pre_pv in Q; auto. congruence.
      - rewrite pre_nx in Q; auto. congruence.
    Qed.
    Lemma split_inj n v : lv g n = false -> forall t a t' b, dom (q' n v) t a = true -> dom (q' n v) t' b = true ->
      nm (q' n v) t a = nm (q' n v) t' b -> t = t' /\ a = b.
    Proof.
      intros DN t a t' b A B. apply dom_split in A; auto. apply dom_split in B; auto.
      assert (X : nm (q' n v) tS e = n) by (cbn -[Nat.eqb]; unfold fu; rewrite Nat.eqb_refl; auto).
      destruct A as [A | [-> ->]], B as [B | [-> ->]]; rewrite ?X; unfold q' in *; rewrite ?nm_split by auto; auto.
      - apply I; auto.
      - intros E. pose proof (dom_live I A). congruence.
      - intros E. pose proof (dom_live I B). congruence.
    Qed.
    Lemma split_lv n v j : fu (lv g) n true j = true <-> exists t a, dom (q' n v) t a = true /\ j = nm (q' n v) t a.
    Proof.
      unfold fu. assert (X : nm (q' n v) tS e = n) by (cbn -[Nat.eqb]; unfold fu; rewrite Nat.eqb_refl; auto).
      destruct (Nat.eqb_spec j n) as [->|N].
      - split; auto. intros _. exists tS, e. split; auto. apply dom_split; auto.
      - rewrite (i_lv I). split; intros (t & a & D & ->).
        + exists t, a. split; [apply dom_split; auto|]. unfold q'. rewrite nm_split; auto.
        + apply dom_split in D; auto. destruct D as [D | [-> ->]]; [|rewrite X in N; tauto].
          exists t, a. split; auto. unfold q'. rewrite nm_split; auto.
    Qed.
    Lemma eqb_nxpv e1 : lv g0 e1 = true -> (e1 =? nx g0 e) = (pv g0 e1 =? e).
    Proof.
      intros L1. destruct (Nat.eqb_spec e1 (nx g0 e)) as [->|N].
      - rewrite (wf_pvnx W _ L), Nat.eqb_refl. auto.
      - destruct (Nat.eqb_spec (pv g0 e1) e) as [<-|]; auto. rewrite (wf_nxpv W _ L1) in N. tauto.
    Qed.
    Lemma eqb_tw e1 : lv g0 e1 = true -> (e1 =? tw g0 e) = (tw g0 e1 =? e).
    Proof.
      intros L1. destruct (Nat.eqb_spec e1 (tw g0 e)) as [->|N].
      - rewrite (wf_twtw W _ L), Nat.eqb_refl. auto.
      - destruct (Nat.eqb_spec (tw g0 e1) e) as [<-|]; auto. rewrite (wf_twtw W _ L1) in N. tauto.
    Qed.

    Ltac old n t e1 D := let X := fresh in assert (X : (nm q t e1 =? n) = false)
       by (apply Nat.eqb_neq; intros ?E; pose proof (dom_live I D); congruence); rewrite X.

    (** next and prev are the same for both ways of splitting *)
    Lemma split_nx n v t e1 : lv g n = false -> dom (q' n v) t e1 = true ->
      (if nm (q' n v) t e1 =? n then nx g e else if nm (q' n v) t e1 =? e then n else nx g (nm (q' n v) t e1)) = NX (q' n v) t e1.
    Proof.
      intros DN D. apply dom_split in D; auto. pose proof (nsp_npre I L NS) as NP.
      pose proof (@i_nx _ _ I tO e (dO q L)) as NE. cbn -[Nat.eqb pre] in NE. rewrite NP, NS in NE.
      destruct D as [D | [-> ->]].
      - pose proof (dom_lv0 D) as L1. unfold q'. rewrite nm_split; auto. old n t e1 D.
        change e with (nm q tO e) at 1. rewrite (nm_eqb I D (dO q L)), (i_nx I D).
        destruct t; cbn -[Nat.eqb pre]; unfold pre; cbn -[Nat.eqb]; unfold fu; auto.
        + destruct (Nat.eqb_spec e1 e); auto. subst. unfold pre in NP. rewrite NP. auto.
        + destruct (Nat.eqb_spec (pv g0 e1) e); auto. exfalso.
          unfold dom in D. apply andb_prop in D as [_ D]. destruct (split_pre L1 D) as (_ & A & _). auto.
      - cbn -[Nat.eqb]. unfold fu. rewrite !Nat.eqb_refl. exact NE.
    Qed.
    Lemma split_pv n v t e1 : lv g n = false -> dom (q' n v) t e1 = true ->
      (if nm (q' n v) t e1 =? n then e else if nm (q' n v) t e1 =? nx g e then n else pv g (nm (q' n v) t e1)) = PV (q' n v) t e1.
    Proof.
      intros DN D. apply dom_split in D; auto. pose proof (nsp_npre I L NS) as NP.
      pose proof (@i_nx _ _ I tO e (dO q L)) as NE. cbn -[Nat.eqb pre] in NE. rewrite NP, NS in NE. rewrite NE.
      destruct D as [D | [-> ->]].
      - pose proof (dom_lv0 D) as L1. unfold q'. rewrite nm_split; auto. old n t e1 D.
        change (nx g0 e) with (nm q tO (nx g0 e)) at 1. rewrite (nm_eqb I D (dO q (live_n L))), (i_pv I D).
        destruct t; cbn -[Nat.eqb pre]; unfold pre; cbn -[Nat.eqb]; unfold fu; auto.
        rewrite (eqb_nxpv L1). destruct (Nat.eqb_spec (pv g0 e1) e); auto.
      - cbn -[Nat.eqb pre]. unfold fu. rewrite !Nat.eqb_refl. change (pre (q' n v) e) with (pre q e). rewrite NP. auto.
    Qed.
    Lemma split_fc n v t e1 : lv g n = false -> dom (q' n v) t e1 = true ->
      fu (fc g) n (fc g e) (nm (q' n v) t e1) = Some (FC (q' n v) t e1).
    Proof.
      intros DN D. apply dom_split in D; auto. pose proof (nsp_npre I L NS) as NP. unfold fu.
      destruct D as [D | [-> ->]].
      - pose proof (dom_lv0 D) as L1. unfold q'. rewrite nm_split; auto. old n t e1 D. rewrite (i_fc I D). reflexivity.
      - cbn -[Nat.eqb pre]. unfold fu. rewrite !Nat.eqb_refl.
        pose proof (@i_fc _ _ I tO e (dO q L)) as X. cbn -[pre] in X. rewrite X.
        change (pre (q' n v) e) with (pre q e). rewrite NP. auto.
    Qed.
  End Split.

  Lemma inv_fresh q g e n v y dE : Inv q g -> lv g0 e = true -> sp q e = false -> sp q (tw g0 e) = false ->
    lv g n = false -> lvv g v = false -> mid_payload phi g0 e = Some y ->
    Inv (q_split q e n v) (split_graph e n v y dE g).
  Proof.
    intros I L NS NT DN DV MP. pose proof (live_t L) as LT. pose proof (wf_twne W L) as TNE.
    assert (MV : forall e1, lv g0 e1 = true -> sp q e1 = true -> mu q e1 <> v).
    { intros e1 L1 S1 <-. assert (lvv g (mu q e1) = true); [|congruence]. apply (i_lvv I). eauto. }
    assert (OV : forall u, lvv g0 u = true -> u <> v).
    { intros u Lu <-. assert (lvv g u = true); [|congruence]. apply (i_lvv I). auto. }
    split; cbn -[Nat.eqb].
    - apply split_inj with (1 := I); auto.
    - intros j. apply (split_lv I L NS).
    - intros a La P. unfold fu. destruct (Nat.eqb_spec a e); auto. apply I; auto.
    - intros. apply (split_nx I L NS); auto.
    - intros. apply (split_pv I L NS); auto.
    - intros t e1 D. apply dom_split in D; auto. unfold fu. destruct D as [D | [-> ->]].
      + pose proof (dom_lv0 D) as L1. rewrite nm_split; auto.
        destruct (Nat.eqb_spec (nm q t e1) n) as [E|_]; [pose proof (dom_live I D); congruence|]. rewrite (i_tw I D).
        destruct t; cbn -[Nat.eqb]; auto. unfold fu.
        destruct (Nat.eqb_spec e1 e) as [->|N1]; [rewrite NS; destruct (Nat.eqb_spec (tw g0 e) e); [tauto|]; rewrite NT; auto|].
        destruct (Nat.eqb_spec (tw g0 e1) e) as [Q|]; auto.
        assert (e1 = tw g0 e) by (rewrite <- Q; symmetry; apply (wf_twtw W); auto). subst e1. rewrite NT. auto.
      + cbn -[Nat.eqb]. unfold fu. rewrite !Nat.eqb_refl. pose proof (@i_tw _ _ I tO e (dO q L)) as X. cbn in X. rewrite X, NS. auto.
    - intros t e1 D. apply dom_split in D; auto. unfold fu. destruct D as [D | [-> ->]].
      + pose proof (dom_lv0 D) as L1. rewrite nm_split; auto.
        destruct (Nat.eqb_spec (nm q t e1) n) as [E|_]; [pose proof (dom_live I D); congruence|]. rewrite (i_og I D).
        unfold dom in D. apply andb_prop in D as [_ D].
        destruct t; cbn -[Nat.eqb]; auto; unfold fu.
        * destruct (Nat.eqb_spec e1 e); auto. congruence.
        * destruct (split_pre I L NS L1 D) as (A & _). rewrite (proj2 (Nat.eqb_neq _ _) A). auto.
        * destruct (split_pre I L NS L1 D) as (_ & A & _). rewrite (proj2 (Nat.eqb_neq _ _) A). auto.
      + cbn -[Nat.eqb]. unfold fu. rewrite !Nat.eqb_refl. auto.
    - intros. apply (split_fc I L NS); auto.
    - unfold fu. intros a La. destruct (Nat.eqb_spec a e); [|apply I; auto]. intros _.
      destruct (lvv g0 v) eqn:Q; auto. exfalso. apply (OV v); auto.
    - unfold fu. intros a b La Lb. destruct (Nat.eqb_spec a e), (Nat.eqb_spec b e); subst; auto.
      + intros _ Sb E. exfalso. apply (MV b); auto.
      + intros Sa _ E. exfalso. apply (MV a); auto.
      + apply I; auto.
    - unfold fu. intros a La. destruct (Nat.eqb_spec a e), (Nat.eqb_spec (tw g0 a) e); subst; auto.
      + intros _ ?. congruence.
      + intros Sa _. rewrite (wf_twtw W) in NT; auto. congruence.
      + apply I; auto.
    - intros u. unfold fu. destruct (Nat.eqb_spec u v) as [->|N].
      + split; auto. intros _. right. exists e. rewrite Nat.eqb_refl. auto.
      + rewrite (i_lvv I). apply or_iff_compat_l. split; intros (a & La & Sa & ->).
        * exists a. split; auto. destruct (Nat.eqb_spec a e); auto. congruence.
        * destruct (Nat.eqb_spec a e); [tauto|]. eauto.
    - intros u Lu. unfold fu. rewrite (proj2 (Nat.eqb_neq u v) (OV u Lu)). apply I; auto.
    - unfold fu. intros a La. destruct (Nat.eqb_spec a e).
      + subst. intros _. exists e. rewrite !Nat.eqb_refl. auto.
      + intros Sa. rewrite (proj2 (Nat.eqb_neq _ _) (MV a La Sa)). destruct (i_new I La Sa) as (b & B & Sb & V1 & V2).
        exists b. split; auto. destruct (Nat.eqb_spec b e); auto. congruence.
    - intros f. apply (i_lvf I).
    - intros f. apply (i_fold I).
    - intros a. apply (i_fk I).
    - intros f. apply (i_fz I).
    - intros a b. apply (i_kk I).
    - intros a b. apply (i_zz I).
    - intros a b. apply (i_kz I).
    - intros a. apply (i_ko I).
    - intros a. apply (i_zo I).
  Qed.

  Lemma inv_fixup q g e n dE : Inv q g -> lv g0 e = true -> sp q e = false -> sp q (tw g0 e) = true -> lv g n = false ->
    Inv (q_split q e n (mu q (tw g0 e))) (fixup_graph e n (tw g0 e) (sn q (tw g0 e)) dE g).
  Proof.
    intros I L NS NT DN. pose proof (live_t L) as LT. pose proof (wf_twne W L) as TNE. pose proof (wf_twtw W _ L) as TT.
    set (v := mu q (tw g0 e)).
    split; cbn -[Nat.eqb].
    - apply split_inj with (1 := I); auto.
    - intros j. apply (split_lv I L NS).
    - intros a La P. unfold fu. destruct (Nat.eqb_spec a e); auto. apply I; auto.
    - intros. apply (split_nx I L NS); auto.
    - intros. apply (split_pv I L NS); auto.
    - intros t e1 D. apply dom_split in D; auto. destruct D as [D | [-> ->]].
      + pose proof (dom_lv0 D) as L1. rewrite nm_split; auto.
        destruct (Nat.eqb_spec (nm q t e1) n) as [E|_]; [pose proof (dom_live I D); congruence|].
        change (nm q t e1 =? e) with (nm q t e1 =? nm q tO e). rewrite (nm_eqb I D (dO q L)).
        change (nm q t e1 =? tw g0 e) with (nm q t e1 =? nm q tO (tw g0 e)). rewrite (nm_eqb I D (dO q LT)). rewrite (i_tw I D).
        destruct t; cbn -[Nat.eqb]; auto. unfold fu.
        destruct (Nat.eqb_spec e1 e) as [->|N1].
        * rewrite (proj2 (Nat.eqb_neq _ _) TNE), NT. auto.
        * destruct (Nat.eqb_spec e1 (tw g0 e)) as [->|N2]; [rewrite TT, Nat.eqb_refl, NT; auto|].
          destruct (Nat.eqb_spec (tw g0 e1) e) as [Q|]; auto.
          exfalso. apply N2. rewrite <- Q. symmetry. apply (wf_twtw W); auto.
      + cbn -[Nat.eqb]. unfold fu. rewrite !Nat.eqb_refl. auto.
    - intros t e1 D. apply dom_split in D; auto. unfold fu. destruct D as [D | [-> ->]].
      + pose proof (dom_lv0 D) as L1. rewrite nm_split; auto.
        destruct (Nat.eqb_spec (nm q t e1) n) as [E|_]; [pose proof (dom_live I D); congruence|]. rewrite (i_og I D).
        unfold dom in D. apply andb_prop in D as [_ D].
        destruct t; cbn -[Nat.eqb]; auto; unfold fu.
        * destruct (Nat.eqb_spec e1 e); auto. congruence.
        * destruct (split_pre I L NS L1 D) as (A & _). rewrite (proj2 (Nat.eqb_neq _ _) A). auto.
        * destruct (split_pre I L NS L1 D) as (_ & A & _). rewrite (proj2 (Nat.eqb_neq _ _) A). auto.
      + cbn -[Nat.eqb]. unfold fu. rewrite !Nat.eqb_refl. apply (@i_og _ _ I tS (tw g0 e)). apply dS; auto.
    - intros. apply (split_fc I L NS); auto.
    - unfold fu. intros a La. destruct (Nat.eqb_spec a e); [|apply I; auto]. intros _. apply I; auto.
    - unfold fu. intros a b La Lb. destruct (Nat.eqb_spec a e), (Nat.eqb_spec b e); subst; auto.
      + intros _ Sb E. apply (i_mu2 I) in E; auto. rewrite TT in E. tauto.
      + intros Sa _ E. apply (i_mu2 I) in E; auto. destruct E as [E|E]; [|].
        * right. rewrite <- E, TT. auto.
        * left. rewrite <- TT, E. symmetry. symmetry. apply (wf_twtw W); auto.
      + apply I; auto.
    - unfold fu. intros a La. destruct (Nat.eqb_spec a e), (Nat.eqb_spec (tw g0 a) e); subst; auto.
      + intros. unfold v. rewrite (wf_twtw W); auto.
      + apply I; auto.
    - intros u. rewrite (i_lvv I). apply or_iff_compat_l. unfold fu. split.
      + intros (a & La & Sa & ->). exists a. split; auto. destruct (Nat.eqb_spec a e); auto. congruence.
      + intros (a & La & Sa & ->). destruct (Nat.eqb_spec a e); [|eauto]. exists (tw g0 e). auto.
    - intros u Lu. apply I; auto.
    - unfold fu. intros a La. destruct (Nat.eqb_spec a e).
      + subst. intros _. destruct (i_new I LT NT) as (b & B & Sb & V1 & V2).
        exists b. rewrite TT in B. split; [tauto|]. destruct (Nat.eqb_spec b e); [congruence|auto].
      + intros Sa. destruct (i_new I La Sa) as (b & B & Sb & V1 & V2).
        exists b. split; auto. destruct (Nat.eqb_spec b e); auto. congruence.
    - intros f. apply (i_lvf I).
    - intros f. apply (i_fold I).
    - intros a. apply (i_fk I).
    - intros f. apply (i_fz I).
    - intros a b. apply (i_kk I).
    - intros a b. apply (i_zz I).
    - intros a b. apply (i_kz I).
    - intros a. apply (i_ko I).
    - intros a. apply (i_zo I).
  Qed.
End Inv.
