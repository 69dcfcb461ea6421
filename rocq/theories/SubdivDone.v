(** The mesh after all faces have been cut. *)
From Coq Require Import List Arith Lia Bool Permutation.
From Verif Require Import Base DVec DVecFacts Mesh Spec Rep Splice Cycle Traverse Room Ops Ops2 Subdivision SubdivSpec SubdivStep SubdivFace SubdivInv SubdivCut SubdivLoop.
Import ListNotations.
Set Implicit Arguments.
Unset Strict Implicit.
Local Arguments abs : simpl never.

Section Done.
  Context {VP EP FP : Type}.
  Notation mesh := (mesh VP EP FP).
  Notation graph := (graph VP EP FP).
  Implicit Types (g : graph) (m : mesh) (c : cfg) (q : st).
  Variable g0 : graph.
  Variable W : WF g0.
  Variable T : triangles g0.
  Variable phi : list (nat * VP) -> VP.
  Notation Inv := (Inv g0 phi).
  Notation F0 := (F0 g0).
  Variables (q : st) (g : graph).
  Hypothesis I : Inv q g.
  Hypothesis PR : forall f, lvf g0 f = true -> pr q f = true.

  Lemma all_pre e : lv g0 e = true -> pre g0 q e = true.
  Proof. intros L. apply PR, (F0_live W T L). Qed.
  Lemma all_sp e : lv g0 e = true -> sp q e = true.
  Proof. intros L. apply (i_pre I L), all_pre; auto. Qed.
  Lemma all_dom t e : lv g0 e = true -> dom g0 q t e = true.
  Proof. intros L. unfold dom. rewrite L. destruct t; cbn -[pre]; auto using all_pre, all_sp. Qed.
  Lemma live_name j : lv g j = true <-> exists t e, lv g0 e = true /\ j = nm q t e.
  Proof.
    rewrite (i_lv I). split; intros (t & e & L & ->); exists t, e; split; auto; [apply (dom_lv0 L)|apply all_dom; auto].
  Qed.
  Notation N := (nm q).
  Lemma nm_live t e : lv g0 e = true -> lv g (N t e) = true.
  Proof. intros. apply live_name. eauto. Qed.
  Lemma nm_inj t e t' e' : lv g0 e = true -> lv g0 e' = true -> N t e = N t' e' -> t = t' /\ e = e'.
  Proof. intros. apply (i_inj I); auto using all_dom. Qed.

  Lemma nxO e : lv g0 e = true -> nx g (N tO e) = N tC e.
  Proof. intros L. rewrite (i_nx I (all_dom tO L)). cbn -[pre]. rewrite all_pre; auto. Qed.
  Lemma nxS e : lv g0 e = true -> nx g (N tS e) = N tO (nx g0 e).
  Proof. intros L. rewrite (i_nx I (all_dom tS L)). reflexivity. Qed.
  Lemma nxC e : lv g0 e = true -> nx g (N tC e) = N tS (pv g0 e).
  Proof. intros L. rewrite (i_nx I (all_dom tC L)). reflexivity. Qed.
  Lemma nxD e : lv g0 e = true -> nx g (N tD e) = N tD (nx g0 e).
  Proof. intros L. rewrite (i_nx I (all_dom tD L)). reflexivity. Qed.
  Lemma pvO e : lv g0 e = true -> pv g (N tO e) = N tS (pv g0 e).
  Proof. intros L. rewrite (i_pv I (all_dom tO L)). cbn -[pre]. rewrite all_sp; auto using live_p. Qed.
  Lemma pvS e : lv g0 e = true -> pv g (N tS e) = N tC (nx g0 e).
  Proof. intros L. rewrite (i_pv I (all_dom tS L)). cbn -[pre]. rewrite all_pre; auto. Qed.
  Lemma pvC e : lv g0 e = true -> pv g (N tC e) = N tO e.
  Proof. intros L. rewrite (i_pv I (all_dom tC L)). reflexivity. Qed.
  Lemma pvD e : lv g0 e = true -> pv g (N tD e) = N tD (pv g0 e).
  Proof. intros L. rewrite (i_pv I (all_dom tD L)). reflexivity. Qed.
  Lemma twO e : lv g0 e = true -> tw g (N tO e) = N tS (tw g0 e).
  Proof. intros L. rewrite (i_tw I (all_dom tO L)). cbn -[pre]. rewrite !all_sp; auto using live_t. Qed.
  Lemma twS e : lv g0 e = true -> tw g (N tS e) = N tO (tw g0 e).
  Proof. intros L. rewrite (i_tw I (all_dom tS L)). reflexivity. Qed.
  Lemma twC e : lv g0 e = true -> tw g (N tC e) = N tD e.
  Proof. intros L. rewrite (i_tw I (all_dom tC L)). reflexivity. Qed.
  Lemma twD e : lv g0 e = true -> tw g (N tD e) = N tC e.
  Proof. intros L. rewrite (i_tw I (all_dom tD L)). reflexivity. Qed.
  Lemma ogO e : lv g0 e = true -> og g (N tO e) = og g0 e.
  Proof. intros L. rewrite (i_og I (all_dom tO L)). reflexivity. Qed.
  Lemma ogS e : lv g0 e = true -> og g (N tS e) = mu q e.
  Proof. intros L. rewrite (i_og I (all_dom tS L)). reflexivity. Qed.
  Lemma ogC e : lv g0 e = true -> og g (N tC e) = mu q e.
  Proof. intros L. rewrite (i_og I (all_dom tC L)). reflexivity. Qed.
  Lemma ogD e : lv g0 e = true -> og g (N tD e) = mu q (pv g0 e).
  Proof. intros L. rewrite (i_og I (all_dom tD L)). reflexivity. Qed.
  Lemma fcO e : lv g0 e = true -> fc g (N tO e) = Some (ka q e).
  Proof. intros L. rewrite (i_fc I (all_dom tO L)). cbn -[pre]. rewrite all_pre; auto. Qed.
  Lemma fcS e : lv g0 e = true -> fc g (N tS e) = Some (ka q (nx g0 e)).
  Proof. intros L. rewrite (i_fc I (all_dom tS L)). cbn -[pre]. rewrite all_pre; auto. Qed.
  Lemma fcC e : lv g0 e = true -> fc g (N tC e) = Some (ka q e).
  Proof. intros L. rewrite (i_fc I (all_dom tC L)). reflexivity. Qed.
  Lemma fcD e : lv g0 e = true -> fc g (N tD e) = Some (ze q (F0 e)).
  Proof. intros L. rewrite (i_fc I (all_dom tD L)). reflexivity. Qed.
  Lemma mu_tw e : lv g0 e = true -> mu q (tw g0 e) = mu q e.
  Proof. intros L. apply (i_mu3 I); auto using all_sp, live_t. Qed.
  Lemma mu_live e : lv g0 e = true -> lvv g (mu q e) = true.
  Proof. intros L. apply (i_lvv I). right. eauto using all_sp. Qed.
  Lemma mu_fresh e : lv g0 e = true -> lvv g0 (mu q e) = false.
  Proof. intros L. apply (i_mu1 I); auto using all_sp. Qed.

  Ltac nms := repeat (first
    [ rewrite nxO by auto | rewrite nxS by auto | rewrite nxC by auto | rewrite nxD by auto
    | rewrite pvO by auto | rewrite pvS by auto | rewrite pvC by auto | rewrite pvD by auto
    | rewrite twO by auto | rewrite twS by auto | rewrite twC by auto | rewrite twD by auto
    | rewrite ogO by auto | rewrite ogS by auto | rewrite ogC by auto | rewrite ogD by auto
    | rewrite fcO by auto | rewrite fcS by auto | rewrite fcC by auto | rewrite fcD by auto
    | rewrite (wf_twtw W) by auto | rewrite (wf_nxpv W) by auto | rewrite (wf_pvnx W) by auto | rewrite mu_tw by auto ]).

  Lemma wheelO e : lv g0 e = true -> wheel g (N tO e) = N tO (wheel g0 e).
  Proof. intros L. pose proof (live_t W L). unfold wheel. nms. auto. Qed.
  Lemma wheelS e : lv g0 e = true -> wheel g (N tS e) = N tC (tw g0 e).
  Proof. intros L. pose proof (live_t W L). unfold wheel. nms. auto. Qed.
  Lemma wheelC e : lv g0 e = true -> wheel g (N tC e) = N tD (nx g0 e).
  Proof. intros L. unfold wheel. nms. auto. Qed.
  Lemma wheelD e : lv g0 e = true -> wheel g (N tD e) = N tS (pv g0 e).
  Proof. intros L. unfold wheel. nms. auto. Qed.

  Lemma reach_old e0 e : lv g0 e0 = true -> reach (wheel g0) e0 e -> lv g0 e = true /\ reach (wheel g) e0 e.
  Proof.
    intros L H. induction H as [|e H [Le IH]]; [split; auto; constructor|]. split; [apply (wheel_live W); auto|].
    pose proof (wheelO Le) as Q. cbn in Q. rewrite <- Q. constructor. auto.
  Qed.
  Lemma reach_new x : lv g0 x = true -> let r := reach (wheel g) (N tS x) in
    r (N tS x) /\ r (N tC (tw g0 x)) /\ r (N tD (nx g0 (tw g0 x))) /\ r (N tS (tw g0 x)) /\ r (N tC x) /\ r (N tD (nx g0 x)).
  Proof.
    intros L r. pose proof (live_t W L) as LT. pose proof (live_n W LT) as LNT.
    assert (R0 : r (N tS x)) by constructor.
    assert (R1 : r (N tC (tw g0 x))) by (rewrite <- wheelS by auto; constructor; auto).
    assert (R2 : r (N tD (nx g0 (tw g0 x)))) by (rewrite <- wheelC by auto; constructor; auto).
    assert (R3 : r (N tS (tw g0 x))).
    { replace (N tS (tw g0 x)) with (wheel g (N tD (nx g0 (tw g0 x)))); [constructor; auto|]. rewrite wheelD by auto. rewrite (wf_pvnx W); auto. }
    assert (R4 : r (N tC x)).
    { replace (N tC x) with (wheel g (N tS (tw g0 x))); [constructor; auto|]. rewrite wheelS by auto. rewrite (wf_twtw W); auto. }
    assert (R5 : r (N tD (nx g0 x))) by (rewrite <- wheelC by auto; constructor; auto).
    auto 10.
  Qed.
  Lemma wheel_mu x j : lv g0 x = true -> j = N tS x \/ j = N tC x \/ j = N tD (nx g0 x) ->
    exists e0, ve g (mu q x) = Some e0 /\ reach (wheel g) e0 j.
  Proof.
    intros L J. destruct (i_new I L (all_sp L)) as (x' & X & _ & E & _). pose proof (live_t W L) as LT.
    exists (N tS x'). split; auto. destruct X as [-> | ->].
    - destruct (reach_new L) as (A & B & C & D & E' & F). destruct J as [-> | [-> | ->]]; auto.
    - destruct (reach_new LT) as (A & B & C & D & E' & F). rewrite (wf_twtw W _ L) in *. destruct J as [-> | [-> | ->]]; auto.
  Qed.

  Lemma done_WF : WF g.
  Proof.
    split.
    - intros j Lj. apply live_name in Lj as (t & e & L & ->). pose proof (live_t W L). destruct t; nms; apply nm_live; auto.
    - intros j Lj. apply live_name in Lj as (t & e & L & ->). pose proof (live_t W L). destruct t; nms; auto.
    - intros j Lj. apply live_name in Lj as (t & e & L & ->). pose proof (live_t W L).
      destruct t; nms; intros E; apply nm_inj in E as [E _]; auto; discriminate.
    - intros j Lj. apply live_name in Lj as (t & e & L & ->). pose proof (live_n W L). pose proof (live_p W L). destruct t; nms; apply nm_live; auto.
    - intros j Lj. apply live_name in Lj as (t & e & L & ->). pose proof (live_n W L). pose proof (live_p W L). destruct t; nms; apply nm_live; auto.
    - intros j Lj. apply live_name in Lj as (t & e & L & ->). pose proof (live_n W L). pose proof (live_p W L). destruct t; nms; auto.
    - intros j Lj. apply live_name in Lj as (t & e & L & ->). pose proof (live_n W L). pose proof (live_p W L). destruct t; nms; auto.
    - intros j Lj. apply live_name in Lj as (t & e & L & ->). pose proof (live_n W L). pose proof (live_p W L). pose proof (live_t W L).
      destruct t; nms; auto. apply (wf_ognx W); auto.
    - intros j Lj. apply live_name in Lj as (t & e & L & ->). pose proof (live_n W L). pose proof (live_p W L).
      destruct t; nms; auto. rewrite (F0_nx W L). auto.
    - intros j Lj. apply live_name in Lj as (t & e & L & ->). pose proof (live_p W L).
      destruct t; nms; auto using mu_live. apply (i_lvv I). left. apply (wf_og W); auto.
    - intros j Lj. apply live_name in Lj as (t & e & L & ->). pose proof (live_p W L) as LP. destruct t; nms.
      + destruct (wf_wheel W _ L) as (e0 & V & H). pose proof (wf_og W _ L) as LV. exists e0. rewrite (proj1 (i_old I LV)). split; auto.
        destruct (wf_ve W _ LV V) as [L0 _]. apply (reach_old L0 H).
      + apply wheel_mu; auto. + apply wheel_mu; auto.
      + apply wheel_mu; auto. right; right. rewrite (wf_nxpv W); auto.
    - intros v e Lv E. apply (i_lvv I) in Lv as [Lv | (x & Lx & _ & ->)].
      + rewrite (proj1 (i_old I Lv)) in E. destruct (wf_ve W _ Lv E) as [Le O]. split; [apply (nm_live tO Le)|]. rewrite <- O. apply (ogO Le).
      + destruct (i_new I Lx (all_sp Lx)) as (x' & X & _ & Q & _). rewrite Q in E. injection E as <-.
        assert (Lx' : lv g0 x' = true) by (destruct X as [-> | ->]; auto using live_t). split; [apply (nm_live tS Lx')|].
        pose proof (ogS Lx') as O. cbn in O. rewrite O. destruct X as [-> | ->]; auto. apply mu_tw; auto.
    - intros j f Lj. apply live_name in Lj as (t & e & L & ->). pose proof (live_n W L) as LN. destruct t; nms; intros E; injection E as <-.
      + destruct (i_fk I L (all_pre L)) as [-> _]. split; [apply (i_lvf I); right; left; eauto using all_pre|]. constructor.
      + destruct (i_fk I LN (all_pre LN)) as [-> _]. split; [apply (i_lvf I); right; left; eauto using all_pre|].
        pose proof (nxO LN) as A. pose proof (nxC LN) as B. rewrite (wf_pvnx W _ L) in B. rewrite <- B, <- A. repeat constructor.
      + destruct (i_fk I L (all_pre L)) as [-> _]. split; [apply (i_lvf I); right; left; eauto using all_pre|].
        rewrite <- nxO by auto. repeat constructor.
      + pose proof (F0_live W T L) as LF. destruct (i_fz I LF (PR LF)) as [(e1 & L1 & F1 & ->) _].
        split; [apply (i_lvf I); right; right; eauto|]. pose proof (live_n W L1) as LN1.
        change (dn q e1) with (N tD e1). destruct (same_face W T L1 L F1) as [-> | [-> | ->]]; [constructor| |].
        * rewrite <- nxD by auto. repeat constructor.
        * rewrite (pv_nn W T L1), <- !nxD by auto. repeat constructor.
    - intros f Lf. apply (i_lvf I) in Lf as [[A B]|[(e & Le & _ & ->)|(f' & Lf' & Pf & ->)]].
      + rewrite PR in B; auto; discriminate.
      + destruct (i_fk I Le (all_pre Le)) as [-> _]. split; [apply (nm_live tO Le)|apply (fcO Le)].
      + destruct (i_fz I Lf' Pf) as [(e & Le & <- & ->) _]. split; [apply (nm_live tD Le)|apply (fcD Le)].
  Qed.

  Lemma done_triangles : triangles g.
  Proof.
    split.
    - intros j Lj. apply live_name in Lj as (t & e & L & ->). destruct t; nms; discriminate.
    - intros j Lj. apply live_name in Lj as (t & e & L & ->). pose proof (live_n W L) as LN. pose proof (live_p W L) as LP. pose proof (live_n W LN) as LNN.
      destruct t; nms; (split; [auto|intros E; apply nm_inj in E as [E E']; auto; try discriminate]).
      + rewrite (proj1 (tm_three T L)). auto.
      + apply (nx_ne T L E').
    - intros j Lj. apply live_name in Lj as (t & e & L & ->). pose proof (live_t W L) as LT. pose proof (live_p W L) as LP.
      assert (X : mu q (pv g0 e) <> mu q e).
      { intros E. apply (i_mu2 I) in E; auto using all_sp. destruct E as [E|E].
        - apply (pv_ne W T L). auto.
        - apply (twin_face W T LP). rewrite <- E, (F0_pv W L). auto. }
      destruct t; nms; auto.
      + intros E. pose proof (mu_fresh L) as Q. rewrite E, (wf_og W _ L) in Q. discriminate.
      + intros E. pose proof (mu_fresh L) as Q. rewrite <- E, (wf_og W _ LT) in Q. discriminate.
  Qed.

  Lemma done_subdivided : subdivided (mu q) g0 g.
  Proof.
    assert (TO : forall e, lv g0 e = true -> triangle g (N tO e) (og g0 e) (mu q e) (mu q (pv g0 e))).
    { intros e L. pose proof (live_p W L) as LP. split; [apply (nm_live tO L)|]. nms. auto. }
    assert (TD : forall e, lv g0 e = true -> triangle g (N tD (nx g0 e)) (mu q e) (mu q (nx g0 e)) (mu q (pv g0 e))).
    { intros e L. pose proof (live_n W L) as LN. pose proof (live_p W L) as LP. split; [apply (nm_live tD LN)|]. nms.
      rewrite (nn_pv W T L). nms. rewrite (pp_nx W T L). auto. }
    split.
    - apply mu_fresh.
    - apply mu_tw.
    - intros e e' L L'. apply (i_mu2 I); auto using all_sp.
    - intros v. rewrite (i_lvv I). split; (intros [H|H]; [auto|right]).
      + destruct H as (e & L & _ & ->). eauto. + destruct H as (e & L & ->). eauto using all_sp.
    - intros v Lv. apply (i_old I Lv).
    - intros e L. exists (N tO e). split; auto. destruct (i_fk I L (all_pre L)) as [_ (cu & y & A & B)].
      exists (F0 e), (ka q e), cu, y. split; [apply (F0_some T L)|]. split; auto. split; auto. apply (fcO L).
    - intros e L. exists (N tD (nx g0 e)). split; auto. pose proof (F0_live W T L) as LF. destruct (i_fz I LF (PR LF)) as [_ (cu & y & A & B)].
      exists (F0 e), (ze q (F0 e)), cu, y. split; [apply (F0_some T L)|]. split; auto. split; auto.
      rewrite (fcD (live_n W L)), (F0_nx W L). auto.
    - intros j Lj. apply live_name in Lj as (t & e & L & ->). pose proof (live_n W L) as LN. pose proof (live_p W L) as LP. destruct t.
      + exists e, (N tO e). auto 6.
      + exists (nx g0 e), (N tO (nx g0 e)). split; auto. split; [|auto]. right; left. nms. auto.
      + exists e, (N tO e). split; auto. split; auto. right; right. nms. auto.
      + exists (pv g0 e), (N tD e). split; auto. split; auto. right. pose proof (TD _ LP) as X. rewrite (wf_nxpv W _ L) in X. rewrite (wf_nxpv W _ L). auto.
  Qed.

  Lemma done_middles : (forall v, lvv g v = true -> vp g v <> None) -> middles phi (mu q) g0 g.
  Proof.
    intros VP1 e L. destruct (i_new I L (all_sp L)) as (e' & E & _ & _ & P). exists e'. split; auto. split; auto. apply VP1. apply mu_live; auto.
  Qed.

  (** *** counts *)
  Variable le lf lw : list nat.
  Hypothesis NDe : NoDup le.
  Hypothesis LE : forall x, In x le <-> lv g0 x = true.
  Hypothesis NDf : NoDup lf.
  Hypothesis LF : forall x, In x lf <-> lvf g0 x = true.
  Hypothesis NDw : NoDup lw.
  Hypothesis LW : forall x, In x lw <-> lvv g0 x = true.

  Lemma nodup_map (A : Type) (f : A -> nat) l : NoDup l -> (forall x y, In x l -> In y l -> f x = f y -> x = y) -> NoDup (map f l).
  Proof.
    induction l as [|a l IH]; intros ND H; cbn; [constructor|]. apply NoDup_cons_iff in ND as [Nx ND]. constructor.
    - intros J. apply in_map_iff in J as (b & E & B). apply H in E; [subst; tauto|right; auto|left; auto].
    - apply IH; auto. intros. apply H; auto; right; auto.
  Qed.
  Lemma nodup_app (A : Type) (l1 l2 : list A) : NoDup l1 -> NoDup l2 -> (forall x, In x l1 -> In x l2 -> False) -> NoDup (l1 ++ l2).
  Proof.
    induction l1 as [|a l1 IH]; intros N1 N2 H; cbn; auto. apply NoDup_cons_iff in N1 as [Nx N1]. constructor.
    - rewrite in_app_iff. intros [?|?]; [tauto|]. apply (H a); auto. left; auto.
    - apply IH; auto. intros x X. apply H. right; auto.
  Qed.

  Definition edge_list := map (N tO) le ++ map (N tS) le ++ map (N tC) le ++ map (N tD) le.
  Lemma edge_list_ok : NoDup edge_list /\ (forall j, In j edge_list <-> lv g j = true) /\ length edge_list = 4 * length le.
  Proof.
    assert (ND : forall t, NoDup (map (N t) le)).
    { intros t. apply nodup_map; auto. intros x y X Y E. apply LE in X, Y. apply nm_inj in E; tauto. }
    assert (IN : forall t j, In j (map (N t) le) <-> exists e, lv g0 e = true /\ j = N t e).
    { intros t j. rewrite in_map_iff. split; intros (e & A & B); exists e; [rewrite <- LE|rewrite LE]; auto. }
    assert (X : forall t t' j, t <> t' -> In j (map (N t) le) -> In j (map (N t') le) -> False).
    { intros t t' j Ne A B. apply IN in A as (e & L & ->). apply IN in B as (e' & L' & E). apply nm_inj in E; tauto. }
    split; [|split].
    - unfold edge_list. apply nodup_app; auto; [apply nodup_app; auto; [apply nodup_app; auto|]|].
      + intros j. apply X. discriminate.
      + intros j A. rewrite in_app_iff. intros [B|B]; [apply (X tS tC j)|apply (X tS tD j)]; auto; discriminate.
      + intros j A. rewrite !in_app_iff. intros [B|[B|B]]; [apply (X tO tS j)|apply (X tO tC j)|apply (X tO tD j)]; auto; discriminate.
    - intros j. unfold edge_list. rewrite !in_app_iff, !IN, live_name. split.
      + intros [(e & H)|[(e & H)|[(e & H)|(e & H)]]]; eauto.
      + intros ([] & e & H); eauto 10.
    - unfold edge_list. rewrite !app_length, !map_length. lia.
  Qed.

  Definition face_list := map (ka q) le ++ map (ze q) lf.
  Lemma face_list_ok : NoDup face_list /\ (forall j, In j face_list <-> lvf g j = true) /\ length face_list = length le + length lf.
  Proof.
    split; [|split].
    - apply nodup_app; [apply nodup_map| apply nodup_map|]; auto.
      + intros x y X Y E. apply LE in X, Y. apply (i_kk I); auto using all_pre.
      + intros x y X Y E. apply LF in X, Y. apply (i_zz I); auto.
      + intros j A B. apply in_map_iff in A as (e & <- & A). apply in_map_iff in B as (f & E & B). apply LE in A. apply LF in B.
        apply (i_kz I A B); auto using all_pre.
    - intros j. unfold face_list. rewrite in_app_iff, !in_map_iff, (i_lvf I). split.
      + intros [(e & <- & A)|(f & <- & A)]; [apply LE in A; right; left; eauto using all_pre|apply LF in A; right; right; eauto].
      + intros [[A B]|[(e & A & _ & ->)|(f & A & _ & ->)]].
        * rewrite PR in B; auto; discriminate. * left. exists e. rewrite LE. auto. * right. exists f. rewrite LF. auto.
    - unfold face_list. rewrite app_length, !map_length. auto.
  Qed.

  Definition halves := filter (fun x => x <? tw g0 x) le.
  Lemma halves_two : 2 * length halves = length le.
  Proof.
    assert (P : Permutation le (halves ++ map (tw g0) halves)).
    { apply NoDup_Permutation; auto.
      - apply nodup_app; [apply NoDup_filter; auto|apply nodup_map; [apply NoDup_filter; auto|]|].
        + intros x y X Y E. apply filter_In in X as [X _], Y as [Y _]. apply LE in X, Y. rewrite <- (wf_twtw W _ X), E. apply (wf_twtw W _ Y).
        + intros x X Y. apply filter_In in X as [X A]. apply in_map_iff in Y as (y & <- & Y). apply filter_In in Y as [Y B]. apply LE in Y.
          rewrite (wf_twtw W _ Y) in A. apply Nat.ltb_lt in A, B. lia.
      - intros x. rewrite in_app_iff, in_map_iff. unfold halves. split.
        + intros X. pose proof X as Lx. apply LE in Lx. pose proof (wf_twne W Lx). destruct (Nat.ltb_spec x (tw g0 x)) as [A|A].
          * left. apply filter_In. split; auto. apply Nat.ltb_lt. auto.
          * right. exists (tw g0 x). split; [apply (wf_twtw W _ Lx)|]. apply filter_In. split; [apply LE, (live_t W Lx)|].
            rewrite (wf_twtw W _ Lx). apply Nat.ltb_lt. lia.
        + intros [X|(y & <- & X)]; apply filter_In in X as [X _]; auto. apply LE in X. apply LE, (live_t W X). }
    apply Permutation_length in P. rewrite app_length, map_length in P. lia.
  Qed.
  Lemma three_faces : length le = 3 * length lf.
  Proof.
    assert (LFE : forall f, In f lf -> lv g0 (fe g0 f) = true /\ F0 (fe g0 f) = f).
    { intros f A. apply LF in A. destruct (wf_fe W _ A) as [L E]. split; auto. unfold SubdivInv.F0. rewrite E. auto. }
    set (h := fun k f => match k with 0 => fe g0 f | 1 => nx g0 (fe g0 f) | _ => pv g0 (fe g0 f) end).
    assert (HF : forall k f, In f lf -> lv g0 (h k f) = true /\ F0 (h k f) = f).
    { intros k f A. destruct (LFE f A) as [L E]. destruct k as [|[|k]]; cbn; auto.
      - split; [apply (live_n W L)|]. rewrite (F0_nx W L); auto. - split; [apply (live_p W L)|]. rewrite (F0_pv W L); auto. }
    assert (ND : forall k, NoDup (map (h k) lf)).
    { intros k. apply nodup_map; auto. intros x y X Y E. rewrite <- (proj2 (HF k x X)), E. apply (HF k y Y). }
    assert (X : forall k k' j, (forall f, In f lf -> h k f <> h k' f) -> In j (map (h k) lf) -> In j (map (h k') lf) -> False).
    { intros k k' j Ne A B. apply in_map_iff in A as (f & <- & A). apply in_map_iff in B as (f' & E & B).
      assert (f = f') by (rewrite <- (proj2 (HF k f A)), <- E; apply (HF k' f' B)). subst f'. apply (Ne f A). auto. }
    assert (P : Permutation le (map (h 0) lf ++ map (h 1) lf ++ map (h 2) lf)).
    { apply NoDup_Permutation; auto.
      - apply nodup_app; auto; [apply nodup_app; auto|].
        + intros j. apply X. intros f A. apply (nx_pv W T). apply (LFE f A).
        + intros j A. rewrite in_app_iff. intros [B|B]; [apply (X 0 1 j)|apply (X 0 2 j)]; auto; intros f C; apply not_eq_sym.
          * apply (nx_ne T), (LFE f C). * apply (pv_ne W T), (LFE f C).
      - intros x. rewrite !in_app_iff, !in_map_iff, LE. split.
        + intros L. pose proof (F0_live W T L) as A. apply LF in A. destruct (LFE _ A) as [B C].
          destruct (same_face W T B L C) as [-> | [-> | ->]]; [left|right; left|right; right]; exists (F0 x);
            (split; [|exact A]); cbn; auto.
        + intros [(f & <- & A)|[(f & <- & A)|(f & <- & A)]]; apply (HF _ f A). }
    apply Permutation_length in P. rewrite !app_length, !map_length in P. lia.
  Qed.

  Definition vertex_list := lw ++ map (mu q) halves.
  Lemma vertex_list_ok : NoDup vertex_list /\ (forall j, In j vertex_list <-> lvv g j = true) /\ length vertex_list = length lw + length halves.
  Proof.
    assert (H : forall x, In x halves -> lv g0 x = true) by (intros x X; apply filter_In in X as [X _]; apply LE; auto).
    split; [|split].
    - apply nodup_app; [auto|apply nodup_map; [apply NoDup_filter; auto|]|].
      + intros x y X Y E. pose proof (H x X) as Lx. pose proof (H y Y) as Ly. apply (i_mu2 I) in E; auto using all_sp.
        destruct E as [?| ->]; auto. apply filter_In in X as [_ X], Y as [_ Y]. rewrite (wf_twtw W _ Lx) in Y. apply Nat.ltb_lt in X, Y. lia.
      + intros j A B. apply in_map_iff in B as (x & <- & B). apply LW in A. rewrite (mu_fresh (H x B)) in A. discriminate.
    - intros j. unfold vertex_list. rewrite in_app_iff, in_map_iff, LW, (i_lvv I). split; (intros [A|A]; [auto|right]).
      + destruct A as (x & <- & A). exists x. auto using all_sp.
      + destruct A as (x & Lx & _ & ->). pose proof (wf_twne W Lx). destruct (Nat.ltb_spec x (tw g0 x)) as [A|A].
        * exists x. split; auto. apply filter_In. split; [apply LE; auto|apply Nat.ltb_lt; auto].
        * exists (tw g0 x). split; [apply mu_tw; auto|]. apply filter_In. split; [apply LE, (live_t W Lx)|].
          rewrite (wf_twtw W _ Lx). apply Nat.ltb_lt. lia.
    - unfold vertex_list. rewrite app_length, map_length. auto.
  Qed.
End Done.
