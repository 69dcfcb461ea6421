(** Drawing on an existing boundary with the path builder. *)
From Coq Require Import List Arith Lia Bool Permutation.
From Verif Require Import Base DVec DVecFacts Mesh Spec Rep Splice Cycle Traverse Room Ops MeshSpec MeshProofs
  MeshMore MeshEx MeshTotal MeshFacts NetProofs BuildSpec Solid BuildStep PathProofs LoftProofs PathBuilder PathBSpec PathBProofs PatchSpec.
Import ListNotations.
Set Implicit Arguments.
Unset Strict Implicit.

Local Arguments abs : simpl never.
Section Patch.
  Context {VP EP FP : Type}.
  Notation graph := (graph VP EP FP).
  Notation mesh := (mesh VP EP FP).
  Implicit Types (g : graph) (m : mesh).
  Variable (dE : EP).

  Lemma sole_attach g i : WF g -> sole g i -> attachable g (target g i).
  Proof.
    intros W (L & F & U). split; [apply (wf_og W); apply (wf_tw W); auto|]. right. exists (nx g i).
    split; [apply (wf_nx W); auto|]. split; [apply (wf_ognx W); auto|]. split; [rewrite (wf_fcnx W); auto|].
    intros x Lx Ox Fx. assert (Lp := wf_pv W _ Lx). rewrite <- (wf_nxpv W _ Lx). f_equal. apply U; auto.
    - rewrite <- (wf_fcnx W _ Lp), (wf_nxpv W _ Lx). auto.
    - unfold target. rewrite <- (wf_ognx W _ Lp), (wf_nxpv W _ Lx). auto.
  Qed.
  Lemma sole_ve g i : WF g -> sole g i -> ve g (target g i) <> None.
  Proof. intros W (L & F & U) Q. destruct (wf_wheel W _ (wf_tw W _ L)) as (e0 & Q1 & _). unfold target in Q. congruence. Qed.
  (** a vertex with a single half-edge has a single boundary corner *)
  Lemma only_sole g e1 e2 : WF g -> lv g e1 = true -> tw g e1 = e2 -> fc g e1 = None -> only g (target g e1) e2 -> sole g e1.
  Proof.
    intros W L T F (A & B & U). split; auto. split; auto. intros x Lx _ Q.
    rewrite <- (wf_twtw W _ Lx), <- (wf_twtw W _ L), T. f_equal. apply U; auto. apply (wf_tw W); auto.
  Qed.
  (** old corners stay single if no new half-edge leads to them *)
  Lemma sole_pair g g' e1 e2 a b y1 y2 o : WF g -> new_pair g g' e1 e2 a b y1 y2 -> sole g o -> target g o <> a -> target g o <> b -> sole g' o.
  Proof.
    intros W P (L & F & U) N1 N2. destruct (pair_old P L) as (T & O & FC & _).
    destruct (pair_old P (wf_tw W _ L)) as (T2 & O2 & _). destruct (np_fresh P) as (P1 & P2 & P3). destruct (np_twin P) as [Q1 Q2]. destruct (np_origin P) as [Q3 Q4].
    assert (TO : target g' o = target g o) by (unfold target; rewrite T, O2; auto).
    split; [rewrite (proj1 (np_others P (e := o) ltac:(congruence) ltac:(congruence))); auto|]. split; [congruence|].
    intros x Lx Fx Q. rewrite TO in Q.
    destruct (Nat.eq_dec x e1) as [->|D1]; [exfalso; unfold target in Q; rewrite Q1, Q4 in Q; unfold target in N2; congruence|].
    destruct (Nat.eq_dec x e2) as [->|D2]; [exfalso; unfold target in Q; rewrite Q2, Q3 in Q; unfold target in N1; congruence|].
    destruct (np_others P D1 D2) as [K1 K2]. rewrite K1 in Lx. destruct (K2 Lx) as (R1 & R2 & R3 & R4).
    apply U; auto; [congruence|]. rewrite <- Q. unfold target. rewrite R1. symmetry. apply (pair_old P). apply (wf_tw W); auto.
  Qed.

  (** * a line to a new vertex *)
  Record hung m m' i t w e1 e2 (y : VP) (x0 x1 : EP) : Prop := {
    hg_wf : wf m';
    hg_grown : grown (abs m) (abs m') (i :: t) [e1; e2] [w] [];
    hg_hole : hole (abs m') (i :: e1 :: e2 :: t);
    hg_tw : tw (abs m') e1 = e2 /\ tw (abs m') e2 = e1;
    hg_og : og (abs m') e1 = target (abs m) i /\ og (abs m') e2 = w;
    hg_vp : vp (abs m') w = Some y;
    hg_ep : ep (abs m') e1 = Some x0 /\ ep (abs m') e2 = Some x1;
    hg_sole : sole (abs m') e1;
    hg_nbrs : nbrs (abs m') w [target (abs m) i];
    hg_fc : forall x, lv (abs m) x = true -> fc (abs m') x = fc (abs m) x;
    hg_keep : forall o, sole (abs m) o -> target (abs m) o <> target (abs m) i -> sole (abs m') o
  }.

  Lemma do_hang c m i t y x0 x1 a b d : wf m -> fits c m (2 + a) (S b) d -> hole (abs m) (i :: t) -> sole (abs m) i ->
    exists m1 w m2 e1 e2, add_vertex c m y = Ok (m1, w) /\ insert_edge_between c m1 (target (abs m) i) x0 w x1 = Ok (m2, e1, e2) /\
      fits c m2 a b d /\ hung m m2 i t w e1 e2 y x0 x1.
  Proof.
    intros Wm F H SO. pose proof (wfW Wm) as W. set (v := target (abs m) i).
    assert (Li : lv (abs m) i = true) by (apply (hole_live H); left; auto).
    assert (Lv : lvv (abs m) v = true) by (apply (wf_og W); apply (wf_tw W); auto).
    destruct (t_add_vertex y Wm F) as (m1 & w & E1 & F1).
    destruct (spec_add_vertex Wm E1) as (Wm1 & N0 & N1 & N2 & N3 & KV & KE & KF & KL).
    pose proof (wfW Wm1) as W1.
    assert (VW : v <> w) by congruence.
    assert (E : forall x, lv (abs m) x = true -> lv (abs m1) x = true /\ tw (abs m1) x = tw (abs m) x /\
      og (abs m1) x = og (abs m) x /\ fc (abs m1) x = fc (abs m) x /\ ep (abs m1) x = ep (abs m) x).
    { intros x Lx. destruct (KE x) as [[Q1 Q2] _]. rewrite Q1. destruct (Q2 Lx) as (? & ? & ? & ?). auto 10. }
    assert (EL : forall x, lv (abs m1) x = lv (abs m) x) by (intros x; apply (KE x)).
    assert (ET : forall x, lv (abs m) x = true -> target (abs m1) x = target (abs m) x).
    { intros x Lx. unfold target. destruct (E x Lx) as (_ & -> & _). apply E. apply (wf_tw W); auto. }
    assert (H1 : hole (abs m1) (i :: t)).
    { destruct H as [Ha Hb]. split; [auto|]. intros x I. rewrite <- (Hb x I). apply E. apply Ha; auto. }
    assert (S1 : forall o, sole (abs m) o -> sole (abs m1) o).
    { intros o (A & B & C). split; [rewrite EL; auto|]. split; [destruct (E o A) as (_ & _ & _ & -> & _); auto|].
      intros x Lx Fx Q. rewrite EL in Lx. rewrite (ET _ Lx), (ET _ A) in Q. apply C; auto. destruct (E x Lx) as (_ & _ & _ & <- & _). auto. }
    assert (NW : forall x, lv (abs m1) x = true -> og (abs m1) x <> w).
    { intros x Lx Q. destruct (wf_wheel W1 _ Lx) as (e0 & Q1 & _). congruence. }
    assert (AV : attachable (abs m1) v) by (unfold v; rewrite <- (ET _ Li); apply sole_attach; auto).
    assert (AW : attachable (abs m1) w) by (split; auto).
    destruct (t_insert_edge_between x0 x1 Wm1 F1 VW AV AW) as (m2 & e1 & e2 & E2 & F2).
    { intros _ x Lx [_ Q]. apply (NW (tw (abs m1) x)); auto. apply (wf_tw W1); auto. }
    destruct (spec_between_attachable Wm1 VW AV AW E2) as (Wm2 & ci & co & C).
    exists m1, w, m2, e1, e2. do 3 (split; auto).
    pose proof (cn_pair C) as P. destruct (np_fresh P) as (P1 & P2 & P3). destruct (np_live P) as [P4 P5].
    destruct (np_twin P) as [T1 T2]. destruct (np_origin P) as [OG1 OG2]. pose proof (np_pay P) as PY. destruct (np_face P) as [FC1 FC2].
    pose proof (wfW Wm2) as W2.
    assert (VE : ve (abs m1) v <> None) by (unfold v; rewrite <- (ET _ Li); apply sole_ve; auto).
    assert (co = None).
    { pose proof (cn_out C) as Q. destruct co as [o|]; auto. destruct Q as (Q1 & Q2 & _).
      exfalso. apply (NW (tw (abs m1) o)); auto. apply (wf_tw W1); auto. }
    subst co.
    assert (ci = Some i).
    { pose proof (cn_in C) as Q. destruct ci as [j|]; [|congruence]. destruct Q as (Q1 & Q2 & Q3). f_equal.
      apply (S1 _ SO); auto. rewrite (ET _ Li). auto. }
    subst ci. pose proof (cn_loop C) as CL. cbn in CL.
    assert (NB : forall x, lv (abs m2) x = true -> og (abs m2) x = w -> x = e2).
    { intros x Lx Ox. destruct (Nat.eq_dec x e2) as [|D2]; auto. exfalso. destruct (Nat.eq_dec x e1) as [->|D1]; [congruence|].
      destruct (np_others P D1 D2) as [Q1 Q2]. rewrite Q1 in Lx. destruct (Q2 Lx) as (_ & Q & _). apply (NW x Lx). congruence. }
    split; auto.
    - split.
      + destruct (added_pair P) as (A1 & A2 & A3). split; auto. split; [intros x I; rewrite <- EL; auto|].
        intros x. rewrite A3, EL. tauto.
      + split; [constructor; [intros []|constructor]|]. split; [intros x [<-|[]]; auto|].
        intros x. rewrite (proj1 (cn_pay C x)). destruct (Nat.eq_dec x w) as [->|N]; [cbn; tauto|].
        rewrite (proj1 (KV x N)). cbn. split; [auto|intros [?|[?|[]]]; auto; congruence].
      + apply added_nil. intros f. rewrite (proj1 (cn_faces C f)). apply KF.
      + intros x Lx. destruct (E x Lx) as (L1 & <- & <- & _ & <-). destruct (pair_old P L1) as (? & ? & ? & ?). auto.
      + intros u Lu. assert (Nu : u <> w) by congruence. destruct (KV u Nu) as [K1 K2]. destruct (K2 Lu) as [<- <-].
        rewrite Lu in K1. destruct (Nat.eq_dec u v) as [->|N]; [|apply (cn_vertices C); auto].
        split; [|apply (cn_pay C); auto]. rewrite (proj2 (cn_v C)). destruct (ve (abs m1) v); auto. congruence.
      + intros f Lf. destruct (KF f) as [K1 K2]. destruct (K2 Lf) as [<- <-]. apply (cn_faces C). congruence.
      + intros l Hl D. assert (Hl1 := KL _ Hl). split.
        * apply (cn_loops C Hl1); [|discriminate]. intros j Q I. injection Q as <-. apply (D i I). left; auto.
        * intros x I. assert (Lx : lv (abs m) x = true) by (apply Hl; auto). destruct (E x Lx) as (L1 & _ & _ & <- & _).
          apply (pair_old P L1).
    - destruct H1 as [Ha Hb]. split; [apply CL; auto|].
      intros x I. destruct I as [<-|[<-|[<-|I]]]; auto.
      + rewrite <- (Hb i (or_introl eq_refl)). apply (pair_old P). apply Ha; left; auto.
      + assert (J : In x (i :: t)) by (right; auto). rewrite <- (Hb x J). apply (pair_old P). apply Ha; auto.
    - rewrite (proj2 (cn_pay C w)); auto.
    - apply only_sole with e2; auto. unfold target. rewrite T1, OG2. split; auto.
    - intros x Lx Ox. rewrite (NB x Lx Ox). left. unfold target at 2. rewrite T2. auto.
    - intros x Lx. destruct (E x Lx) as (L1 & _ & _ & <- & _). apply (pair_old P L1).
    - intros o S0 N. assert (Lo : lv (abs m) o = true) by apply S0. eapply (sole_pair W1 P (S1 _ S0)).
      + rewrite (ET _ Lo). auto.
      + rewrite (ET _ Lo). intros Q. assert (lvv (abs m) w = true) by (rewrite <- Q; apply (wf_og W); apply (wf_tw W); auto). congruence.
  Qed.

  (** * a line between two corners of the boundary *)
  Lemma do_join c m i s1 o s2 x0 x1 a b d : wf m -> fits c m (2 + a) b d -> hole (abs m) (i :: s1 ++ o :: s2) ->
    sole (abs m) i -> sole (abs m) o -> target (abs m) i <> target (abs m) o ->
    (dbg c = true -> forall x, ~ leads (abs m) x (target (abs m) i) (target (abs m) o)) ->
    exists m' e1 e2, insert_edge_between c m (target (abs m) i) x0 (target (abs m) o) x1 = Ok (m', e1, e2) /\ wf m' /\ fits c m' a b d /\
      grown (abs m) (abs m') (i :: s1 ++ o :: s2) [e1; e2] [] [] /\
      hole (abs m') (i :: e1 :: s2) /\ hole (abs m') (o :: e2 :: s1) /\
      tw (abs m') e1 = e2 /\ tw (abs m') e2 = e1 /\ og (abs m') e1 = target (abs m) i /\ og (abs m') e2 = target (abs m) o /\
      ep (abs m') e1 = Some x0 /\ ep (abs m') e2 = Some x1 /\ (forall x, lv (abs m) x = true -> fc (abs m') x = fc (abs m) x).
  Proof.
    intros Wm F H Si So VU NL. pose proof (wfW Wm) as W. set (v := target (abs m) i) in *. set (u := target (abs m) o) in *.
    assert (AV : attachable (abs m) v) by (apply sole_attach; auto). assert (AU : attachable (abs m) u) by (apply sole_attach; auto).
    destruct (t_insert_edge_between x0 x1 Wm F VU AV AU) as (m' & e1 & e2 & E & F').
    { intros D x Lx [Q1 Q2]. apply (NL D x). split; auto. }
    destruct (spec_between_attachable Wm VU AV AU E) as (Wm' & ci & co & C).
    pose proof (cn_pair C) as P. destruct (np_fresh P) as (P1 & P2 & P3). destruct (np_live P) as [P4 P5].
    destruct (np_twin P) as [T1 T2]. destruct (np_origin P) as [O1 O2]. destruct (np_pay P) as [Y1 Y2]. destruct (np_face P) as [C1 C2].
    exists m', e1, e2. do 3 (split; auto).
    assert (ci = Some i).
    { pose proof (cn_in C) as Q. destruct ci as [j|]; [|exfalso; apply (sole_ve W Si); auto]. destruct Q as (Q1 & Q2 & Q3). f_equal. apply Si; auto. }
    assert (co = Some o).
    { pose proof (cn_out C) as Q. destruct co as [j|]; [|exfalso; apply (sole_ve W So); auto]. destruct Q as (Q1 & Q2 & Q3). f_equal. apply So; auto. }
    subst ci co. pose proof (cn_loop C) as CL. cbn in CL. destruct CL as (_ & CL & _).
    destruct (CL _ _ (proj1 H)) as [CL1 CL2].
    assert (FN : forall x, In x (i :: s1 ++ o :: s2) \/ x = e1 \/ x = e2 -> fc (abs m') x = None).
    { intros x [J|[->| ->]]; auto. rewrite <- (proj2 H x J). apply (pair_old P). apply H; auto. }
    split.
    { split.
      - apply (added_pair P).
      - apply added_nil. intros x. apply (cn_pay C).
      - apply added_nil. intros x. apply (cn_faces C).
      - intros x Lx. destruct (pair_old P Lx) as (? & ? & ? & ?). auto.
      - intros x Lx. split; [|apply (cn_pay C); auto].
        destruct (Nat.eq_dec x v) as [->|N1]; [|destruct (Nat.eq_dec x u) as [->|N2]; [|apply (cn_vertices C); auto]].
        + rewrite (proj2 (cn_v C)). pose proof (sole_ve W Si) as Q. fold v in Q. destruct (ve (abs m) v); congruence.
        + rewrite (proj2 (cn_w C)). pose proof (sole_ve W So) as Q. fold u in Q. destruct (ve (abs m) u); congruence.
      - intros f Lf. apply (cn_faces C); auto.
      - intros l Hl Dj. split.
        + apply (cn_loops C Hl); intros j Q I; injection Q as <-; apply (Dj _ I); [left; auto|right; apply in_app_iff; right; left; auto].
        + intros x I. apply (pair_old P). apply Hl; auto. }
    split. { split; [exact CL1|]. intros x I. apply FN. cbn [In] in *. rewrite in_app_iff. cbn [In]. intuition. }
    split. { split; [exact CL2|]. intros x I. apply FN. cbn [In] in *. rewrite in_app_iff. cbn [In]. intuition. }
    do 6 (split; auto). intros x Lx. apply (pair_old P Lx).
  Qed.

  (** * paths of new vertices *)
  Record trailed m0 m e A es vs (ys : list VP) (p0 p1 : list EP) : Prop := {
    tr_wf : wf m;
    tr_trail : trail_built (abs m0) (abs m) e A es vs ys p0 p1;
    tr_sole : sole (abs m) (last es e);
    tr_target : target (abs m) (last es e) = last vs (target (abs m0) e);
    tr_nbrs : es <> [] -> forall u, lvv (abs m0) u = true -> u <> target (abs m0) e -> forall x, ~ leads (abs m) x (last vs (target (abs m0) e)) u;
    tr_fc : forall x, lv (abs m0) x = true -> fc (abs m) x = fc (abs m0) x;
    tr_keep : forall o, sole (abs m0) o -> target (abs m0) o <> target (abs m0) e -> sole (abs m) o
  }.

  Lemma trailed_nil m e A : wf m -> hole (abs m) (e :: A) -> sole (abs m) e -> trailed m m e A [] [] [] [] [].
  Proof.
    intros Wm H S. split; auto. split; cbn [map app rev]; auto; try reflexivity.
    split; try (apply added_nil; tauto); auto.
  Qed.

  Lemma trail_step c m0 m e A es vs ys p0 p1 y x0 x1 a b d : wf m0 -> lv (abs m0) e = true -> trailed m0 m e A es vs ys p0 p1 -> fits c m (2 + a) (S b) d ->
    exists m1 w m2 e1 e2, add_vertex c m y = Ok (m1, w) /\ insert_edge_between c m1 (last vs (target (abs m0) e)) x0 w x1 = Ok (m2, e1, e2) /\
      fits c m2 a b d /\ w <> target (abs m0) e /\ tw (abs m2) e1 = e2 /\ trailed m0 m2 e A (es ++ [e1]) (vs ++ [w]) (ys ++ [y]) (p0 ++ [x0]) (p1 ++ [x1]).
  Proof.
    intros W0 Le T F. pose proof (tr_wf T) as Wm. pose proof (wfW Wm) as W. pose proof (wfW W0) as WW0. pose proof (tr_trail T) as B.
    set (v0 := target (abs m0) e) in *. set (rest := rev (map (tw (abs m)) es) ++ A).
    destruct (@exists_last _ (e :: es)) as (q & i & EQ); [discriminate|].
    assert (LI : last es e = i).
    { destruct es as [|f es]; [destruct q as [|? [|? ?]]; try discriminate; cbn in EQ; cbn; congruence|].
      change (last (f :: es) e = i). transitivity (last (e :: f :: es) e); [reflexivity|]. rewrite EQ. apply last_last. }
    pose proof (tb_hole B) as H. fold rest in H. rewrite app_comm_cons, EQ, <- app_assoc in H. apply hole_rot in H. cbn [app] in H.
    pose proof (tr_sole T) as S. pose proof (tr_target T) as TT. fold v0 in TT. rewrite LI in S, TT.
    destruct (do_hang y x0 x1 Wm F H S) as (m1 & w & m2 & e1 & e2 & E1 & E2 & F2 & G). rewrite TT in E2.
    exists m1, w, m2, e1, e2. do 3 (split; auto). pose proof (hg_grown G) as GG. pose proof (wfW (hg_wf G)) as W2.
    destruct (hg_tw G) as [T1 T2]. destruct (hg_og G) as [O1 O2]. rewrite TT in O1.
    assert (L0 : lvv (abs m0) v0 = true) by (apply (wf_og WW0); apply (wf_tw WW0); auto).
    assert (Nw : lvv (abs m) w = false) by (apply (gr_new_v GG); left; auto).
    assert (NW : forall u, lvv (abs m0) u = true -> w <> u).
    { intros u Lu Q. rewrite Q in Nw. rewrite (gr_live_v (tb_grown B) Lu) in Nw. discriminate. }
    split; [apply NW; auto|]. split; auto.
    assert (LES : forall x, In x es -> lv (abs m) x = true) by (intros x I; eapply lt_live; [apply (tb_leads B)|auto]).
    assert (LE1 : lv (abs m2) e1 = true) by (apply (gr_new_e GG); left; auto).
    assert (MT : map (tw (abs m2)) (es ++ [e1]) = map (tw (abs m)) es ++ [e2]).
    { rewrite map_app. cbn [map]. rewrite T1, (map_tw_grown GG LES). auto. }
    assert (HR : hole (abs m2) (e :: (es ++ [e1]) ++ rev (map (tw (abs m2)) (es ++ [e1])) ++ A)).
    { rewrite MT, rev_app_distr. cbn [rev app]. pose proof (hg_hole G) as Q.
      replace (e :: (es ++ [e1]) ++ e2 :: rev (map (tw (abs m)) es) ++ A) with (q ++ i :: e1 :: e2 :: rest).
      - apply (@hole_rot _ _ _ _ (i :: e1 :: e2 :: rest) q). exact Q.
      - rewrite app_comm_cons. rewrite (app_comm_cons es [e1] e), EQ, <- !app_assoc. reflexivity. }
    assert (TW : target (abs m2) e1 = w) by (unfold target; rewrite T1; auto).
    split; [apply G|split| | | | |]; auto.
    - rewrite MT.
      assert (GT : grown (abs m0) (abs m2) (e :: A) ((es ++ map (tw (abs m)) es) ++ [e1; e2]) (vs ++ [w]) ([] ++ [])).
      { apply (grown_trans (tb_grown B) GG). intros x I.
        assert (J : In x (e :: es ++ rest)).
        { rewrite app_comm_cons, EQ. rewrite <- app_assoc. cbn [app]. cbn [In] in I. rewrite ?in_app_iff in I. rewrite ?in_app_iff. cbn [In]. rewrite ?in_app_iff. tauto. }
        unfold rest in J. cbn [In] in J. rewrite !in_app_iff, <- in_rev in J.
        destruct J as [J|[J|[J|J]]]; [left; left; auto|right|right|left; right; auto].
        - apply (gr_new_e (tb_grown B)). apply in_app_iff; auto.
        - apply (gr_new_e (tb_grown B)). apply in_app_iff; auto. }
      eapply grown_perm; [exact GT| |apply Permutation_refl|apply Permutation_refl].
      rewrite <- !app_assoc. apply Permutation_app_head.
      change ([e1] ++ (map (tw (abs m)) es ++ [e2])) with (e1 :: (map (tw (abs m)) es ++ [e2])).
      symmetry. apply Permutation_middle.
    - assert (EV : exists vs' z, v0 :: vs = vs' ++ [z]) by (destruct (@exists_last _ (v0 :: vs)) as (vs' & z & Q); [discriminate|eauto]).
      destruct EV as (vs' & z & EV). assert (LZ : last vs v0 = z).
      { destruct vs as [|v vs]; [destruct vs' as [|? [|? ?]]; try discriminate; cbn in EV; cbn; congruence|].
        transitivity (last (v0 :: v :: vs) v0); [reflexivity|]. rewrite EV. apply last_last. }
      try fold v0. rewrite app_comm_cons, EV. apply lt_snoc; [rewrite <- EV; eapply lt_grown; [exact W|exact GG|apply (tb_leads B)]|].
      split; auto. split; [congruence|auto].
    - rewrite map_app. cbn [map]. rewrite (hg_vp G), (map_vp_grown GG).
      + rewrite (tb_vp B), map_app. auto.
      + intros x I. apply (gr_v (tb_grown B)). auto.
    - unfold pays. rewrite map_app, (map_app _ p0). cbn [map]. rewrite (proj1 (hg_ep G)). f_equal.
      pose proof (tb_pay0 B) as Q. unfold pays in Q. rewrite <- Q. apply map_ext_in. intros x I. apply (gr_old_e GG). auto.
    - unfold pays. rewrite MT, (map_app _ (map _ _)), (map_app _ p1). cbn [map]. rewrite (proj2 (hg_ep G)). f_equal.
      pose proof (tb_pay1 B) as Q. unfold pays in Q. rewrite <- Q. apply map_ext_in. intros x I.
      apply (gr_old_e GG). apply in_map_iff in I as (z & <- & I). apply (wf_tw W). auto.
    - rewrite last_last. apply G.
    - rewrite !last_last. auto.
    - fold v0. intros _ u Lu Nu x. rewrite last_last. intros (X1 & X2 & X3). destruct (hg_nbrs G X1 X2) as [Q|[]]. rewrite TT in Q. rewrite X3 in Q.
      destruct vs as [|v vs]; [cbn in Q; congruence|].
      assert (J : In (last (v :: vs) v0) (v :: vs)).
      { destruct (@exists_last _ (v :: vs)) as (vs' & z & EV); [discriminate|]. rewrite EV, last_last. apply in_app_iff; right; left; auto. }
      rewrite Q in J. destruct (gr_new_v (tb_grown B) J) as [K _]. congruence.
    - intros x Lx. rewrite (hg_fc G), (tr_fc T); auto. apply (gr_live_e (tb_grown B) Lx).
    - fold v0. intros o So No. apply (hg_keep G); [apply (tr_keep T); auto|]. rewrite TT.
      rewrite (gr_target WW0 (tb_grown B)) by apply So. intros Q.
      destruct vs as [|v vs]; [cbn in Q; congruence|].
      assert (J : In (last (v :: vs) v0) (v :: vs)).
      { destruct (@exists_last _ (v :: vs)) as (vs' & z & EV); [discriminate|]. rewrite EV, last_last. apply in_app_iff; right; left; auto. }
      rewrite <- Q in J. destruct (gr_new_v (tb_grown B) J) as [K _].
      assert (lvv (abs m0) (target (abs m0) o) = true) by (apply (wf_og WW0); apply (wf_tw WW0); apply So). congruence.
  Qed.

  (** * the builder *)
  (** What the builder knows after drawing from the half-edge [s]. *)
  Definition trailer g0 g s (b : pathb) (es vs : list nat) : Prop :=
    p_closed b = false /\ p_face b = false /\ p_sv b = Some (target g0 s) /\ p_cv b = Some (last vs (target g0 s)) /\
    (exists ps, p_se b = Some (s, ps)) /\
    (exists ci co, p_ce b = Some (ci, co) /\ (es <> [] -> ci = last es 0 /\ co = tw g ci)).

  Lemma start_edge m s : wf m -> lv (abs m) s = true ->
    exists b, p_start_at_edge m s = Ok b /\ trailer (abs m) (abs m) s b [] [] /\ p_ce b = p_se b.
  Proof.
    intros Wm L. destruct (wf_abs Wm) as [R W]. unfold p_start_at_edge.
    rewrite (r_prev_id R), L. cbn [bind]. rewrite (target_step R W L). cbn [bind].
    eexists. split; [reflexivity|]. split; [|reflexivity].
    unfold trailer. cbn. do 4 (split; auto). split; [eauto|]. exists s, (pv (abs m) s). split; auto. congruence.
  Qed.

  Lemma trail_lines c m0 s e A ls : forall m b es vs ys p0 p1 a bb d, wf m0 -> lv (abs m0) e = true -> target (abs m0) s = target (abs m0) e ->
    trailed m0 m e A es vs ys p0 p1 -> trailer (abs m0) (abs m) s b es vs -> fits c m (2 * length ls + a) (length ls + bb) d ->
    exists m' b' es' vs',
      foldM (fun s x => let '(m, b) := s in p_line c m b (l_end x) (l_there x) (l_back x)) ls (m, b) = Ok (m', b') /\
      fits c m' a bb d /\ (ls <> [] -> es' <> []) /\ (ls = [] -> es' = es) /\
      trailed m0 m' e A es' vs' (ys ++ map l_end ls) (p0 ++ map l_there ls) (p1 ++ map l_back ls) /\
      trailer (abs m0) (abs m') s b' es' vs'.
  Proof.
    induction ls as [|x ls IH]; intros m b es vs ys p0 p1 a bb d W0 Le TS D K F.
    - exists m, b, es, vs. cbn [foldM map]. rewrite !app_nil_r. split; auto.
    - assert (F' : fits c m (2 + (2 * length ls + a)) (S (length ls + bb)) d).
      { eapply fits_le; eauto; [apply (tr_wf D)|cbn; lia..]. }
      destruct (trail_step (l_end x) (l_there x) (l_back x) W0 Le D F') as (m1 & w & m2 & e1 & e2 & E1 & E2 & F2 & NW & T1 & D2).
      destruct K as (K1 & K2 & K3 & K4 & K5 & ci & co & K6 & _).
      set (b2 := mkPB false (p_face b) (p_sv b) (Some w) (p_se b) (Some (e1, e2))).
      assert (E3 : p_line c m b (l_end x) (l_there x) (l_back x) = Ok (m2, b2)).
      { unfold p_line. rewrite E1. cbn [bind]. unfold p_line_to. rewrite K1, K3, K4, K6. cbn [negb assert unwrap bind oeqb]. rewrite TS, E2. cbn [bind].
        rewrite (proj2 (Nat.eqb_neq _ _) (not_eq_sym NW)). unfold b2. rewrite K3, TS. auto. }
      assert (K' : trailer (abs m0) (abs m2) s b2 (es ++ [e1]) (vs ++ [w])).
      { unfold trailer, b2. cbn [p_closed p_face p_sv p_cv p_se p_ce]. rewrite !last_last. do 5 (split; auto). exists e1, e2. split; auto. }
      destruct (IH m2 b2 _ _ _ _ _ a bb d W0 Le TS D2 K' F2) as (m' & b' & es' & vs' & E & F3 & N1 & N2 & D3 & K3').
      exists m', b', es', vs'. cbn [foldM]. rewrite E3. cbn [bind].
      split; auto. split; auto. split.
      { intros _. destruct ls; [rewrite N2 by auto; intros Q; destruct es; discriminate|apply N1; discriminate]. }
      split; [discriminate|]. cbn [map]. rewrite <- !app_assoc in D3. cbn [app] in D3. auto.
  Qed.

  Lemma draw_from_ok c m s e A ls a b d : wf m -> hole (abs m) (e :: A) -> sole (abs m) e -> lv (abs m) s = true -> target (abs m) s = target (abs m) e ->
    fits c m (2 * length ls + a) (length ls + b) d ->
    exists m' b' es vs, draw_from c m s ls = Ok (m', b') /\ fits c m' a b d /\ (ls <> [] -> es <> []) /\ (ls = [] -> es = []) /\
      trailed m m' e A es vs (map l_end ls) (map l_there ls) (map l_back ls) /\ trailer (abs m) (abs m') s b' es vs.
  Proof.
    intros Wm H S Ls TS F. destruct (start_edge Wm Ls) as (b0 & E0 & K0 & _).
    destruct (trail_lines Wm (proj1 S) TS (trailed_nil Wm H S) K0 F) as (m' & b' & es & vs & E & F' & N1 & N2 & D & K).
    exists m', b', es, vs. unfold draw_from. rewrite E0. cbn [bind]. auto 10.
  Qed.

  Lemma draw_from_total c m e A ls a b d : wf m -> hole (abs m) (e :: A) -> sole (abs m) e ->
    fits c m (2 * length ls + a) (length ls + b) d ->
    exists m' b' es vs, draw_from c m e ls = Ok (m', b') /\ wf m' /\ fits c m' a b d /\
      trail_built (abs m) (abs m') e A es vs (map l_end ls) (map l_there ls) (map l_back ls) /\
      p_closed b' = false /\ p_cv b' = Some (last vs (target (abs m) e)).
  Proof.
    intros Wm H S F. destruct (draw_from_ok Wm H S (proj1 S) eq_refl F) as (m' & b' & es & vs & E & F' & _ & _ & D & K).
    exists m', b', es, vs. split; auto. split; [apply D|]. split; auto. split; [apply D|]. split; apply K.
  Qed.

  (** the last line, up to the call of [close] *)
  Lemma draw_across c m s e A o B ls x0 x1 a b d : wf m -> hole (abs m) (e :: A ++ o :: B) -> sole (abs m) e -> sole (abs m) o ->
    target (abs m) e <> target (abs m) o -> lv (abs m) s = true -> target (abs m) s = target (abs m) e ->
    (ls = [] -> dbg c = true -> forall x, ~ leads (abs m) x (target (abs m) e) (target (abs m) o)) ->
    fits c m (2 * S (length ls) + a) (length ls + b) d ->
    exists m1 b1 m2 b2 es vs e1 e2, draw_from c m s ls = Ok (m1, b1) /\ p_line_to c m1 b1 (target (abs m) o) x0 x1 = Ok (m2, b2) /\
      wf m2 /\ fits c m2 a b d /\ p_closed b2 = false /\ (exists ps, p_se b2 = Some (s, ps)) /\ p_ce b2 = Some (e1, e2) /\ tw (abs m2) e1 = e2 /\
      grown (abs m) (abs m2) (e :: A ++ o :: B) ((es ++ [e1]) ++ map (tw (abs m2)) (es ++ [e1])) vs [] /\
      leads_through (abs m2) (es ++ [e1]) (target (abs m) e :: vs ++ [target (abs m) o]) /\
      map (vp (abs m2)) vs = map Some (map l_end ls) /\ pays (abs m2) (es ++ [e1]) (map l_there ls ++ [x0]) /\
      pays (abs m2) (map (tw (abs m2)) (es ++ [e1])) (map l_back ls ++ [x1]) /\
      hole (abs m2) (e1 :: B ++ e :: es) /\ hole (abs m2) (rev (map (tw (abs m2)) (es ++ [e1])) ++ A ++ [o]) /\
      (forall x, lv (abs m) x = true -> fc (abs m2) x = fc (abs m) x).
  Proof.
    intros Wm H Se So NT Ls TS ND F. pose proof (wfW Wm) as W.
    assert (F0 : fits c m (2 * length ls + (2 + a)) (length ls + b) d) by (eapply fits_le; eauto; lia).
    destruct (draw_from_ok Wm H Se Ls TS F0) as (m1 & b1 & es & vs & E & F1 & N1 & N2 & D & K).
    pose proof (tr_trail D) as T. pose proof (tr_wf D) as Wm1. pose proof (wfW Wm1) as W1.
    set (v0 := target (abs m) e) in *. set (u := target (abs m) o) in *.
    destruct (@exists_last _ (e :: es)) as (q & i & EQ); [discriminate|].
    assert (LI : last es e = i).
    { destruct es as [|f es]; [destruct q as [|? [|? ?]]; try discriminate; cbn in EQ; cbn; congruence|].
      transitivity (last (e :: f :: es) e); [reflexivity|]. rewrite EQ. apply last_last. }
    set (rt := rev (map (tw (abs m1)) es)) in *.
    pose proof (tb_hole T) as H1. fold rt in H1. rewrite app_comm_cons, EQ, <- app_assoc in H1. apply hole_rot in H1. cbn [app] in H1.
    replace ((rt ++ A ++ o :: B) ++ q) with ((rt ++ A) ++ o :: (B ++ q)) in H1 by (rewrite <- !app_assoc; reflexivity).
    pose proof (tr_sole D) as Si. pose proof (tr_target D) as Ti. fold v0 in Ti. rewrite LI in Si, Ti.
    assert (So1 : sole (abs m1) o) by (apply (tr_keep D); auto). assert (Lo : lv (abs m) o = true) by apply So.
    assert (To : target (abs m1) o = u) by (apply (gr_target W (tb_grown T)); auto).
    assert (Lu : lvv (abs m) u = true) by (apply (wf_og W); apply (wf_tw W); auto).
    assert (NTi : target (abs m1) i <> target (abs m1) o).
    { rewrite Ti, To. destruct vs as [|v vs]; [cbn; auto|]. intros Q.
      assert (J : In (last (v :: vs) v0) (v :: vs)).
      { destruct (@exists_last _ (v :: vs)) as (vs' & z & EV); [discriminate|]. rewrite EV, last_last. apply in_app_iff; right; left; auto. }
      rewrite Q in J. destruct (gr_new_v (tb_grown T) J) as [Z _]. congruence. }
    assert (NL : dbg c = true -> forall x, ~ leads (abs m1) x (target (abs m1) i) (target (abs m1) o)).
    { rewrite Ti, To. intros G x. destruct es as [|f es].
      - destruct ls as [|z ls]; [|exfalso; apply N1; [discriminate|auto]]. intros Q.
        pose proof (lt_length (tb_leads T)) as LN. cbn in LN. destruct vs; [|cbn in LN; lia]. cbn [last] in Q.
        apply (ND eq_refl G x). destruct Q as (Q1 & Q2 & Q3). apply (gr_e (tb_grown T)) in Q1 as [Q1|[]].
        split; auto. rewrite <- (gr_target W (tb_grown T) Q1), <- (gr_og (tb_grown T) Q1). auto.
      - apply (tr_nbrs D); [discriminate|auto|]. apply not_eq_sym. exact NT. }
    destruct (do_join x0 x1 Wm1 F1 H1 Si So1 NTi NL) as (m2 & e1 & e2 & E2 & Wm2 & F2 & G2 & HA & HB & T1 & T2 & O1 & O2 & Y1 & Y2 & FC).
    rewrite Ti in E2, O1. rewrite To in E2, O2. pose proof (wfW Wm2) as W2.
    destruct K as (K1 & K2 & K3 & K4 & K5 & ci & co & K6 & _).
    exists m1, b1, m2, (mkPB false (p_face b1) (p_sv b1) (Some u) (p_se b1) (Some (e1, e2))), es, vs, e1, e2.
    split; auto. split.
    { unfold p_line_to. rewrite K1, K3, K4, K6. cbn [negb assert unwrap bind oeqb]. rewrite TS. fold v0. rewrite E2. cbn [bind].
      rewrite (proj2 (Nat.eqb_neq _ _) NT). auto. }
    do 2 (split; auto). cbn [p_closed p_se p_ce]. split; auto. split; auto. split; auto. split; auto.
    assert (LES : forall x, In x es -> lv (abs m1) x = true) by (intros x I; eapply lt_live; [apply (tb_leads T)|auto]).
    assert (MT : map (tw (abs m2)) (es ++ [e1]) = map (tw (abs m1)) es ++ [e2]).
    { rewrite map_app. cbn [map]. rewrite T1, (map_tw_grown G2 LES). auto. }
    split.
    { rewrite MT.
      assert (GT : grown (abs m) (abs m2) (e :: A ++ o :: B) ((es ++ map (tw (abs m1)) es) ++ [e1; e2]) (vs ++ []) ([] ++ [])).
      { apply (grown_trans (tb_grown T) G2). intros x I.
        assert (J : In x (e :: es ++ rt ++ A ++ o :: B)).
        { rewrite app_comm_cons, EQ. rewrite <- app_assoc. cbn [app]. cbn [In] in I. rewrite ?in_app_iff in I. cbn [In] in I. rewrite ?in_app_iff in I. rewrite ?in_app_iff. cbn [In]. rewrite ?in_app_iff. cbn [In]. tauto. }
        unfold rt in J. cbn [In] in J. rewrite (in_app_iff es), (in_app_iff (rev _)), <- in_rev in J.
        destruct J as [J|[J|[J|J]]]; [left; left; auto|right|right|left; right; auto].
        - apply (gr_new_e (tb_grown T)). apply in_app_iff; auto.
        - apply (gr_new_e (tb_grown T)). apply in_app_iff; auto. }
      rewrite app_nil_r in GT. eapply grown_perm; [exact GT| |apply Permutation_refl|apply Permutation_refl].
      rewrite <- !app_assoc. apply Permutation_app_head.
      change ([e1] ++ (map (tw (abs m1)) es ++ [e2])) with (e1 :: (map (tw (abs m1)) es ++ [e2])).
      symmetry. apply Permutation_middle. }
    split.
    { destruct (@exists_last _ (v0 :: vs)) as (vs' & z & EV); [discriminate|]. assert (LZ : last vs v0 = z).
      { destruct vs as [|v vs]; [destruct vs' as [|? [|? ?]]; try discriminate; cbn in EV; cbn; congruence|].
        transitivity (last (v0 :: v :: vs) v0); [reflexivity|]. rewrite EV. apply last_last. }
      try fold v0. rewrite app_comm_cons, EV. apply lt_snoc; [rewrite <- EV; eapply lt_grown; [exact W1|exact G2|apply (tb_leads T)]|].
      split; [apply (gr_new_e G2); left; auto|]. split; [congruence|]. unfold target. rewrite T1. auto. }
    split. { rewrite (map_vp_grown G2); [apply (tb_vp T)|]. intros x I. apply (gr_v (tb_grown T)). auto. }
    split. { unfold pays. rewrite map_app, (map_app _ (map l_there ls)). cbn [map]. rewrite Y1. f_equal.
      pose proof (tb_pay0 T) as Q. unfold pays in Q. rewrite <- Q. apply map_ext_in. intros x I. apply (gr_old_e G2). auto. }
    split. { unfold pays. rewrite MT, (map_app _ (map _ es)), (map_app _ (map l_back ls)). cbn [map]. rewrite Y2. f_equal.
      pose proof (tb_pay1 T) as Q. unfold pays in Q. rewrite <- Q. apply map_ext_in. intros x I.
      apply (gr_old_e G2). apply in_map_iff in I as (z & <- & I). apply (wf_tw W1). auto. }
    split. { rewrite EQ. rewrite app_assoc. change (e1 :: (B ++ q) ++ [i]) with ((e1 :: B ++ q) ++ [i]). apply (@hole_rot _ _ _ _ [i]). exact HA. }
    split. { rewrite MT, rev_app_distr. cbn [rev app]. fold rt. rewrite app_assoc.
      change (e2 :: (rt ++ A) ++ [o]) with ((e2 :: rt ++ A) ++ [o]). apply (@hole_rot _ _ _ _ [o]). exact HB. }
    intros x Lx. rewrite FC, (tr_fc D); auto. apply (gr_live_e (tb_grown T) Lx).
  Qed.

  Lemma find_first {A} (P : A -> bool) l1 x l2 : (forall y, In y l1 -> P y = false) -> P x = true -> find P (l1 ++ x :: l2) = Some x.
  Proof. intros N X. induction l1 as [|a l1 IH]; cbn; [rewrite X; auto|]. rewrite N by (left; auto). apply IH. intros; apply N; right; auto. Qed.

  Lemma draw_patch_total c m e A o B ls x0 x1 fp a b d : wf m -> hole (abs m) (e :: A ++ o :: B) -> sole (abs m) e -> sole (abs m) o ->
    target (abs m) e <> target (abs m) o ->
    (ls = [] -> dbg c = true -> forall x, ~ leads (abs m) x (target (abs m) e) (target (abs m) o)) ->
    fits c m (2 * S (length ls) + a) (length ls + b) (S d) ->
    exists m' b' f es vs, draw_patch dE c m e ls (target (abs m) o) x0 x1 fp = Ok (m', b', Some f) /\ wf m' /\ fits c m' a b d /\
      patch_built (abs m) (abs m') e A o B es vs f (map l_end ls) (map l_there ls ++ [x0]) (map l_back ls ++ [x1]) fp /\
      p_closed b' = true /\ p_face b' = true.
  Proof.
    intros Wm H Se So NT ND F.
    destruct (draw_across x0 x1 Wm H Se So NT (proj1 Se) eq_refl ND F)
      as (m1 & b1 & m2 & b2 & es & vs & e1 & e2 & E1 & E2 & Wm2 & F2 & K1 & (ps & K2) & K3 & T & G & LT & VP1 & P0 & P1 & HA & HB & FC).
    destruct (wf_abs Wm2) as [R2 W2]. set (q := es ++ [e1]) in *.
    assert (H2 : hole (abs m2) (e :: (es ++ [e1]) ++ B)).
    { rewrite <- app_assoc. apply (@hole_rot _ _ _ _ (e1 :: B) (e :: es)). cbn [app]. exact HA. }
    destruct (do_chole fp Wm2 F2 H2) as (m3 & f & E3 & _ & Wm3 & F3 & G3 & FI).
    assert (Le1 : lv (abs m2) e1 = true) by (apply (hole_live HA); left; auto).
    assert (EF : edges_face m2 e1 = Ok (e1 :: B ++ e :: es)) by (apply (edges_face_ok R2 W2); [apply HA|auto]).
    assert (Ie2 : ~ In e2 (e1 :: B ++ e :: es)).
    { intros I. assert (I' : In e2 (rev (map (tw (abs m2)) q) ++ A ++ [o])).
      { unfold q. rewrite map_app, rev_app_distr. cbn [map rev app]. left; auto. }
      pose proof (cycle_same (proj2 (proj1 HA)) (proj2 (proj1 HB)) I I') as LM.
      assert (I1 : In e1 (rev (map (tw (abs m2)) q) ++ A ++ [o])) by (apply LM; left; auto).
      destruct (gr_e G) as (NDU & NDN & _). apply nd_app_inv in NDU as (_ & _ & DJ).
      rewrite !in_app_iff, <- in_rev in I1. assert (Iq : In e1 q) by (unfold q; apply in_app_iff; right; left; auto).
      destruct I1 as [I1|I1]; [apply (DJ e1); auto|].
      assert (L0 : lv (abs m) e1 = true).
      { apply (hole_live H). right. rewrite in_app_iff. cbn [In] in I1 |- *. tauto. }
      rewrite (NDN e1) in L0; [discriminate|apply in_app_iff; auto]. }
    assert (E4 : p_close dE c m2 b2 fp = Ok (m3, mkPB true true (p_sv b2) (p_cv b2) (p_se b2) (p_ce b2), Some f)).
    { unfold p_close. rewrite K1, K2, K3, EF. cbn [bind].
      assert (FD : find (fun x => (x =? e2) || (x =? e)) (e1 :: B ++ e :: es) = Some e).
      { rewrite app_comm_cons. apply find_first; [|rewrite Nat.eqb_refl; apply orb_true_r].
        intros y I. apply orb_false_iff. split; apply Nat.eqb_neq; intros ->.
        - apply Ie2. rewrite app_comm_cons. apply in_app_iff; auto.
        - pose proof (hole_nodup HA) as Z. rewrite app_comm_cons in Z. apply nd_app_inv in Z as (_ & _ & Z). apply (Z e); auto. left; auto. }
      rewrite FD. cbn [unwrap bind].
      assert (N : e <> e2) by (intros ->; apply Ie2; right; apply in_app_iff; right; left; auto).
      rewrite (proj2 (Nat.eqb_neq _ _) N). cbn [bind]. rewrite E3. cbn [bind]. auto. }
    exists m3, (mkPB true true (p_sv b2) (p_cv b2) (p_se b2) (p_ce b2)), f, q, vs.
    split. { unfold draw_patch. rewrite E1. cbn [bind]. rewrite E2. cbn [bind]. exact E4. }
    split; auto. split; auto. split; [|split; auto].
    assert (LQ : forall x, In x q -> lv (abs m2) x = true) by (intros x I; eapply lt_live; [exact LT|auto]).
    assert (FE : fe (abs m3) f = e).
    { destruct (spec_close_hole Wm2 (or_intror (proj2 H2 e (or_introl eq_refl))) E3) as (_ & _ & _ & FA). apply (fa_face FA). }
    split; auto.
    - rewrite (map_tw_grown G3 LQ).
      assert (GT : grown (abs m) (abs m3) (e :: A ++ o :: B) ((q ++ map (tw (abs m2)) q) ++ []) (vs ++ []) ([] ++ [f])).
      { apply (grown_trans G G3). intros x I. cbn [In] in I. rewrite in_app_iff in I. destruct I as [I|[I|I]]; [left; left; auto| |left; right; apply in_app_iff; right; right; auto].
        right. apply (gr_new_e G). apply in_app_iff; auto. }
      rewrite !app_nil_r in GT. exact GT.
    - eapply lt_grown; [exact W2|exact G3|exact LT].
    - rewrite (map_vp_grown G3); auto. intros x I. apply (gr_new_v G I).
    - unfold pays. rewrite <- P0. apply map_ext_in. intros x I. apply (gr_old_e G3). auto.
    - rewrite (map_tw_grown G3 LQ). unfold pays. rewrite <- P1. apply map_ext_in. intros x I. apply (gr_old_e G3).
      apply in_map_iff in I as (z & <- & I). apply (wf_tw W2). auto.
    - rewrite (map_tw_grown G3 LQ). apply (gr_hole G3 HB). intros x I J.
      apply Ie2. assert (X : forall z, In z (rev (map (tw (abs m2)) q) ++ A ++ [o]) -> In z (e :: q ++ B)).
      { intros z. apply (cycle_same (proj2 (proj1 HB)) (proj2 (proj1 H2)) I J). }
      assert (I' : In e2 (rev (map (tw (abs m2)) q) ++ A ++ [o])).
      { unfold q. rewrite map_app, rev_app_distr. cbn [map rev app]. left; auto. }
      apply X in I'. unfold q in I'. cbn [In] in I' |- *. rewrite !in_app_iff in *. cbn [In] in *. tauto.
  Qed.

  (** Starting at a half-edge that belongs to a face: the line is drawn, but [close] panics. *)
  Lemma patch_inside_panics c m s e A o B ls x0 x1 fp a b d : wf m -> hole (abs m) (e :: A ++ o :: B) -> sole (abs m) e -> sole (abs m) o ->
    target (abs m) e <> target (abs m) o -> lv (abs m) s = true -> target (abs m) s = target (abs m) e -> fc (abs m) s <> None ->
    (ls = [] -> dbg c = true -> forall x, ~ leads (abs m) x (target (abs m) e) (target (abs m) o)) ->
    fits c m (2 * S (length ls) + a) (length ls + b) d ->
    draw_patch dE c m s ls (target (abs m) o) x0 x1 fp = Panic.
  Proof.
    intros Wm H Se So NT Ls TS FS ND F.
    destruct (draw_across x0 x1 Wm H Se So NT Ls TS ND F)
      as (m1 & b1 & m2 & b2 & es & vs & e1 & e2 & E1 & E2 & Wm2 & F2 & K1 & (ps & K2) & K3 & T & G & LT & VP1 & P0 & P1 & HA & HB & FC).
    destruct (wf_abs Wm2) as [R2 W2]. set (q := es ++ [e1]) in *.
    unfold draw_patch. rewrite E1. cbn [bind]. rewrite E2. cbn [bind]. unfold p_close. rewrite K1, K2, K3.
    assert (Le1 : lv (abs m2) e1 = true) by (apply (hole_live HA); left; auto).
    rewrite (edges_face_ok R2 W2 (proj2 (proj1 HA)) Le1). cbn [bind].
    assert (Ie2 : ~ In e2 (e1 :: B ++ e :: es)).
    { intros I. assert (I' : In e2 (rev (map (tw (abs m2)) q) ++ A ++ [o])).
      { unfold q. rewrite map_app, rev_app_distr. cbn [map rev app]. left; auto. }
      pose proof (cycle_same (proj2 (proj1 HA)) (proj2 (proj1 HB)) I I') as LM.
      assert (I1 : In e1 (rev (map (tw (abs m2)) q) ++ A ++ [o])) by (apply LM; left; auto).
      destruct (gr_e G) as (NDU & NDN & _). apply nd_app_inv in NDU as (_ & _ & DJ).
      rewrite !in_app_iff, <- in_rev in I1. assert (Iq : In e1 q) by (unfold q; apply in_app_iff; right; left; auto).
      destruct I1 as [I1|I1]; [apply (DJ e1); auto|].
      assert (L0 : lv (abs m) e1 = true).
      { apply (hole_live H). right. rewrite in_app_iff. cbn [In] in I1 |- *. tauto. }
      rewrite (NDN e1) in L0; [discriminate|apply in_app_iff; auto]. }
    destruct (find (fun x => (x =? e2) || (x =? s)) (e1 :: B ++ e :: es)) as [z|] eqn:FD; [|reflexivity].
    exfalso. apply find_some in FD as [I Q]. apply orb_true_iff in Q as [Q|Q]; apply Nat.eqb_eq in Q; subst z; [tauto|].
    apply FS. rewrite <- (FC _ Ls). apply (proj2 HA). auto.
  Qed.

  (** Closing without coming back panics as well. *)
  Lemma trail_close_panics c m e A ls fp a b d : wf m -> hole (abs m) (e :: A) -> sole (abs m) e -> ls <> [] ->
    fits c m (2 * length ls + a) (length ls + b) d ->
    (let* (m1, b1) := draw_from c m e ls in p_close dE c m1 b1 fp) = Panic.
  Proof.
    intros Wm H S NE F. destruct (draw_from_ok Wm H S (proj1 S) eq_refl F) as (m' & b' & es & vs & E & F' & N1 & _ & D & K).
    rewrite E. cbn [bind]. specialize (N1 NE). destruct (exists_last N1) as (p & i & ->).
    destruct K as (K1 & K2 & K3 & K4 & (ps & K5) & ci & co & K6 & K7). destruct (K7 N1) as [-> ->]. rewrite last_last in *.
    pose proof (wf_abs (tr_wf D)) as [R W]. pose proof (tb_hole (tr_trail D)) as H1.
    rewrite map_app, rev_app_distr in H1. cbn [map rev app] in H1. rewrite <- app_assoc, app_comm_cons in H1. apply hole_rot in H1. cbn [app] in H1.
    assert (Li : lv (abs m') i = true) by (apply (hole_live H1); left; auto).
    unfold p_close. rewrite K1, K5, K6. rewrite (edges_face_ok R W (proj2 (proj1 H1)) Li). cbn [bind find].
    assert (N2 : i <> tw (abs m') i) by (apply not_eq_sym, (wf_twne W); auto).
    assert (N3 : i <> e).
    { intros ->. pose proof (hole_nodup H1) as Z. apply NoDup_cons_iff in Z as [Z _]. apply Z. cbn [In]. rewrite ?in_app_iff. cbn [In]. rewrite ?in_app_iff. cbn [In]. tauto. }
    rewrite (proj2 (Nat.eqb_neq _ _) N2), (proj2 (Nat.eqb_neq _ _) N3). cbn [orb].
    rewrite Nat.eqb_refl. cbn [orb unwrap bind]. rewrite Nat.eqb_refl, K3. cbn [unwrap bind].
    unfold p_line_to. cbn. auto.
  Qed.

  (** Closing at once fills the boundary loop. *)
  Lemma close_at_once c m e A fp a b d : wf m -> hole (abs m) (e :: A) -> A <> [] -> fits c m a b (S d) ->
    exists m' b' f, (let* (m1, b1) := draw_from c m e [] in p_close dE c m1 b1 fp) = Ok (m', b', Some f) /\ wf m' /\ fits c m' a b d /\
      grown (abs m) (abs m') (e :: A) [] [] [f] /\ face_is (abs m') f (e :: A) fp false.
  Proof.
    intros Wm H NA F. assert (L : lv (abs m) e = true) by (apply (hole_live H); left; auto).
    destruct (wf_abs Wm) as [R W]. destruct (do_chole fp Wm F H) as (m3 & f & E3 & _ & Wm3 & F3 & G3 & FI).
    exists m3, (mkPB true true (Some (target (abs m) e)) (Some (target (abs m) e)) (Some (e, pv (abs m) e)) (Some (e, pv (abs m) e))), f. split; [|auto].
    unfold draw_from, p_start_at_edge. rewrite (r_prev_id R), L. cbn [bind]. rewrite (target_step R W L). cbn [bind foldM].
    unfold p_close. cbn [p_closed p_ce p_se p_sv]. rewrite (edges_face_ok R W (proj2 (proj1 H)) L). cbn [bind find].
    rewrite Nat.eqb_refl, orb_true_r. cbn [unwrap bind].
    assert (N : e <> pv (abs m) e).
    { intros Q. assert (Q2 : nx (abs m) e = e) by (rewrite Q at 1; apply (wf_nxpv W); auto).
      destruct A as [|a0 A]; [congruence|].
      pose proof (hole_nodup H) as ND. apply NoDup_cons_iff in ND as [ND _]. apply ND. left.
      rewrite <- Q2. symmetry. apply (cycle_next (l1 := []) (proj2 (proj1 H))). }
    rewrite (proj2 (Nat.eqb_neq _ _) N). cbn [bind]. rewrite E3. reflexivity.
  Qed.

  Lemma start_at_stored m v e : wf m -> lvv (abs m) v = true -> ve (abs m) v = Some e ->
    p_start_at m v = p_start_at_edge m (pv (abs m) e) /\ lv (abs m) (pv (abs m) e) = true /\ target (abs m) (pv (abs m) e) = v.
  Proof.
    intros Wm Lv Q. destruct (wf_abs Wm) as [R W]. destruct (wf_ve W _ Lv Q) as [Le O].
    assert (Lp := wf_pv W _ Le). split; [|split; auto].
    - unfold p_start_at. rewrite (r_vedge R), Lv, Q, Le. cbn [bind]. rewrite (r_prev_id R), Le. reflexivity.
    - unfold target. rewrite <- (wf_ognx W _ Lp), (wf_nxpv W _ Le). auto.
  Qed.
  Lemma patch_at c m v e ls w x0 x1 fp : wf m -> lvv (abs m) v = true -> ve (abs m) v = Some e ->
    draw_patch_at dE c m v ls w x0 x1 fp = draw_patch dE c m (pv (abs m) e) ls w x0 x1 fp.
  Proof.
    intros Wm Lv Q. destruct (start_at_stored Wm Lv Q) as [E _]. unfold draw_patch_at, draw_patch, draw_from. rewrite E.
    destruct (p_start_at_edge m (pv (abs m) e)) as [b0| |]; reflexivity.
  Qed.

  Lemma start_at_boundary c m v e0 e A o B ls x0 x1 fp a b d : wf m -> ve (abs m) v = Some e0 -> fc (abs m) e0 = None -> target (abs m) e = v ->
    hole (abs m) (e :: A ++ o :: B) -> sole (abs m) e -> sole (abs m) o -> v <> target (abs m) o ->
    (ls = [] -> dbg c = true -> forall x, ~ leads (abs m) x v (target (abs m) o)) ->
    fits c m (2 * S (length ls) + a) (length ls + b) (S d) ->
    exists m' b' f es vs, draw_patch_at dE c m v ls (target (abs m) o) x0 x1 fp = Ok (m', b', Some f) /\ wf m' /\ fits c m' a b d /\
      patch_built (abs m) (abs m') e A o B es vs f (map l_end ls) (map l_there ls ++ [x0]) (map l_back ls ++ [x1]) fp.
  Proof.
    intros Wm Q FC TE H Se So NT ND F. subst v. pose proof (wfW Wm) as W.
    assert (Lv : lvv (abs m) (target (abs m) e) = true) by (apply (wf_og W), (wf_tw W), Se).
    destruct (start_at_stored Wm Lv Q) as (_ & Lp & Tp). rewrite (patch_at c ls _ x0 x1 fp Wm Lv Q).
    assert (EP' : pv (abs m) e0 = e).
    { apply Se; auto. rewrite <- FC. rewrite <- (wf_fcnx W _ Lp), (wf_nxpv W); auto. apply (wf_ve W _ Lv Q). }
    rewrite EP'. destruct (draw_patch_total x0 x1 fp Wm H Se So NT ND F) as (m' & b' & f & es & vs & E & X1 & X2 & X3 & _).
    exists m', b', f, es, vs. auto.
  Qed.
  Lemma start_at_face_panics c m v e0 e A o B ls x0 x1 fp a b d : wf m -> ve (abs m) v = Some e0 -> fc (abs m) e0 <> None -> target (abs m) e = v ->
    hole (abs m) (e :: A ++ o :: B) -> sole (abs m) e -> sole (abs m) o -> v <> target (abs m) o ->
    (ls = [] -> dbg c = true -> forall x, ~ leads (abs m) x v (target (abs m) o)) ->
    fits c m (2 * S (length ls) + a) (length ls + b) d ->
    draw_patch_at dE c m v ls (target (abs m) o) x0 x1 fp = Panic.
  Proof.
    intros Wm Q FC TE H Se So NT ND F. subst v. pose proof (wfW Wm) as W.
    assert (Lv : lvv (abs m) (target (abs m) e) = true) by (apply (wf_og W), (wf_tw W), Se).
    destruct (start_at_stored Wm Lv Q) as (_ & Lp & Tp). rewrite (patch_at c ls _ x0 x1 fp Wm Lv Q).
    apply patch_inside_panics with e A B a b d; auto.
    intros FN. apply FC. rewrite <- FN, <- (wf_fcnx W _ Lp), (wf_nxpv W); auto. apply (wf_ve W _ Lv Q).
  Qed.

  (** deciding [sole] and [hole] for concrete meshes *)
  Definition soleb m e : bool := lv (abs m) e && is_none (fc (abs m) e) &&
    all_below (length (slots (edges m))) (fun x => negb (lv (abs m) x) || negb (is_none (fc (abs m) x)) || negb (target (abs m) x =? target (abs m) e) || (x =? e)).
  Lemma soleb_ok m e : soleb m e = true -> sole (abs m) e.
  Proof.
    unfold soleb. rewrite !andb_true_iff. intros [[L F] B]. split; auto. split; [destruct (fc (abs m) e); [discriminate|auto]|].
    intros x Lx Fx Q. pose proof (all_below_ok B (has_lt Lx)) as Z. cbv beta in Z. rewrite Lx, Fx, Q, Nat.eqb_refl in Z. cbn in Z.
    apply Nat.eqb_eq. auto.
  Qed.
  Lemma holeb_ok m l : loopb (abs m) l && forallb (fun x => is_none (fc (abs m) x)) l = true -> hole (abs m) l.
  Proof.
    rewrite andb_true_iff, forallb_forall. intros [A B]. split; [apply loopb_ok; auto|].
    intros x I. specialize (B x I). destruct (fc (abs m) x); [discriminate|auto].
  Qed.
End Patch.
