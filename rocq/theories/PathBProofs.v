(** Paths drawn by the path builder, and the import of SVG paths. *)
From Coq Require Import List Arith Lia Bool Permutation.
From Verif Require Import Base DVec DVecFacts Mesh Spec Rep Splice Cycle Traverse Room Ops MeshSpec MeshProofs
  MeshMore MeshTotal MeshFacts NetProofs BuildSpec Solid BuildStep PathProofs PathBuilder PathBSpec.
Import ListNotations.
Set Implicit Arguments.
Unset Strict Implicit.

Local Arguments abs : simpl never.
Section PathB.
  Context {VP EP FP : Type}.
  Notation graph := (graph VP EP FP).
  Notation mesh := (mesh VP EP FP).
  Implicit Types (g : graph) (m : mesh).
  Variable (dE : EP) (dF : FP).

  (** * changing the payload of one half-edge *)
  Definition gw_pay e y g : graph := mkG (lv g) (nx g) (pv g) (tw g) (og g) (fc g) (fu (ep g) e (Some y)) (lvv g) (ve g) (vp g) (lvf g) (fe g) (fp g).

  Record repaid g g' e (y : EP) : Prop := {
    rp_lv : forall x, lv g' x = lv g x;
    rp_e : forall x, lv g x = true -> nx g' x = nx g x /\ tw g' x = tw g x /\ og g' x = og g x /\ fc g' x = fc g x;
    rp_old : forall x, lv g x = true -> x <> e -> ep g' x = ep g x;
    rp_new : ep g' e = Some y;
    rp_v : forall x, keep_vertex g g' x;
    rp_f : forall x, keep_face g g' x
  }.

  Definition setpay (k : EP -> EP) (x : edge EP) : edge EP :=
    mkE (e_next x) (e_twin x) (e_prev x) (e_origin x) (e_face x) (k (e_pay x)).

  Lemma do_pay c m e k y a b d : wf m -> fits c m a b d -> lv (abs m) e = true -> ep (abs m) e = Some y ->
    exists m', upd_edge m e (setpay k) = Ok m' /\ wf m' /\ fits c m' a b d /\ repaid (abs m) (abs m') e (k y).
  Proof.
    intros Wm F L Y. destruct (wf_abs Wm) as [R W]. apply fits_room in F; auto.
    destruct (f_upd_edge (setpay k) R L F) as (m' & E & RM). exists m'. split; auto.
    assert (R' : rep m' [] [] [] (gw_pay e (k y) (abs m))).
    { destruct (upd_edge_look R E) as (L0 & OK & EV & EF & x & LX & LL).
      assert (Q := r_e R e). rewrite LX in Q. destruct Q as (_ & Q1 & Q2 & Q3 & Q4 & Q5 & Q6).
      split; auto; try (rewrite ?EV, ?EF; apply R).
      - intros i. rewrite LL. pose proof (r_e R i) as P. cbn -[Nat.eqb]. unfold fu.
        destruct (Nat.eqb_spec i e) as [->|N]; [|exact P]. rewrite Y in Q6. injection Q6 as ->. cbn. auto 10.
      - intros i. rewrite EV. exact (r_v R i).
      - intros i. rewrite EF. exact (r_f R i). }
    assert (W' : WF (gw_pay e (k y) (abs m))) by (destruct W; split; auto).
    destruct (rep_wf R' W') as [Wm' Q]. split; auto. split; [apply fits_room; auto|].
    split.
    - intros x. symmetry. apply (q_lv Q).
    - intros x Lx. rewrite <- (q_nx Q), <- (q_tw Q), <- (q_og Q), <- (q_fc Q); auto.
    - intros x Lx N. rewrite <- (q_ep Q); auto. cbn -[Nat.eqb]. unfold fu. rewrite (proj2 (Nat.eqb_neq _ _) N). auto.
    - rewrite <- (q_ep Q); auto. cbn -[Nat.eqb]. unfold fu. rewrite Nat.eqb_refl. auto.
    - intros v. split; [symmetry; apply (q_lvv Q)|]. intros Lv. rewrite <- (q_ve Q), <- (q_vp Q); auto.
    - intros f. split; [symmetry; apply (q_lvf Q)|]. intros Lf. rewrite <- (q_fe Q), <- (q_fp Q); auto.
  Qed.

  Lemma rp_loop g g' e y l : repaid g g' e y -> loop g l -> loop g' l.
  Proof.
    intros P [L C]. split; [intros x I; rewrite (rp_lv P); auto|].
    eapply cycle_ext; [|exact C]. intros x I. symmetry. apply (rp_e P). auto.
  Qed.
  Lemma rp_hole g g' e y l : repaid g g' e y -> hole g l -> hole g' l.
  Proof.
    intros P [L C]. split; [eapply rp_loop; eauto|]. intros x I. rewrite <- (C x I). apply (rp_e P). apply L; auto.
  Qed.
  Lemma rp_grown g0 g g' e y L E V F : repaid g g' e y -> lv g0 e = false -> grown g0 g L E V F -> grown g0 g' L E V F.
  Proof.
    intros P N G. split.
    - destruct (gr_e G) as (A & B & C). split; auto. split; auto. intros x. rewrite (rp_lv P). auto.
    - destruct (gr_v G) as (A & B & C). split; auto. split; auto. intros x. rewrite (proj1 (rp_v P x)). auto.
    - destruct (gr_f G) as (A & B & C). split; auto. split; auto. intros x. rewrite (proj1 (rp_f P x)). auto.
    - intros x Lx. destruct (gr_old_e G Lx) as (<- & <- & <-). assert (Lg := gr_live_e G Lx).
      destruct (rp_e P Lg) as (_ & -> & -> & _). rewrite (rp_old P Lg); auto. congruence.
    - intros x Lx. destruct (gr_old_v G Lx) as (<- & <-). apply (rp_v P). apply (gr_live_v G Lx).
    - intros x Lx. destruct (gr_old_f G Lx) as (<- & <-). apply (rp_f P). apply (gr_live_f G Lx).
    - intros l Hl D. destruct (gr_loops G Hl D) as [A B]. split; [eapply rp_loop; eauto|].
      intros x I. rewrite <- (B x I). apply (rp_e P). apply A; auto.
  Qed.
  Lemma rp_tw g g' e y x : repaid g g' e y -> lv g x = true -> tw g' x = tw g x.
  Proof. intros P L. apply (rp_e P L). Qed.
  Lemma rp_og g g' e y x : repaid g g' e y -> lv g x = true -> og g' x = og g x.
  Proof. intros P L. apply (rp_e P L). Qed.
  Lemma rp_map_tw g g' e y l : repaid g g' e y -> (forall x, In x l -> lv g x = true) -> map (tw g') l = map (tw g) l.
  Proof. intros P H. apply map_ext_in. intros x I. apply (rp_tw P); auto. Qed.
  Lemma rp_leads g g' e y x v w : WF g -> repaid g g' e y -> leads g x v w -> leads g' x v w.
  Proof.
    intros W P (A & B & C). split; [rewrite (rp_lv P); auto|]. unfold target in *.
    rewrite (rp_tw P A), (rp_og P A), (rp_og P (wf_tw W _ A)). auto.
  Qed.
  Lemma rp_lt g g' e y es vs : WF g -> repaid g g' e y -> leads_through g es vs -> leads_through g' es vs.
  Proof.
    intros W P. revert vs. induction es as [|x es IH]; intros vs H; destruct vs as [|v vs]; cbn in *; auto.
    destruct vs as [|w vs]; auto. destruct H as [H1 H2]. split; [eapply rp_leads; eauto|]. apply IH; auto.
  Qed.
  Lemma rp_pays g g' e y l ps : repaid g g' e y -> (forall x, In x l -> lv g x = true) -> ~ In e l -> pays g l ps -> pays g' l ps.
  Proof.
    intros P H N Q. unfold pays in *. rewrite <- Q. apply map_ext_in. intros x I. apply (rp_old P); auto. congruence.
  Qed.

  (** * vertices with a single half-edge *)
  Definition only g v e : Prop := lv g e = true /\ og g e = v /\ forall x, lv g x = true -> og g x = v -> x = e.

  Lemma only_pair g g' L e1 e2 V F v e : WF g -> grown g g' L [e1; e2] V F -> only g v e ->
    og g' e1 <> v -> og g' e2 <> v -> only g' v e.
  Proof.
    intros W G (A & B & C) N1 N2. split; [eapply gr_live_e; eauto|]. split; [rewrite (gr_og G A); auto|].
    intros x Lx O. apply (gr_e G) in Lx as [Lx|[<-|[<-|[]]]]; try tauto. apply C; auto. rewrite <- O. symmetry. apply (gr_og G Lx).
  Qed.
  Lemma only_repaid g g' e y v x : repaid g g' e y -> only g v x -> only g' v x.
  Proof.
    intros P (A & B & C). split; [rewrite (rp_lv P); auto|]. split; [rewrite (rp_og P A); auto|].
    intros z Lz O. rewrite (rp_lv P) in Lz. apply C; auto. rewrite <- O. symmetry. apply (rp_og P Lz).
  Qed.
  Lemma only_attach g v e : WF g -> only g v e -> fc g e = None -> attachable g v.
  Proof.
    intros W (A & B & C) F. split; [rewrite <- B; apply (wf_og W); auto|]. right. exists e. do 3 (split; auto).
  Qed.

  (** * one line to a new vertex *)
  Record lined m m' i t v w e1 e2 (y : VP) (x0 x1 : EP) : Prop := {
    ln_wf : wf m';
    ln_grown : grown (abs m) (abs m') (i :: t) [e1; e2] [w] [];
    ln_hole : hole (abs m') (i :: e1 :: e2 :: t);
    ln_tw : tw (abs m') e1 = e2 /\ tw (abs m') e2 = e1;
    ln_og : og (abs m') e1 = v /\ og (abs m') e2 = w;
    ln_vp : vp (abs m') w = Some y;
    ln_ep : ep (abs m') e1 = Some x0 /\ ep (abs m') e2 = Some x1;
    ln_only : only (abs m') w e2
  }.

  Lemma do_line c m i t v y x0 x1 a b d : wf m -> fits c m (2 + a) (S b) d -> hole (abs m) (i :: t) ->
    only (abs m) v (tw (abs m) i) ->
    exists m1 w m2 e1 e2, add_vertex c m y = Ok (m1, w) /\ insert_edge_between c m1 v x0 w x1 = Ok (m2, e1, e2) /\
      fits c m2 a b d /\ lined m m2 i t v w e1 e2 y x0 x1.
  Proof.
    intros Wm F H O. pose proof (wfW Wm) as W.
    assert (Li : lv (abs m) i = true) by (apply (hole_live H); left; auto).
    assert (Lv : lvv (abs m) v = true) by (destruct O as (A & B & _); rewrite <- B; apply (wf_og W); auto).
    destruct (t_add_vertex y Wm F) as (m1 & w & E1 & F1).
    destruct (spec_add_vertex Wm E1) as (Wm1 & N0 & N1 & N2 & N3 & KV & KE & KF & KL).
    pose proof (wfW Wm1) as W1.
    assert (VW : v <> w) by congruence.
    assert (E : forall x, lv (abs m) x = true -> lv (abs m1) x = true /\ tw (abs m1) x = tw (abs m) x /\
      og (abs m1) x = og (abs m) x /\ fc (abs m1) x = fc (abs m) x /\ ep (abs m1) x = ep (abs m) x).
    { intros x Lx. destruct (KE x) as [[Q1 Q2] _]. rewrite Q1. destruct (Q2 Lx) as (? & ? & ? & ?). auto 10. }
    assert (EL : forall x, lv (abs m1) x = lv (abs m) x) by (intros x; apply (KE x)).
    assert (H1 : hole (abs m1) (i :: t)).
    { destruct H as [Ha Hb]. split; [auto|]. intros x I. rewrite <- (Hb x I). apply E. apply Ha; auto. }
    assert (O1 : only (abs m1) v (tw (abs m) i)).
    { destruct O as (A & B & C). split; [apply E; auto|]. split; [rewrite <- B; apply E; auto|].
      intros x Lx Ox. rewrite EL in Lx. apply C; auto. rewrite <- Ox. symmetry. apply E; auto. }
    assert (NW : forall x, lv (abs m1) x = true -> og (abs m1) x <> w).
    { intros x Lx Q. destruct (wf_wheel W1 _ Lx) as (e0 & Q1 & _). congruence. }
    assert (Ft : fc (abs m1) (tw (abs m1) i) = None \/ True) by auto. clear Ft.
    assert (Nx : nx (abs m1) i = tw (abs m) i).
    { apply O1; [apply (wf_nx W1); apply E; auto|]. rewrite (wf_ognx W1) by (apply E; auto). destruct (E i Li) as (Q1 & -> & _).
      apply O1. }
    assert (FN : fc (abs m1) (tw (abs m) i) = None).
    { rewrite <- Nx, (wf_fcnx W1) by (apply E; auto). apply H1. left; auto. }
    assert (AV : attachable (abs m1) v) by (eapply only_attach; eauto).
    assert (AW : attachable (abs m1) w) by (split; auto).
    destruct (t_insert_edge_between x0 x1 Wm1 F1 VW AV AW) as (m2 & e1 & e2 & E2 & F2).
    { intros _ x Lx [_ Q]. apply (NW (tw (abs m1) x)); auto. apply (wf_tw W1); auto. }
    destruct (spec_between_attachable Wm1 VW AV AW E2) as (Wm2 & ci & co & C).
    exists m1, w, m2, e1, e2. do 3 (split; auto).
    pose proof (cn_pair C) as P. destruct (np_fresh P) as (P1 & P2 & P3). destruct (np_live P) as [P4 P5].
    pose proof (np_twin P) as T. pose proof (np_origin P) as OG. pose proof (np_pay P) as PY.
    assert (co = None).
    { pose proof (cn_out C) as Q. destruct co as [o|]; auto. destruct Q as (Q1 & Q2 & _).
      exfalso. apply (NW (tw (abs m1) o)); auto. apply (wf_tw W1); auto. }
    subst co.
    assert (ci = Some i).
    { pose proof (cn_in C) as Q. destruct ci as [j|].
      - destruct Q as (Q1 & Q2 & _). f_equal. rewrite <- (wf_twtw W1 _ Q1), <- (wf_twtw W1 _ (proj1 (E i Li))). f_equal.
        transitivity (tw (abs m) i); [apply O1; auto; apply (wf_tw W1); auto|]. symmetry. apply E; auto.
      - exfalso. destruct (wf_wheel W1 _ (proj1 O1)) as (e0 & Q1 & _). rewrite (proj1 (proj2 O1)) in Q1. congruence. }
    subst ci. pose proof (cn_loop C) as CL. cbn in CL.
    split; auto.
    - split.
      + destruct (added_pair P) as (A1 & A2 & A3). split; auto. split; [intros x I; rewrite <- EL; auto|].
        intros x. rewrite A3, EL. tauto.
      + split; [constructor; [intros []|constructor]|]. split; [intros x [<-|[]]; auto|].
        intros x. rewrite (proj1 (cn_pay C x)). destruct (Nat.eq_dec x w) as [->|N]; [cbn; tauto|].
        rewrite (proj1 (KV x N)). cbn. split; [auto|intros [?|[?|[]]]; auto; congruence].
      + apply added_nil. intros f. rewrite (proj1 (cn_faces C f)). apply KF.
      + intros x Lx. destruct (E x Lx) as (L1 & <- & <- & _ & <-). destruct (pair_old P L1) as (? & ? & ? & ?). auto.
      + intros u Lu. assert (u <> w) by congruence. destruct (KV u H0) as [K1 K2]. destruct (K2 Lu) as [<- <-].
        rewrite Lu in K1. destruct (Nat.eq_dec u v) as [->|N]; [|apply (cn_vertices C); auto].
        split; [|apply (cn_pay C); auto]. rewrite (proj2 (cn_v C)).
        destruct (wf_wheel W1 _ (proj1 O1)) as (e0 & Q1 & _). rewrite (proj1 (proj2 O1)) in Q1. rewrite Q1. auto.
      + intros f Lf. destruct (KF f) as [K1 K2]. destruct (K2 Lf) as [<- <-]. apply (cn_faces C). congruence.
      + intros l Hl D. assert (Hl1 := KL _ Hl). split.
        * apply (cn_loops C Hl1); [|discriminate]. intros j Q I. injection Q as <-. apply (D i I). left; auto.
        * intros x I. assert (Lx : lv (abs m) x = true) by (apply Hl; auto). destruct (E x Lx) as (L1 & _ & _ & <- & _).
          apply (pair_old P L1).
    - destruct H1 as [Ha Hb]. split; [apply CL; auto|].
      intros x I. destruct (np_face P) as [Q1 Q2]. destruct I as [<-|[<-|[<-|I]]]; auto.
      + rewrite <- (Hb i (or_introl eq_refl)). apply (pair_old P). apply Ha; left; auto.
      + assert (J : In x (i :: t)) by (right; auto). rewrite <- (Hb x J). apply (pair_old P). apply Ha; auto.
    - rewrite (proj2 (cn_pay C w)); auto.
    - split; auto. split; [apply OG|]. intros x Lx Ox.
      destruct (Nat.eq_dec x e2) as [|D2]; auto. exfalso. destruct (Nat.eq_dec x e1) as [->|D1]; [destruct OG; congruence|].
      destruct (np_others P D1 D2) as [Q1 Q2]. rewrite Q1 in Lx. destruct (Q2 Lx) as (_ & Q & _).
      apply (NW x Lx). congruence.
  Qed.

  (** * paths *)
  Record drawn m0 m (es vs : list nat) (ys : list VP) (p0 p1 : list EP) : Prop := {
    dr_wf : wf m;
    dr_path : path_built (abs m0) (abs m) es vs ys;
    dr_pay0 : pays (abs m) es p0;
    dr_pay1 : pays (abs m) (map (tw (abs m)) es) p1;
    dr_first : only (abs m) (hd 0 vs) (hd 0 es);
    dr_last : only (abs m) (last vs 0) (tw (abs m) (last es 0))
  }.

  Lemma drawn_line m0 m m' p i t vs v ys y p0 p1 w e1 e2 x0 x1 : wf m0 ->
    drawn m0 m (p ++ [i]) (vs ++ [v]) ys p0 p1 -> vs <> [] -> t = rev (map (tw (abs m)) (p ++ [i])) ++ p ->
    lined m m' i t v w e1 e2 y x0 x1 ->
    drawn m0 m' ((p ++ [i]) ++ [e1]) ((vs ++ [v]) ++ [w]) (ys ++ [y]) (p0 ++ [x0]) (p1 ++ [x1]).
  Proof.
    intros W0 D NV Ht L. pose proof (ln_grown L) as G. pose proof (wfW (dr_wf D)) as W. pose proof (dr_path D) as B.
    destruct (ln_tw L) as [T1 T2]. destruct (ln_og L) as [O1 O2].
    assert (LP : forall e, In e (p ++ [i]) -> lv (abs m) e = true) by (intros e I; eapply lt_live; [apply (pb_leads B)|auto]).
    assert (LE1 : lv (abs m') e1 = true) by (apply (gr_new_e G); left; auto).
    assert (MT : map (tw (abs m')) ((p ++ [i]) ++ [e1]) = map (tw (abs m)) (p ++ [i]) ++ [e2]).
    { rewrite map_app. cbn [map]. rewrite T1, (map_tw_grown G LP). auto. }
    assert (HD : hd 0 ((p ++ [i]) ++ [e1]) = hd 0 (p ++ [i])) by (destruct p; auto).
    assert (HV : hd 0 ((vs ++ [v]) ++ [w]) = hd 0 (vs ++ [v])) by (destruct vs; auto).
    assert (LV0 : lvv (abs m) (hd 0 (vs ++ [v])) = true).
    { apply (gr_v (pb_grown B)). right. destruct vs; left; auto. }
    split; [apply L| |..].
    - split.
      + rewrite MT.
        assert (GT : grown (abs m0) (abs m') [] (((p ++ [i]) ++ map (tw (abs m)) (p ++ [i])) ++ [e1; e2]) ((vs ++ [v]) ++ [w]) ([] ++ [])).
        { apply (grown_trans (pb_grown B) G). intros x I. right. apply (gr_e (pb_grown B)).
          rewrite in_app_iff. assert (J : In x (p ++ [i]) \/ In x (map (tw (abs m)) (p ++ [i]))); [|auto].
          rewrite Ht in I. cbn [In] in I. rewrite in_app_iff, <- in_rev in I. rewrite in_app_iff. cbn [In]. tauto. }
        eapply grown_perm; [exact GT| |apply Permutation_refl|apply Permutation_refl].
        rewrite <- !app_assoc. apply Permutation_app_head. apply Permutation_app_head.
        change ([e1] ++ (map (tw (abs m)) (p ++ [i]) ++ [e2])) with (e1 :: (map (tw (abs m)) (p ++ [i]) ++ [e2])).
        symmetry. apply Permutation_middle.
      + apply lt_snoc; [eapply lt_grown; eauto; apply (pb_leads B)|]. split; auto. split; [auto|].
        unfold target. rewrite T1. auto.
      + rewrite (map_app _ (vs ++ [v])). cbn [map]. rewrite (ln_vp L), (map_vp_grown G).
        * rewrite (pb_pay B), map_app. auto.
        * intros x I. apply (gr_v (pb_grown B)). auto.
      + rewrite MT, rev_app_distr. cbn [rev app]. pose proof (ln_hole L) as H. rewrite Ht in H.
        rewrite <- !app_assoc. cbn [app].
        apply (@hole_rot _ _ _ _ (i :: e1 :: e2 :: rev (map (tw (abs m)) (p ++ [i]))) p).
        cbn [app]. exact H.
    - unfold pays. rewrite (map_app _ (p ++ [i])), (map_app _ p0). cbn [map]. rewrite (proj1 (ln_ep L)). f_equal.
      pose proof (dr_pay0 D) as Q. unfold pays in Q. rewrite <- Q. apply map_ext_in. intros x I. apply (gr_old_e G). auto.
    - unfold pays. rewrite MT, (map_app _ (map _ _)), (map_app _ p1). cbn [map]. rewrite (proj2 (ln_ep L)). f_equal.
      pose proof (dr_pay1 D) as Q. unfold pays in Q. rewrite <- Q. apply map_ext_in. intros x I.
      apply (gr_old_e G). apply in_map_iff in I as (z & <- & I). apply (wf_tw W). auto.
    - rewrite HD, HV. eapply only_pair; [exact W|exact G|apply D|..].
      + rewrite O1. intros Q. destruct (gr_v (pb_grown B)) as (ND & _). destruct vs as [|u vs]; [congruence|].
        cbn in Q. subst u. inversion ND; subst. apply H1. apply in_app_iff. right; left; auto.
      + rewrite O2. intros Q. assert (lvv (abs m) w = false) by (apply (gr_new_v G); left; auto). congruence.
    - rewrite !last_last. rewrite T1. apply L.
  Qed.

  Lemma do_first c m y0 y x0 x1 a b d : wf m -> fits c m (2 + a) (2 + b) d ->
    exists m1 v0 m2 w m3 e1 e2, add_vertex c m y0 = Ok (m1, v0) /\ ve (abs m1) v0 = None /\ lvv (abs m1) v0 = true /\ vp (abs m1) v0 = Some y0 /\ wf m1 /\
      add_vertex c m1 y = Ok (m2, w) /\ w <> v0 /\
      insert_edge_between c m2 v0 x0 w x1 = Ok (m3, e1, e2) /\ fits c m3 a b d /\ tw (abs m3) e1 = e2 /\
      drawn m m3 [e1] [v0; w] [y0; y] [x0] [x1].
  Proof.
    intros Wm F. pose proof (wfW Wm) as W.
    destruct (t_add_vertex y0 Wm F) as (m1 & v & E1 & F1).
    destruct (spec_add_vertex Wm E1) as (Wm1 & A0 & A1 & A2 & A3 & AV & AE & AF & AL).
    destruct (t_add_vertex y Wm1 F1) as (m2 & w & E2 & F2).
    destruct (spec_add_vertex Wm1 E2) as (Wm2 & B0 & B1 & B2 & B3 & BV & BE & BF & BL).
    pose proof (wfW Wm1) as W1. pose proof (wfW Wm2) as W2.
    assert (VW : v <> w) by congruence.
    destruct (BV v VW) as [V1 V2]. destruct (V2 A1) as [V3 V4].
    assert (NV : forall x, lv (abs m2) x = true -> og (abs m2) x <> v).
    { intros x Lx Q. destruct (wf_wheel W2 _ Lx) as (e0 & Q1 & _). congruence. }
    assert (NW : forall x, lv (abs m2) x = true -> og (abs m2) x <> w).
    { intros x Lx Q. destruct (wf_wheel W2 _ Lx) as (e0 & Q1 & _). congruence. }
    assert (TV : attachable (abs m2) v) by (split; [congruence|left; congruence]).
    assert (TW : attachable (abs m2) w) by (split; auto).
    destruct (t_insert_edge_between x0 x1 Wm2 F2 VW TV TW) as (m3 & e1 & e2 & E3 & F3).
    { intros _ x Lx [Q _]. apply (NV x); auto. }
    destruct (spec_between_attachable Wm2 VW TV TW E3) as (Wm3 & ci & co & C).
    pose proof (cn_pair C) as P. destruct (np_fresh P) as (P1 & P2 & P3). destruct (np_live P) as [P4 P5].
    destruct (np_twin P) as [T1 T2]. destruct (np_origin P) as [O1 O2]. destruct (np_pay P) as [Y1 Y2]. destruct (np_face P) as [C1 C2].
    exists m1, v, m2, w, m3, e1, e2. do 5 (split; auto). do 4 (split; auto). split; auto.
    assert (ci = None).
    { pose proof (cn_in C) as Q. destruct ci as [o|]; auto. destruct Q as (Q1 & Q2 & _).
      exfalso. apply (NV (tw (abs m2) o)); auto. apply (wf_tw W2); auto. }
    assert (co = None).
    { pose proof (cn_out C) as Q. destruct co as [o|]; auto. destruct Q as (Q1 & Q2 & _).
      exfalso. apply (NW (tw (abs m2) o)); auto. apply (wf_tw W2); auto. }
    subst ci co. pose proof (cn_loop C) as CL. cbn in CL.
    assert (EL : forall x, lv (abs m2) x = lv (abs m) x).
    { intros x. transitivity (lv (abs m1) x); [apply (BE x)|apply (AE x)]. }
    assert (E : forall x, lv (abs m) x = true -> tw (abs m2) x = tw (abs m) x /\
      og (abs m2) x = og (abs m) x /\ fc (abs m2) x = fc (abs m) x /\ ep (abs m2) x = ep (abs m) x).
    { intros x Lx. destruct (AE x) as [[Q1 Q2] _]. destruct (Q2 Lx) as (<- & <- & <- & <-). rewrite Lx in Q1.
      destruct (BE x) as [[_ Q3] _]. auto. }
    assert (ON : forall e u, In e [e1; e2] -> og (abs m3) e = u -> (forall z, In z [e1; e2] -> og (abs m3) z = u -> z = e) ->
      (forall x, lv (abs m2) x = true -> og (abs m2) x <> u) -> only (abs m3) u e).
    { intros e u I Q U K. split; [destruct I as [<-|[<-|[]]]; auto|]. split; auto. intros x Lx Ox.
      destruct (Nat.eq_dec x e1) as [->|D1]; [apply U; auto; left; auto|].
      destruct (Nat.eq_dec x e2) as [->|D2]; [apply U; auto; right; left; auto|]. exfalso.
      destruct (np_others P D1 D2) as [Q1 Q2]. rewrite Q1 in Lx. destruct (Q2 Lx) as (_ & Q3 & _). apply (K x Lx). congruence. }
    split; auto.
    - split.
      + cbn. rewrite T1. split.
        * destruct (added_pair P) as (D1 & D2 & D3). split; auto. split; [intros x I; rewrite <- EL; auto|].
          intros x. rewrite D3, EL. tauto.
        * split; [|split].
          -- constructor; [intros [Q|[]]; congruence|]. constructor; [intros []|constructor].
          -- intros x [<-|[<-|[]]]; auto. destruct (AV w (not_eq_sym VW)) as [Q _]. congruence.
          -- intros x. rewrite (proj1 (cn_pay C x)). cbn [In].
             destruct (Nat.eq_dec x w) as [->|N]; [tauto|]. rewrite (proj1 (BV x N)).
             destruct (Nat.eq_dec x v) as [->|N']; [tauto|]. rewrite (proj1 (AV x N')). firstorder congruence.
        * apply added_nil. intros f. rewrite (proj1 (cn_faces C f)), (proj1 (BF f)). apply AF.
        * intros x Lx. destruct (E x Lx) as (<- & <- & _ & <-). rewrite <- EL in Lx. destruct (pair_old P Lx) as (? & ? & ? & ?). auto.
        * intros u Lu. assert (Nu : u <> v) by congruence. destruct (AV u Nu) as [K1 K2]. destruct (K2 Lu) as [<- <-].
          rewrite Lu in K1. assert (Nw : u <> w) by congruence. destruct (BV u Nw) as [K3 K4]. destruct (K4 K1) as [<- <-].
          apply (cn_vertices C); auto. congruence.
        * intros f Lf. destruct (AF f) as [K1 K2]. destruct (K2 Lf) as [<- <-]. rewrite Lf in K1.
          destruct (BF f) as [K3 K4]. destruct (K4 K1) as [<- <-]. apply (cn_faces C). congruence.
        * intros l Hl D. assert (Hl1 := BL _ (AL _ Hl)). split.
          -- apply (cn_loops C Hl1); discriminate.
          -- intros x I. assert (Lx : lv (abs m) x = true) by (apply Hl; auto). destruct (E x Lx) as (_ & _ & <- & _).
             apply (pair_old P). rewrite EL. auto.
      + cbn. split; auto. unfold leads, target. rewrite T1. auto.
      + cbn. rewrite (proj2 (cn_pay C v)), (proj2 (cn_pay C w)), V4, A3, B3 by congruence. auto.
      + cbn. rewrite T1. split; auto. intros x [<-|[<-|[]]]; auto.
    - unfold pays. cbn. rewrite Y1. auto.
    - unfold pays. cbn. rewrite T1, Y2. auto.
    - cbn. apply ON; auto; [left; auto|]. intros z [<-|[<-|[]]] Q; auto. congruence.
    - cbn. rewrite T1. apply ON; auto; [right; left; auto|]. intros z [<-|[<-|[]]] Q; auto. congruence.
  Qed.

  (** * closing the ring *)
  Record rung m0 m (es vs : list nat) (ys : list VP) (p0 p1 : list EP) : Prop := {
    rg_wf : wf m;
    rg_ring : ring_built (abs m0) (abs m) es vs ys [];
    rg_pay0 : pays (abs m) es p0;
    rg_pay1 : pays (abs m) (map (tw (abs m)) es) p1;
    rg_in : hole (abs m) es;
    rg_out : hole (abs m) (rev (map (tw (abs m)) es))
  }.

  Lemma drawn_live m0 m es vs ys p0 p1 x : drawn m0 m es vs ys p0 p1 -> In x es -> lv (abs m) x = true.
  Proof. intros D I. eapply lt_live; [apply (pb_leads (dr_path D))|auto]. Qed.

  Lemma do_ring c m0 m f0 q fk vs ys p0 p1 x0 x1 a b d : wf m0 ->
    drawn m0 m (f0 :: q ++ [fk]) vs ys p0 p1 -> fits c m (2 + a) b d ->
    exists m' e1 e2, insert_edge_between c m (last vs 0) x0 (hd 0 vs) x1 = Ok (m', e1, e2) /\ fits c m' a b d /\
      tw (abs m') e1 = e2 /\ (forall x, lv (abs m) x = true -> tw (abs m') x = tw (abs m) x) /\ lv (abs m0) e1 = false /\
      rung m0 m' (f0 :: q ++ [fk; e1]) vs ys (p0 ++ [x0]) (p1 ++ [x1]).
  Proof.
    intros W0 D F. pose proof (dr_wf D) as Wm. pose proof (wfW Wm) as W. pose proof (dr_path D) as B.
    set (es := f0 :: q ++ [fk]) in *. assert (LE : forall x, In x es -> lv (abs m) x = true) by (intros x I; eapply drawn_live; eauto).
    assert (LL : last es 0 = fk) by (unfold es; rewrite app_comm_cons; apply last_last).
    pose proof (dr_first D) as OF. pose proof (dr_last D) as OL. rewrite LL in OL. cbn [hd es] in OF.
    assert (L0 : lv (abs m) f0 = true) by (apply LE; left; auto).
    assert (LK : lv (abs m) fk = true) by (apply LE; right; apply in_app_iff; right; left; auto).
    set (v := last vs 0) in *. set (u := hd 0 vs) in *.
    pose proof (lt_length (pb_leads B)) as LN.
    assert (ND : NoDup vs) by apply (gr_v (pb_grown B)).
    assert (LES : length es = S (S (length q))) by (unfold es; cbn; rewrite app_length; cbn; lia).
    assert (VU : v <> u).
    { unfold v, u. destruct vs as [|a0 vs]; [cbn in LN; lia|]. destruct (@exists_last _ vs) as (vs' & z & ->); [intros ->; cbn in LN; lia|].
      rewrite app_comm_cons, last_last. cbn. intros ->. apply NoDup_cons_iff in ND as [ND _]. apply ND. apply in_app_iff; right; left; auto. }
    set (t0 := tw (abs m) f0) in *.
    assert (H : hole (abs m) (fk :: rev (map (tw (abs m)) (q ++ [fk])) ++ t0 :: (f0 :: q))).
    { pose proof (pb_hole B) as H. unfold es in H. cbn [map rev] in H. fold t0 in H.
      rewrite app_comm_cons in H. rewrite <- app_assoc in H. apply hole_rot in H. cbn [app] in H.
      rewrite <- !app_assoc in H. cbn [app] in H. exact H. }
    assert (FK : fc (abs m) (tw (abs m) fk) = None).
    { apply H. right. apply in_app_iff. left. rewrite <- in_rev. apply in_map. apply in_app_iff. right; left; auto. }
    assert (FF : fc (abs m) f0 = None).
    { apply H. right. apply in_app_iff. right; right; left; auto. }
    assert (AV : attachable (abs m) v) by (eapply only_attach; eauto).
    assert (AU : attachable (abs m) u) by (eapply only_attach; eauto).
    destruct (t_insert_edge_between x0 x1 Wm F VU AV AU) as (m' & e1 & e2 & E & F').
    { intros _ x Lx [Q1 Q2]. assert (Q3 : x = tw (abs m) fk) by (apply OL; auto).
      assert (Q4 : tw (abs m) x = f0) by (apply OF; auto; apply (wf_tw W); auto).
      assert (Q5 : fk = f0) by (rewrite <- Q4, Q3, (wf_twtw W); auto).
      pose proof (hole_nodup H) as Z. apply NoDup_cons_iff in Z as [Z _]. apply Z. apply in_app_iff. right. right. left; auto. }
    destruct (spec_between_attachable Wm VU AV AU E) as (Wm' & ci & co & C).
    pose proof (cn_pair C) as P. destruct (np_fresh P) as (P1 & P2 & P3). destruct (np_live P) as [P4 P5].
    destruct (np_twin P) as [T1 T2]. destruct (np_origin P) as [O1 O2]. destruct (np_pay P) as [Y1 Y2]. destruct (np_face P) as [C1 C2].
    exists m', e1, e2. do 3 (split; auto).
    assert (OLD : forall x, lv (abs m) x = true -> tw (abs m') x = tw (abs m) x) by (intros x Lx; apply (pair_old P Lx)).
    split; auto.
    split. { destruct (lv (abs m0) e1) eqn:Q; auto. rewrite (gr_live_e (pb_grown B) Q) in P1. discriminate. }
    assert (ci = Some fk).
    { pose proof (cn_in C) as Q. destruct ci as [j|].
      - destruct Q as (Q1 & Q2 & _). f_equal. rewrite <- (wf_twtw W _ Q1), <- (wf_twtw W _ LK). f_equal.
        apply OL; auto. apply (wf_tw W); auto.
      - exfalso. destruct (wf_wheel W _ (proj1 OL)) as (e0 & Q1 & _). rewrite (proj1 (proj2 OL)) in Q1. congruence. }
    assert (co = Some t0).
    { pose proof (cn_out C) as Q. destruct co as [j|].
      - destruct Q as (Q1 & Q2 & _). f_equal. rewrite <- (wf_twtw W _ Q1). unfold t0. f_equal. apply OF; auto. apply (wf_tw W); auto.
      - exfalso. destruct (wf_wheel W _ (proj1 OF)) as (e0 & Q1 & _). rewrite (proj1 (proj2 OF)) in Q1. congruence. }
    subst ci co. pose proof (cn_loop C) as CL. cbn in CL. destruct CL as (_ & CL & _).
    destruct (CL _ _ (proj1 H)) as [CL1 CL2].
    assert (Lt0 : lv (abs m) t0 = true) by (apply (wf_tw W); auto).
    assert (G : grown (abs m) (abs m') (fk :: rev (map (tw (abs m)) (q ++ [fk])) ++ t0 :: f0 :: q) [e1; e2] [] []).
    { split.
      - apply (added_pair P).
      - apply added_nil. intros x. apply (cn_pay C).
      - apply added_nil. intros x. apply (cn_faces C).
      - intros x Lx. destruct (pair_old P Lx) as (? & ? & ? & ?). auto.
      - intros x Lx. split; [|apply (cn_pay C); auto].
        destruct (Nat.eq_dec x v) as [->|N1]; [|destruct (Nat.eq_dec x u) as [->|N2]; [|apply (cn_vertices C); auto]].
        + rewrite (proj2 (cn_v C)). destruct (wf_wheel W _ (proj1 OL)) as (e0 & Q1 & _). rewrite (proj1 (proj2 OL)) in Q1. rewrite Q1; auto.
        + rewrite (proj2 (cn_w C)). destruct (wf_wheel W _ (proj1 OF)) as (e0 & Q1 & _). rewrite (proj1 (proj2 OF)) in Q1. rewrite Q1; auto.
      - intros f Lf. apply (cn_faces C); auto.
      - intros l Hl Dj. split.
        + apply (cn_loops C Hl); intros j Q I; injection Q as <-; apply (Dj _ I); [left; auto|right; apply in_app_iff; right; left; auto].
        + intros x I. apply (pair_old P). apply Hl; auto. }
    assert (EE : f0 :: q ++ [fk; e1] = es ++ [e1]) by (unfold es; cbn; rewrite <- app_assoc; auto). rewrite EE.
    assert (MT : map (tw (abs m')) (es ++ [e1]) = map (tw (abs m)) es ++ [e2]).
    { rewrite map_app. cbn [map]. rewrite T1, (map_tw_grown G LE). auto. }
    assert (FN : forall x, In x (fk :: rev (map (tw (abs m)) (q ++ [fk])) ++ t0 :: f0 :: q) \/ x = e1 \/ x = e2 -> fc (abs m') x = None).
    { intros x [J|[->| ->]]; auto. rewrite <- (proj2 H x J). apply (pair_old P). apply H; auto. }
    split; auto.
    - split.
      + rewrite MT.
        assert (GT : grown (abs m0) (abs m') [] ((es ++ map (tw (abs m)) es) ++ [e1; e2]) (vs ++ []) ([] ++ [])).
        { apply (grown_trans (pb_grown B) G). intros x I. right. apply (gr_e (pb_grown B)).
          assert (J : In x es \/ In x (map (tw (abs m)) es)).
          { unfold es. cbn [map In] in *. rewrite !in_app_iff in *. rewrite <- in_rev in I. cbn [In] in *. fold t0. tauto. }
          apply in_app_iff; auto. }
        rewrite app_nil_r in GT.
        eapply grown_perm; [exact GT| |apply Permutation_refl|apply Permutation_refl].
        rewrite <- !app_assoc. apply Permutation_app_head.
        change ([e1] ++ map (tw (abs m)) es ++ [e2]) with (e1 :: (map (tw (abs m)) es ++ [e2])).
        symmetry. apply Permutation_middle.
      + assert (NV : vs <> []) by (intros ->; cbn in LN; lia).
        destruct (exists_last NV) as (vs' & z & Ez). assert (z = v) by (unfold v; rewrite Ez, last_last; auto). subst z.
        assert (Q : firstn 1 vs = [u]) by (unfold u; destruct vs; [congruence|auto]). rewrite Q, Ez.
        apply lt_snoc; [rewrite <- Ez; eapply lt_grown; [exact W|exact G|apply (pb_leads B)]|].
        split; auto. split; auto. unfold target. rewrite T1; auto.
      + rewrite (map_vp_grown G); [apply (pb_pay B)|]. intros x I. apply (gr_v (pb_grown B)). auto.
    - unfold pays. rewrite !map_app. cbn [map]. rewrite Y1. f_equal.
      pose proof (dr_pay0 D) as Q. unfold pays in Q. rewrite <- Q. apply map_ext_in. intros x I. apply (gr_old_e G). auto.
    - unfold pays. rewrite MT, !map_app. cbn [map]. rewrite Y2. f_equal.
      pose proof (dr_pay1 D) as Q. unfold pays in Q. rewrite <- Q. apply map_ext_in. intros x I.
      apply (gr_old_e G). apply in_map_iff in I as (z & <- & I). apply (wf_tw W). auto.
    - assert (Q : hole (abs m') ([fk; e1] ++ (f0 :: q))).
      { split; [exact CL1|]. intros x I. apply FN. cbn [app In] in *. rewrite in_app_iff. cbn [In]. intuition. }
      apply hole_rot in Q. unfold es. cbn [app] in *. rewrite <- app_assoc. exact Q.
    - rewrite MT, rev_app_distr. cbn [rev app]. unfold es. cbn [map rev]. fold t0.
      assert (Q : hole (abs m') ([t0] ++ e2 :: rev (map (tw (abs m)) (q ++ [fk])))).
      { split; [exact CL2|]. intros x I. apply FN. cbn [app In] in *. rewrite in_app_iff. cbn [In]. intuition. }
      apply hole_rot in Q. exact Q.
  Qed.

  Lemma rung_pay m0 m m' es e1 vs ys p0 x0 p1 y : wf m0 -> rung m0 m (es ++ [e1]) vs ys (p0 ++ [x0]) p1 -> length es = length p0 ->
    wf m' -> lv (abs m0) e1 = false ->
    repaid (abs m) (abs m') e1 y -> rung m0 m' (es ++ [e1]) vs ys (p0 ++ [y]) p1.
  Proof.
    intros W0 R LN Wm' L0 P. pose proof (wfW (rg_wf R)) as W.
    assert (LE : forall x, In x (es ++ [e1]) -> lv (abs m) x = true) by (intros x I; apply (hole_live (rg_in R) I)).
    pose proof (rg_ring R) as B.
    assert (ND := gr_e (rb_grown B)). destruct ND as (ND & _). apply nd_app_inv in ND as (ND1 & ND2 & ND3).
    assert (N1 : ~ In e1 es) by (apply nd_app_inv in ND1 as (_ & _ & K); intros I; apply (K e1 I); left; auto).
    split; auto.
    - split.
      + rewrite (rp_map_tw P LE). eapply rp_grown; eauto. apply B.
      + eapply rp_lt; eauto. apply B.
      + rewrite <- (rb_pay B). apply map_ext_in. intros x I. apply (rp_v P). apply (gr_new_v (rb_grown B) I).
    - pose proof (rg_pay0 R) as Q. unfold pays in *. rewrite !map_app in *. cbn [map] in *.
      apply app_inj_tail in Q as [Q _]. rewrite (rp_new P). f_equal. rewrite <- Q. apply map_ext_in. intros x I.
      apply (rp_old P); [apply LE, in_app_iff; auto|congruence].
    - rewrite (rp_map_tw P LE). eapply rp_pays; [exact P|..|apply R].
      + intros x I. apply in_map_iff in I as (z & <- & I). apply (wf_tw W). auto.
      + intros I. apply (ND3 e1); auto. apply in_app_iff; right; left; auto.
    - eapply rp_hole; eauto. apply R.
    - rewrite (rp_map_tw P LE). eapply rp_hole; eauto. apply R.
  Qed.

  (** * the face *)
  Lemma do_close c m0 m f0 es vs ys p0 p1 fp a b d : wf m0 -> rung m0 m (f0 :: es) vs ys p0 p1 -> fits c m a b (S d) ->
    exists m' f, close_hole c m (tw (abs m) f0) fp false = Ok (m', f) /\ wf m' /\ fits c m' a b d /\
      ring_built (abs m0) (abs m') (f0 :: es) vs ys [f] /\ hole (abs m') (f0 :: es) /\
      face_is (abs m') f (rev (map (tw (abs m')) (f0 :: es))) fp false /\
      pays (abs m') (f0 :: es) p0 /\ pays (abs m') (map (tw (abs m')) (f0 :: es)) p1.
  Proof.
    intros W0 R F. pose proof (rg_wf R) as Wm. pose proof (wfW Wm) as W. pose proof (rg_ring R) as B.
    pose proof (rg_in R) as H1. pose proof (rg_out R) as H2. cbn [map rev] in H2. apply hole_rot in H2. cbn [app] in H2.
    set (t := rev (map (tw (abs m)) es)) in *. set (te := tw (abs m) f0) in *.
    destruct (do_chole fp Wm F H2) as (m2 & f & E2 & _ & Wm2 & F2 & G & FI).
    exists m2, f. split; auto. split; auto. split; auto.
    assert (LE : forall x, In x (f0 :: es) -> lv (abs m) x = true) by (intros x I; apply (hole_live H1 I)).
    assert (DJ : forall x, In x (f0 :: es) -> ~ In x (te :: t)).
    { intros x I J. assert (J' : In x (map (tw (abs m)) (f0 :: es))).
      { cbn [map]. destruct J as [<-|J]; [left; auto|right; apply in_rev; auto]. }
      pose proof (gr_e (rb_grown B)) as (ND & _). apply nd_app_inv in ND as (_ & _ & ND). apply (ND x I J'). }
    rewrite (map_tw_grown G LE). split; [split|split; [|split; [|split]]].
    - rewrite (map_tw_grown G LE).
      assert (GT : grown (abs m0) (abs m2) [] (((f0 :: es) ++ map (tw (abs m)) (f0 :: es)) ++ []) (vs ++ []) ([] ++ [f])).
      { apply (grown_trans (rb_grown B) G). intros x I. right. apply (gr_e (rb_grown B)). apply in_app_iff. right.
        destruct I as [<-|I]; [left; auto|right; apply in_rev; auto]. }
      rewrite !app_nil_r in GT. exact GT.
    - eapply lt_grown; [exact W|exact G|apply B].
    - rewrite (map_vp_grown G); [apply (rb_pay B)|]. intros x I. apply (gr_v (rb_grown B)). auto.
    - eapply gr_hole; eauto.
    - cbn [map rev]. apply (@face_is_rot _ _ _ _ _ [te] t). exact FI.
    - pose proof (rg_pay0 R) as Q. unfold pays in *. rewrite <- Q. apply map_ext_in. intros x I. apply (gr_old_e G). auto.
    - pose proof (rg_pay1 R) as Q. unfold pays in *. rewrite <- Q. apply map_ext_in. intros x I. apply (gr_old_e G).
      apply in_map_iff in I as (z & <- & I). apply (wf_tw W). auto.
  Qed.

  Lemma drawn_pay m0 m m' es e1 vs ys p0 x0 p1 y : wf m0 -> drawn m0 m (es ++ [e1]) vs ys (p0 ++ [x0]) p1 ->
    wf m' -> repaid (abs m) (abs m') e1 y -> drawn m0 m' (es ++ [e1]) vs ys (p0 ++ [y]) p1.
  Proof.
    intros W0 R Wm' P. pose proof (wfW (dr_wf R)) as W.
    assert (LE : forall x, In x (es ++ [e1]) -> lv (abs m) x = true) by (intros x I; eapply drawn_live; eauto).
    pose proof (dr_path R) as B.
    assert (L0 : lv (abs m0) e1 = false).
    { apply (gr_new_e (pb_grown B)). apply in_app_iff; left. apply in_app_iff; right; left; auto. }
    assert (ND := gr_e (pb_grown B)). destruct ND as (ND & _). apply nd_app_inv in ND as (ND1 & ND2 & ND3).
    assert (N1 : ~ In e1 es) by (apply nd_app_inv in ND1 as (_ & _ & K); intros I; apply (K e1 I); left; auto).
    split; auto.
    - split.
      + rewrite (rp_map_tw P LE). eapply rp_grown; eauto. apply B.
      + eapply rp_lt; eauto. apply B.
      + rewrite <- (pb_pay B). apply map_ext_in. intros x I. apply (rp_v P). apply (gr_new_v (pb_grown B) I).
      + rewrite (rp_map_tw P LE). eapply rp_hole; eauto. apply B.
    - pose proof (dr_pay0 R) as Q. unfold pays in *. rewrite !map_app in *. cbn [map] in *.
      apply app_inj_tail in Q as [Q _]. rewrite (rp_new P). f_equal. rewrite <- Q. apply map_ext_in. intros x I.
      apply (rp_old P); [apply LE, in_app_iff; auto|congruence].
    - rewrite (rp_map_tw P LE). eapply rp_pays; [exact P|..|apply R].
      + intros x I. apply in_map_iff in I as (z & <- & I). apply (wf_tw W). auto.
      + intros I. apply (ND3 e1); auto. apply in_app_iff; right; left; auto.
    - eapply only_repaid; eauto. apply R.
    - pose proof (dr_last R) as Q. rewrite last_last in *. rewrite (rp_tw P); [eapply only_repaid; eauto|].
      apply LE. apply in_app_iff; right; left; auto.
  Qed.

  (** * the builder *)
  Definition fresh_b v : pathb := mkPB false false (Some v) (Some v) None None.

  Lemma first_line c m y0 y x0 x1 a b d : wf m -> fits c m (2 + a) (2 + b) d ->
    exists m1 v0 m2 w m3 e1 b3, add_vertex c m y0 = Ok (m1, v0) /\ p_start c m y0 = Ok (m1, fresh_b v0) /\
      wf m1 /\ lvv (abs m1) v0 = true /\ vp (abs m1) v0 = Some y0 /\
      add_vertex c m1 y = Ok (m2, w) /\ p_line_to c m2 (fresh_b v0) w x0 x1 = Ok (m3, b3) /\ fits c m3 a b d /\
      drawn m m3 [e1] [v0; w] [y0; y] [x0] [x1] /\ knows (abs m3) b3 [e1] [v0; w].
  Proof.
    intros Wm F. destruct (do_first y0 y x0 x1 Wm F)
      as (m1 & v0 & m2 & w & m3 & e1 & e2 & A1 & A2 & A3 & A4 & Wm1 & A5 & NE & A6 & F3 & T & D).
    exists m1, v0, m2, w, m3, e1, (mkPB false false (Some v0) (Some w) (Some (e2, e1)) (Some (e1, e2))).
    split; auto. split.
    { unfold p_start. rewrite A1. cbn [bind]. unfold p_start_at. destruct (wf_abs Wm1) as [R1 _].
      destruct (r_vertex_live R1 _ A3) as (x & Q1 & Q2 & _). unfold v_edge_get. rewrite Q1. cbn [bind].
      rewrite <- Q2, A2. auto. }
    do 4 (split; auto).
    split. { unfold p_line_to. cbn. rewrite Nat.eqb_refl. cbn. rewrite A6. cbn.
             rewrite (proj2 (Nat.eqb_neq v0 w)); auto. }
    split; auto. split; auto. unfold knows. cbn. rewrite T. auto 10.
  Qed.

  Lemma next_line c m0 m b es vs ys p0 p1 y x0 x1 a bb d : wf m0 ->
    drawn m0 m es vs ys p0 p1 -> knows (abs m) b es vs -> es <> [] -> fits c m (2 + a) (S bb) d ->
    exists m1 w m2 e1 b2, add_vertex c m y = Ok (m1, w) /\ p_line_to c m1 b w x0 x1 = Ok (m2, b2) /\ fits c m2 a bb d /\
      drawn m0 m2 (es ++ [e1]) (vs ++ [w]) (ys ++ [y]) (p0 ++ [x0]) (p1 ++ [x1]) /\
      knows (abs m2) b2 (es ++ [e1]) (vs ++ [w]).
  Proof.
    intros W0 D K NE F. destruct (exists_last NE) as (p & i & ->).
    pose proof (lt_length (pb_leads (dr_path D))) as LN. rewrite app_length in LN. cbn in LN.
    assert (NV : vs <> []) by (intros ->; cbn in LN; lia). destruct (exists_last NV) as (vs' & v & ->).
    assert (NV' : vs' <> []) by (intros ->; cbn in LN; lia).
    pose proof (dr_last D) as OL. rewrite !last_last in OL.
    pose proof (pb_hole (dr_path D)) as H. rewrite <- app_assoc in H. apply hole_rot in H. cbn [app] in H.
    destruct (do_line y x0 x1 (dr_wf D) F H OL) as (m1 & w & m2 & e1 & e2 & E1 & E2 & F2 & L).
    destruct K as (K1 & K2 & K3 & K4 & K5 & K6). rewrite !last_last in *.
    exists m1, w, m2, e1, (mkPB false false (p_sv b) (Some w) (p_se b) (Some (e1, e2))).
    split; auto. pose proof (ln_grown L) as G.
    assert (L0 : lvv (abs m) (hd 0 (vs' ++ [v])) = true).
    { apply (gr_new_v (pb_grown (dr_path D))). destruct vs'; left; auto. }
    split. { unfold p_line_to. rewrite K1, K4, K6. cbn [negb assert unwrap bind]. rewrite E2. cbn [bind]. rewrite K2, K3. cbn [oeqb].
             rewrite (proj2 (Nat.eqb_neq (hd 0 (vs' ++ [v])) w)); auto.
             assert (lvv (abs m) w = false) by (apply (gr_new_v G); left; auto). congruence. }
    split; auto. split; [eapply drawn_line; eauto|].
    unfold knows. cbn [p_closed p_face p_sv p_cv p_se p_ce]. rewrite !last_last, (proj1 (ln_tw L)), K3, K5.
    assert (Lp : lv (abs m) (hd 0 (p ++ [i])) = true) by (apply (drawn_live D); destruct p; left; auto).
    replace (hd 0 ((p ++ [i]) ++ [e1])) with (hd 0 (p ++ [i])) by (destruct p; auto).
    replace (hd 0 ((vs' ++ [v]) ++ [w])) with (hd 0 (vs' ++ [v])) by (destruct vs'; auto).
    rewrite (gr_tw G Lp). auto 10.
  Qed.

  Lemma draw_more c m0 ls : forall m b es vs ys p0 p1 a bb d, wf m0 ->
    drawn m0 m es vs ys p0 p1 -> knows (abs m) b es vs -> es <> [] -> fits c m (2 * length ls + a) (length ls + bb) d ->
    exists m' b' es' vs',
      foldM (fun s x => let '(m, b) := s in p_line c m b (l_end x) (l_there x) (l_back x)) ls (m, b) = Ok (m', b') /\
      fits c m' a bb d /\
      drawn m0 m' es' vs' (ys ++ map l_end ls) (p0 ++ map l_there ls) (p1 ++ map l_back ls) /\
      knows (abs m') b' es' vs'.
  Proof.
    induction ls as [|x ls IH]; intros m b es vs ys p0 p1 a bb d W0 D K NE F.
    - exists m, b, es, vs. cbn [foldM map]. rewrite !app_nil_r. auto.
    - assert (F' : fits c m (2 + (2 * length ls + a)) (S (length ls + bb)) d).
      { eapply fits_le; eauto; [apply (dr_wf D)|cbn; lia..]. }
      destruct (next_line (l_end x) (l_there x) (l_back x) W0 D K NE F') as (m1 & w & m2 & e1 & b2 & E1 & E2 & F2 & D2 & K2).
      destruct (IH m2 b2 _ _ _ _ _ a bb d W0 D2 K2) as (m' & b' & es' & vs' & E & F3 & D3 & K3); auto.
      { intros Q. destruct es; discriminate. }
      exists m', b', es', vs'. cbn [foldM]. unfold p_line at 1. rewrite E1. cbn [bind]. rewrite E2. cbn [bind].
      split; auto. split; auto. cbn [map]. rewrite <- !app_assoc in D3. cbn [app] in D3. auto.
  Qed.

  Lemma draw_ok c m y0 ls a b d : wf m -> ls <> [] -> fits c m (2 * length ls + a) (S (length ls) + b) d ->
    exists m' b' es vs, draw c m y0 ls = Ok (m', b') /\ fits c m' a b d /\
      drawn m m' es vs (y0 :: map l_end ls) (map l_there ls) (map l_back ls) /\ knows (abs m') b' es vs.
  Proof.
    intros Wm NE F. destruct ls as [|x ls]; [congruence|].
    assert (F' : fits c m (2 + (2 * length ls + a)) (2 + (length ls + b)) d) by (eapply fits_le; eauto; cbn; lia).
    destruct (first_line y0 (l_end x) (l_there x) (l_back x) Wm F')
      as (m1 & v0 & m2 & w & m3 & e1 & b3 & A1 & A2 & _ & _ & _ & A3 & A4 & F3 & D & K).
    destruct (draw_more Wm D K (fun Q => nil_cons (eq_sym Q)) F3) as (m' & b' & es & vs & E & F4 & D4 & K4).
    exists m', b', es, vs. split; auto. unfold draw. rewrite A2. cbn [bind foldM]. unfold p_line at 1. rewrite A3. cbn [bind].
    rewrite A4. cbn [bind]. exact E.
  Qed.

  Lemma draw_total c m y0 ls a b d : wf m -> ls <> [] -> fits c m (2 * length ls + a) (S (length ls) + b) d ->
    exists m' b' es vs, draw c m y0 ls = Ok (m', b') /\ wf m' /\ fits c m' a b d /\
      path_built (abs m) (abs m') es vs (y0 :: map l_end ls) /\ pays (abs m') es (map l_there ls) /\
      pays (abs m') (map (tw (abs m')) es) (map l_back ls) /\ knows (abs m') b' es vs.
  Proof.
    intros Wm NE F. destruct (draw_ok y0 Wm NE F) as (m' & b' & es & vs & E & F' & D & K).
    exists m', b', es, vs. split; auto. split; [apply D|]. split; auto. split; [apply D|]. split; [apply D|]. split; [apply D|auto].
  Qed.

  (** Back to the start. *)
  Lemma ring_line c m0 m b es vs ys p0 p1 x0 x1 a bb d : wf m0 ->
    drawn m0 m es vs ys p0 p1 -> knows (abs m) b es vs -> 2 <= length es -> fits c m (2 + a) bb d ->
    exists m2 e1 b2, p_line_to c m b (hd 0 vs) x0 x1 = Ok (m2, b2) /\ fits c m2 a bb d /\ lv (abs m0) e1 = false /\
      rung m0 m2 (es ++ [e1]) vs ys (p0 ++ [x0]) (p1 ++ [x1]) /\
      p_closed b2 = true /\ p_face b2 = false /\ p_se b2 = Some (tw (abs m2) (hd 0 es), hd 0 es) /\
      (exists e2, p_ce b2 = Some (e1, e2)).
  Proof.
    intros W0 D K LE F. destruct es as [|f0 q]; [cbn in LE; lia|].
    destruct (@exists_last _ q) as (q' & fk & ->); [intros ->; cbn in LE; lia|].
    destruct (do_ring x0 x1 W0 D F) as (m' & e1 & e2 & E & F' & T & TW & L0 & R).
    destruct K as (K1 & K2 & K3 & K4 & K5 & K6).
    exists m', e1, (mkPB true (p_face b) (p_sv b) (Some (hd 0 vs)) (p_se b) (Some (e1, e2))).
    split. { unfold p_line_to. rewrite K1, K4, K6. cbn [negb assert unwrap bind]. rewrite E. cbn [bind]. rewrite K3. cbn [oeqb].
             rewrite Nat.eqb_refl. auto. }
    split; auto. split; auto. split.
    { replace ((f0 :: q' ++ [fk]) ++ [e1]) with (f0 :: q' ++ [fk; e1]) by (cbn; rewrite <- app_assoc; auto). exact R. }
    cbn [p_closed p_face p_sv p_cv p_se p_ce]. split; auto. split; auto. split; eauto.
    rewrite K5. cbn [hd]. rewrite TW; auto. apply (drawn_live D). left; auto.
  Qed.

  Lemma close_rung c m0 m b es vs ys p0 p1 fp a bb d : wf m0 ->
    rung m0 m es vs ys p0 p1 -> es <> [] -> p_closed b = true -> p_se b = Some (tw (abs m) (hd 0 es), hd 0 es) -> fits c m a bb (S d) ->
    exists m' b' f, p_close dE c m b fp = Ok (m', b', Some f) /\ p_closed b' = true /\ p_face b' = true /\
      wf m' /\ fits c m' a bb d /\
      ring_built (abs m0) (abs m') es vs ys [f] /\ hole (abs m') es /\
      face_is (abs m') f (rev (map (tw (abs m')) es)) fp false /\
      pays (abs m') es p0 /\ pays (abs m') (map (tw (abs m')) es) p1.
  Proof.
    intros W0 R NE K1 K2 F. destruct es as [|f0 es]; [congruence|].
    destruct (do_close fp W0 R F) as (m' & f & E & Wm' & F' & Q).
    exists m', (mkPB true true (p_sv b) (p_cv b) (p_se b) (p_ce b)), f.
    split. { unfold p_close. rewrite K1, K2. cbn [unwrap bind hd]. rewrite E. auto. }
    cbn. auto 10.
  Qed.

  Lemma draw_closed_total c m y0 ls x0 x1 fp a b d : wf m -> 2 <= length ls ->
    fits c m (2 * S (length ls) + a) (S (length ls) + b) (S d) ->
    exists m' b' f es vs, draw_closed dE c m y0 ls x0 x1 fp = Ok (m', b', Some f) /\ wf m' /\ fits c m' a b d /\
      ring_built (abs m) (abs m') es vs (y0 :: map l_end ls) [f] /\ hole (abs m') es /\
      face_is (abs m') f (rev (map (tw (abs m')) es)) fp false /\
      pays (abs m') es (map l_there ls ++ [x0]) /\ pays (abs m') (map (tw (abs m')) es) (map l_back ls ++ [x1]) /\
      p_closed b' = true /\ p_face b' = true.
  Proof.
    intros Wm LN F. assert (F0 : fits c m (2 * length ls + (2 + a)) (S (length ls) + b) (S d)) by (eapply fits_le; eauto; lia).
    assert (NE : ls <> []) by (intros ->; cbn in LN; lia).
    destruct (draw_ok y0 Wm NE F0) as (m1 & b1 & es & vs & E & F1 & D & K).
    assert (LE : length es = length ls).
    { pose proof (dr_pay0 D) as Q. unfold pays in Q. apply (f_equal (@length _)) in Q. rewrite !map_length in Q. auto. }
    assert (LE2 : 2 <= length es) by lia.
    destruct (ring_line x0 x1 Wm D K LE2 F1) as (m2 & e1 & b2 & E2 & F2 & _ & R & Q1 & Q2 & Q3 & _).
    assert (NE2 : es ++ [e1] <> []) by (intros Q; destruct es; discriminate).
    assert (Q3' : p_se b2 = Some (tw (abs m2) (hd 0 (es ++ [e1])), hd 0 (es ++ [e1]))).
    { rewrite Q3. destruct es; [cbn in LE2; lia|auto]. }
    destruct (close_rung fp Wm R NE2 Q1 Q3' F2) as (m' & b' & f & E3 & Z1 & Z2 & Wm' & F3 & Z3 & Z4 & Z5 & Z6 & Z7).
    exists m', b', f, (es ++ [e1]), vs. split.
    { unfold draw_closed. rewrite E. cbn [bind]. destruct K as (_ & _ & K & _). rewrite K. cbn [unwrap bind]. rewrite E2. cbn [bind]. exact E3. }
    auto 10.
  Qed.

  (** Closing an open path does not work. *)
  Lemma close_drawn c m0 m b es vs ys p0 p1 fp :
    drawn m0 m es vs ys p0 p1 -> knows (abs m) b es vs -> es <> [] -> p_close dE c m b fp = Panic.
  Proof.
    intros D (K1 & K2 & K3 & K4 & K5 & K6) NE. destruct (exists_last NE) as (p & i & ->).
    pose proof (wf_abs (dr_wf D)) as [R W]. rewrite last_last in K6.
    pose proof (pb_hole (dr_path D)) as H. rewrite <- app_assoc in H. apply hole_rot in H. cbn [app] in H.
    rewrite map_app, rev_app_distr in H. cbn [map rev app] in H.
    assert (Li : lv (abs m) i = true) by (apply (hole_live H); left; auto).
    unfold p_close. rewrite K1, K5, K6. destruct H as [[HL HC] HF].
    rewrite (edges_face_ok R W HC Li). cbn [bind find].
    assert (N1 : i <> tw (abs m) i) by (apply not_eq_sym, (wf_twne W); auto).
    assert (N2 : i <> tw (abs m) (hd 0 (p ++ [i]))).
    { intros Q. destruct (gr_e (pb_grown (dr_path D))) as (ND & _). apply nd_app_inv in ND as (_ & _ & ND).
      apply (ND i); [apply in_app_iff; right; left; auto|]. rewrite Q. apply in_map. destruct p; left; auto. }
    rewrite (proj2 (Nat.eqb_neq _ _) N1), (proj2 (Nat.eqb_neq _ _) N2). cbn [orb].
    rewrite Nat.eqb_refl. cbn [orb unwrap bind]. rewrite Nat.eqb_refl, K3. cbn [unwrap bind].
    unfold p_line_to. cbn. auto.
  Qed.

  Lemma close_open_panics c m y0 ls fp a b d : wf m -> ls <> [] -> fits c m (2 * length ls + a) (S (length ls) + b) d ->
    (let* (m1, b1) := draw c m y0 ls in p_close dE c m1 b1 fp) = Panic.
  Proof.
    intros Wm NE F. destruct (draw_ok y0 Wm NE F) as (m1 & b1 & es & vs & E & F1 & D & K). rewrite E. cbn [bind].
    eapply close_drawn; eauto. intros ->. pose proof (dr_pay0 D) as Q. destruct ls; [congruence|discriminate].
  Qed.

  Lemma close_point c m y0 fp a b d : wf m -> fits c m a (S b) d ->
    exists m1 v, add_vertex c m y0 = Ok (m1, v) /\
      (let* (m1, b1) := draw c m y0 [] in p_close dE c m1 b1 fp) = Ok (m1, mkPB true true (Some v) (Some v) None None, None).
  Proof.
    intros Wm F. destruct (t_add_vertex y0 Wm F) as (m1 & v & E & F1). exists m1, v. split; auto.
    destruct (spec_add_vertex Wm E) as (Wm1 & _ & A1 & A2 & _).
    unfold draw, p_start. rewrite E. cbn [bind]. unfold p_start_at. destruct (wf_abs Wm1) as [R1 _].
    destruct (r_vertex_live R1 _ A1) as (x & Q1 & Q2 & _). unfold v_edge_get. rewrite Q1. cbn [bind].
    rewrite <- Q2, A2. cbn. rewrite Nat.eqb_refl. auto.
  Qed.
End PathB.
