(** Paths, loops and polygons of any length. *)
From Coq Require Import List Arith Lia Bool Permutation.
From Verif Require Import Base DVec DVecFacts Mesh Spec Rep Splice Cycle Traverse Room Ops MeshSpec MeshProofs
  MeshMore MeshTotal MeshFacts NetProofs BuildSpec Solid BuildStep.
Import ListNotations.
Set Implicit Arguments.
Unset Strict Implicit.

Local Arguments abs : simpl never.
Section Path.
  Context {VP EP FP : Type}.
  Notation graph := (graph VP EP FP).
  Notation mesh := (mesh VP EP FP).
  Implicit Types (g : graph) (m : mesh).
  Variable (dE : EP) (dF : FP).

  Lemma lt_snoc g es vs v e w : leads_through g es (vs ++ [v]) -> leads g e v w ->
    leads_through g (es ++ [e]) ((vs ++ [v]) ++ [w]).
  Proof.
    revert es. induction vs as [|x vs IH]; intros es H K.
    - destruct es as [|a [|b es]]; cbn in *; try tauto.
    - destruct es as [|a es]; [destruct vs; cbn in H; tauto|].
      destruct vs as [|y vs]; cbn in H; destruct H as [H1 H2]; (split; [exact H1|]); apply (IH es H2 K).
  Qed.

  Lemma lt_grown g g' L E V F es vs : WF g -> grown g g' L E V F -> leads_through g es vs -> leads_through g' es vs.
  Proof.
    intros W G. revert vs. induction es as [|e es IH]; intros vs H; destruct vs as [|v vs]; cbn in *; auto.
    destruct vs as [|w vs]; auto. destruct H as [H1 H2]. split; [eapply gr_leads; eauto|]. apply IH; auto.
  Qed.

  Lemma lt_live g es vs e : leads_through g es vs -> In e es -> lv g e = true.
  Proof.
    revert vs. induction es as [|a es IH]; intros vs H I; [destruct I|]. destruct vs as [|v [|w vs]]; cbn in H; try tauto.
    destruct H as [H1 H2]. destruct I as [<-|I]; [apply H1|eauto].
  Qed.

  Lemma lt_length g es vs : leads_through g es vs -> length vs = S (length es).
  Proof.
    revert vs. induction es as [|a es IH]; intros vs H; destruct vs as [|v [|w vs]]; cbn in *; try tauto.
    destruct H as [_ H]. apply IH in H. cbn in H. lia.
  Qed.

  Lemma lt_last g es e vs v : leads_through g (es ++ [e]) (vs ++ [v]) -> target g e = v /\ lv g e = true.
  Proof.
    revert vs. induction es as [|a es IH]; intros vs H.
    - destruct vs as [|x [|y vs]]; cbn in *; try tauto; [split; apply H|destruct vs; cbn in H; tauto].
    - destruct vs as [|x vs]; cbn in *; [destruct (es ++ [e]); tauto|].
      destruct (vs ++ [v]) eqn:Q; [destruct vs; discriminate|]. destruct H as [_ H]. rewrite <- Q in H. apply (IH vs H).
  Qed.

  Lemma map_tw_grown g g' L E V F es : grown g g' L E V F -> (forall e, In e es -> lv g e = true) ->
    map (tw g') es = map (tw g) es.
  Proof. intros G H. apply map_ext_in. intros e I. apply (gr_tw G). auto. Qed.

  Lemma map_vp_grown g g' L E V F vs : grown g g' L E V F -> (forall v, In v vs -> lvv g v = true) ->
    map (vp g') vs = map (vp g) vs.
  Proof. intros G H. apply map_ext_in. intros e I. apply (gr_vp G). auto. Qed.

  Lemma do_isolated c m ya yb a b d : wf m -> fits c m (2 + a) (2 + b) d ->
    exists m' v0 v1 e0, add_isolated_edge c m ya dE yb dE = Ok (m', v0, v1) /\ wf m' /\ fits c m' a b d /\
      shared_edge c m' v0 v1 = Ok (Some e0) /\ path_built (abs m) (abs m') [e0] [v0; v1] [ya; yb] /\ nbrs (abs m') v0 [v1].
  Proof.
    intros Wm F. destruct (t_add_isolated_edge ya dE yb dE Wm F) as (m' & v0 & v1 & E & F').
    destruct (spec_add_isolated_edge Wm E) as (Wm' & e0 & e1 & A).
    pose proof (ia_pair A) as P. destruct (ia_fresh A) as (V0 & V1 & VN).
    destruct (ia_v0 A) as (L0 & R0 & Y0). destruct (ia_v1 A) as (L1 & R1 & Y1).
    destruct (np_fresh P) as (F0 & F1 & FN). destruct (np_live P) as [Q0 Q1].
    destruct (np_twin P) as [T0 T1]. destruct (np_origin P) as [O0 O1]. destruct (np_face P) as [C0 C1].
    assert (G : grown (abs m) (abs m') [] [e0; e1] [v0; v1] []).
    { split.
      - apply (added_pair P).
      - split; [|split].
        + constructor; [intros [Q|[]]; congruence|]. constructor; [intros []|constructor].
        + intros x [<-|[<-|[]]]; auto.
        + intros x. cbn [In]. destruct (Nat.eq_dec x v0) as [->|N1]; [tauto|]. destruct (Nat.eq_dec x v1) as [->|N2]; [tauto|].
          destruct (ia_vertices A N1 N2) as [Q _]. rewrite Q. firstorder congruence.
      - apply added_nil. intros f. apply (ia_faces A f).
      - intros e L. destruct (pair_old P L) as (? & ? & ? & ?). auto.
      - intros w L. apply (ia_vertices A); auto; congruence.
      - intros f L. apply (ia_faces A f); auto.
      - intros l H D. split; [apply (ia_loops A H)|]. intros x I. apply (pair_old P). apply H; auto. }
    assert (NB : nbrs (abs m') v0 [v1]).
    { eapply nbrs_pair with (l := []); [apply (wfW Wm)|exact G|exact T0|exact T1|apply nbrs_fresh; auto; apply (wfW Wm)|..].
      - intros _. left; auto.
      - intros Q. exfalso. congruence.
      - intros x []. }
    destruct (shared_edge_spec c v1 Wm' L0) as ([e|] & S & K).
    2:{ exfalso. apply (K e0); auto. rewrite T0. auto. }
    destruct K as (K1 & K2 & K3).
    assert (e = e0).
    { destruct (proj1 (proj2 (proj2 (gr_e G)) e) K1) as [K|[K|[K|[]]]]; auto; exfalso.
      - assert (Q : lvv (abs m) (og (abs m) e) = true) by (apply (wf_og (wfW Wm)); auto).
        rewrite <- (gr_og G K), K2 in Q. congruence.
      - subst e. congruence. }
    subst e. exists m', v0, v1, e0. do 4 (split; auto). split; auto.
    split.
    - cbn. rewrite T0. exact G.
    - cbn. split; auto. unfold leads, target. rewrite T0. auto.
    - cbn. rewrite Y0, Y1. auto.
    - cbn. rewrite T0. split; [apply (ia_loop A)|]. intros x [<-|[<-|[]]]; auto.
  Qed.

  Lemma path_extend c m m1 p input vs v ys y a b d : wf m -> wf m1 -> fits c m1 (2 + a) (S b) d ->
    path_built (abs m) (abs m1) (p ++ [input]) (vs ++ [v]) ys ->
    exists m2 e1 w, path_step dE c (m1, input, tw (abs m1) input) y = Ok (m2, e1, tw (abs m2) e1) /\ wf m2 /\
      fits c m2 a b d /\ path_built (abs m) (abs m2) ((p ++ [input]) ++ [e1]) ((vs ++ [v]) ++ [w]) (ys ++ [y]) /\
      (forall e, lv (abs m1) e = true -> lv (abs m2) e = true /\ tw (abs m2) e = tw (abs m1) e) /\
      (forall v0 v1, nbrs (abs m1) v0 [v1] -> v0 <> v -> lvv (abs m1) v0 = true -> nbrs (abs m2) v0 [v1]).
  Proof.
    intros Wm Wm1 F B. pose proof (wfW Wm1) as W1. destruct (lt_last (pb_leads B)) as [TV Li].
    pose proof (pb_hole B) as H. rewrite map_app, rev_app_distr in H. cbn [map rev app] in H.
    rewrite <- app_assoc in H. cbn [app] in H. apply hole_rot in H. cbn [app] in H.
    assert (N : tw (abs m1) input = nx (abs m1) input) by (symmetry; apply (loop_nx (proj1 H))).
    destruct (do_via dE y Wm1 F H N) as (m2 & w & e1 & e2 & E & Wm2 & F2 & G & H2 & T1 & T2 & O1 & O2 & Y).
    unfold via in E.
    assert (LE1 : lv (abs m2) e1 = true) by (apply (gr_new_e G); left; auto).
    exists m2, e1, w. unfold path_step. rewrite E. cbn [bind].
    assert (Li2 : lv (abs m2) input = true) by (apply (gr_live_e G); auto).
    rewrite (get_gnext Wm2 Li2), (loop_nx (proj1 H2)). cbn [bind]. rewrite (get_twin Wm2 LE1). cbn [bind].
    split; auto. split; auto. split; auto.
    assert (LP : forall e, In e (p ++ [input]) -> lv (abs m1) e = true) by (intros e I; eapply lt_live; [apply (pb_leads B)|auto]).
    split; [split|].
    - rewrite map_app. cbn [map]. rewrite T1.
      rewrite (map_tw_grown G LP).
      assert (GT : grown (abs m) (abs m2) [] (((p ++ [input]) ++ map (tw (abs m1)) (p ++ [input])) ++ [e1; e2]) ((vs ++ [v]) ++ [w]) ([] ++ [])).
      { apply (grown_trans (pb_grown B) G). intros x I. right. apply (gr_e (pb_grown B)).
        rewrite in_app_iff. assert (J : In x (p ++ [input]) \/ In x (map (tw (abs m1)) (p ++ [input]))); [|auto].
        rewrite map_app, !in_app_iff. cbn in I. rewrite in_app_iff in I. rewrite <- in_rev in I. cbn. tauto. }
      eapply grown_perm; [exact GT| |apply Permutation_refl|apply Permutation_refl].
      rewrite <- !app_assoc. apply Permutation_app_head. apply Permutation_app_head.
      change ([e1] ++ (map (tw (abs m1)) (p ++ [input]) ++ [e2])) with (e1 :: (map (tw (abs m1)) (p ++ [input]) ++ [e2])).
      symmetry. apply Permutation_middle.
    - apply lt_snoc; [eapply lt_grown; eauto; apply (pb_leads B)|]. split; auto. split; [congruence|].
      unfold target. rewrite T1. auto.
    - rewrite (map_app _ (vs ++ [v])). cbn [map]. rewrite Y, (map_vp_grown G).
      + rewrite (pb_pay B), map_app. auto.
      + intros x I. apply (gr_v (pb_grown B)). auto.
    - rewrite map_app. cbn [map]. rewrite T1, rev_app_distr. cbn [rev app].
      rewrite (map_tw_grown G LP). rewrite map_app, rev_app_distr. cbn [map rev app].
      rewrite <- !app_assoc. cbn [app].
      apply (@hole_rot _ _ _ _ (input :: e1 :: e2 :: tw (abs m1) input :: rev (map (tw (abs m1)) p)) p). exact H2.
    - split; [intros e L; split; [apply (gr_live_e G L)|apply (gr_tw G L)]|].
      intros v0 v1 NB NE LV. eapply nbrs_pair; [exact W1|exact G|exact T1|exact T2|exact NB|..]; auto.
      + intros Q. exfalso. congruence.
      + intros Q. exfalso. assert (lvv (abs m1) w = false) by (apply (gr_new_v G); left; auto). congruence.
  Qed.

  Lemma path_fold c rest : forall m m1 p input vs v v0 v1 ys a b d, wf m -> wf m1 ->
    fits c m1 (2 * length rest + a) (length rest + b) d ->
    path_built (abs m) (abs m1) (p ++ [input]) (vs ++ [v]) ys -> nbrs (abs m1) v0 [v1] -> In v0 vs ->
    exists m2 p' input' vs' w, foldM (path_step dE c) rest (m1, input, tw (abs m1) input) = Ok (m2, input', tw (abs m2) input') /\
      wf m2 /\ fits c m2 a b d /\
      path_built (abs m) (abs m2) (p' ++ [input']) (vs' ++ [w]) (ys ++ rest) /\ nbrs (abs m2) v0 [v1] /\
      (exists r, p' ++ [input'] = (p ++ [input]) ++ r) /\ (exists s, vs' ++ [w] = (vs ++ [v]) ++ s) /\
      (forall e, lv (abs m1) e = true -> tw (abs m2) e = tw (abs m1) e).
  Proof.
    induction rest as [|y rest IH]; intros m m1 p input vs v v0 v1 ys a b d Wm Wm1 F B NB I0.
    - exists m1, p, input, vs, v. cbn in F. cbn [foldM]. rewrite app_nil_r. do 4 (split; auto). split; auto.
      split; [exists []; rewrite app_nil_r; auto|]. split; [exists []; rewrite app_nil_r; auto|]. auto.
    - assert (F' : fits c m1 (2 + (2 * length rest + a)) (S (length rest + b)) d).
      { eapply fits_le; eauto; cbn; lia. }
      destruct (path_extend y Wm Wm1 F' B) as (m2 & e1 & w & E & Wm2 & F2 & B2 & TW2 & NB2).
      assert (ND : NoDup (vs ++ [v])) by (apply (gr_v (pb_grown B))).
      assert (NV : v0 <> v).
      { intros ->. apply nd_app_inv in ND as (_ & _ & ND). apply (ND v I0). left; auto. }
      assert (LV0 : lvv (abs m1) v0 = true).
      { apply (gr_v (pb_grown B)). right. apply in_app_iff. auto. }
      assert (I0' : In v0 (vs ++ [v])) by (apply in_app_iff; auto).
      destruct (IH m m2 (p ++ [input]) e1 (vs ++ [v]) w v0 v1 (ys ++ [y]) a b d Wm Wm2 F2 B2 (NB2 _ _ NB NV LV0) I0')
        as (m3 & p' & i' & vs' & w' & E3 & Wm3 & F3 & B3 & NB3 & (r & R) & (s & S) & TW).
      exists m3, p', i', vs', w'. cbn [foldM]. rewrite E. cbn [bind]. split; auto. split; auto. split; auto.
      rewrite <- app_assoc in B3. split; [exact B3|]. split; auto.
      split; [exists (e1 :: r); rewrite R, <- !app_assoc; auto|].
      split; [exists (w :: s); rewrite S, <- !app_assoc; auto|].
      intros e L. destruct (TW2 e L) as [L2 Q]. rewrite <- Q. auto.
  Qed.

  Lemma insert_path_total c m y0 y1 rest a b d : wf m ->
    let n := length (y0 :: y1 :: rest) in
    fits c m (2 * (n - 1) + a) (n + b) d ->
    exists m' es vs, insert_path dE c m (y0 :: y1 :: rest) =
        Ok (m', tw (abs m') (hd 0 es), last es 0) /\ wf m' /\ fits c m' a b d /\
      path_built (abs m) (abs m') es vs (y0 :: y1 :: rest) /\ nbrs (abs m') (hd 0 vs) [nth 1 vs 0].
  Proof.
    intros Wm n F. assert (F0 : fits c m (2 + (2 * length rest + a)) (2 + (length rest + b)) d).
    { eapply fits_le; eauto; unfold n; cbn; lia. }
    destruct (do_isolated y0 y1 Wm F0) as (m1 & v0 & v1 & e0 & E & Wm1 & F1 & S & B & NB).
    assert (L0 : lv (abs m1) e0 = true) by (apply (lt_live (pb_leads B)); left; auto).
    destruct (@path_fold c rest m m1 [] e0 [v0] v1 v0 v1 [y0; y1] a b d Wm Wm1 F1 B NB (or_introl eq_refl))
      as (m2 & p' & i' & vs' & w & E2 & Wm2 & F2 & B2 & NB2 & (r & R) & (s & Q) & TW).
    exists m2, (p' ++ [i']), (vs' ++ [w]). unfold insert_path. rewrite E. cbn [bind]. rewrite S. cbn [bind unwrap].
    rewrite (get_twin Wm1 L0). cbn [bind]. rewrite E2. cbn [bind].
    split; [|split; auto; split; auto; split; auto].
    - rewrite R. cbn [app hd]. rewrite (TW _ L0). f_equal. f_equal. change (e0 :: r) with (([] ++ [e0]) ++ r). rewrite <- R, last_last. auto.
    - rewrite Q. cbn [app hd nth]. exact NB2.
  Qed.

  Lemma insert_loop_total c m y0 y1 y2 rest a b d : wf m ->
    let ys := y0 :: y1 :: y2 :: rest in let n := length ys in
    fits c m (2 * n + a) (n + b) d ->
    exists m' es vs, insert_loop dE c m ys = Ok (m', tw (abs m') (hd 0 es)) /\ wf m' /\ fits c m' a b d /\
      ring_built (abs m) (abs m') es vs ys [] /\ hole (abs m') es /\ hole (abs m') (rev (map (tw (abs m')) es)).
  Proof.
    intros Wm ys n F. assert (F0 : fits c m (2 * (n - 1) + (2 + a)) (n + b) d).
    { eapply fits_le; eauto; unfold n; cbn; lia. }
    destruct (@insert_path_total c m y0 y1 (y2 :: rest) (2 + a) b d Wm F0) as (m1 & es & vs & E & Wm1 & F1 & B & NB).
    pose proof (lt_length (pb_leads B)) as LN. pose proof (f_equal (@length _) (pb_pay B)) as LP. rewrite !map_length in LP.
    assert (ND : NoDup vs) by (apply (gr_v (pb_grown B))).
    destruct es as [|f0 q]; [exfalso; cbn in *; lia|].
    destruct (@exists_last _ q) as (q' & fk & ->); [intros ->; cbn in *; lia|].
    destruct vs as [|v0 [|v1 vs]]; [discriminate|discriminate|].
    destruct (@exists_last _ vs) as (vs' & w & ->); [intros ->; cbn in *; rewrite ?app_length in *; cbn in *; lia|].
    pose proof (wfW Wm1) as W1.
    assert (HL : leads_through (abs m1) ((f0 :: q') ++ [fk]) ((v0 :: v1 :: vs') ++ [w])) by exact (pb_leads B).
    destruct (lt_last HL) as [TK LK].
    destruct (pb_leads B) as [(L0 & O0 & T0) _].
    set (t0 := tw (abs m1) f0) in *.
    assert (Tt : target (abs m1) t0 = v0) by (unfold target, t0; rewrite (wf_twtw W1); auto).
    assert (H : hole (abs m1) (t0 :: (f0 :: q') ++ fk :: rev (map (tw (abs m1)) (q' ++ [fk])))).
    { pose proof (pb_hole B) as H. cbn [map rev] in H. fold t0 in H. rewrite app_assoc in H. apply hole_rot in H.
      cbn [app] in H |- *. rewrite <- app_assoc in H. exact H. }
    assert (NL : forall e, leads (abs m1) e (target (abs m1) t0) (target (abs m1) fk) -> False).
    { rewrite Tt, TK. apply (nbrs_no NB). intros [Q|[]]. cbn in Q. subst w. inversion ND; subst. inversion H3; subst.
      apply H4. apply in_app_iff. right; left; auto. }
    destruct (do_edge dE Wm1 F1 H NL) as (m2 & e1 & e2 & E2 & Wm2 & F2 & G & H1 & H2 & T1 & T2 & O1 & O2).
    set (es := f0 :: q' ++ [fk]) in *. set (vs := v0 :: v1 :: vs' ++ [w]) in *.
    assert (LE : forall e, In e es -> lv (abs m1) e = true) by (intros e I; apply (lt_live (pb_leads B) I)).
    assert (Lt0 : lv (abs m1) t0 = true) by (apply (hole_live H); left; auto).
    assert (LE2 : lv (abs m2) e2 = true) by (apply (gr_new_e G); right; left; auto).
    exists m2, (es ++ [e2]), vs. unfold insert_loop. fold ys in E. rewrite E. cbn [bind hd].
    assert (LL : last es 0 = fk) by (unfold es; change (f0 :: q' ++ [fk]) with ((f0 :: q') ++ [fk]); apply last_last).
    assert (HH : hd 0 es = f0) by auto. fold es. rewrite LL. cbn [hd es]. fold t0. rewrite E2. cbn [bind].
    split; [unfold es; cbn [app hd]; rewrite (gr_tw G L0); auto|]. split; auto. split; auto.
    assert (MT : map (tw (abs m2)) (es ++ [e2]) = map (tw (abs m1)) es ++ [e1]).
    { rewrite map_app. cbn [map]. rewrite T2, (map_tw_grown G LE). auto. }
    split; [split|split].
    - rewrite MT.
      assert (GT : grown (abs m) (abs m2) [] ((es ++ map (tw (abs m1)) es) ++ [e1; e2]) (vs ++ []) ([] ++ [])).
      { apply (grown_trans (pb_grown B) G). intros x I. right. apply (gr_e (pb_grown B)).
        assert (J : In x es \/ In x (map (tw (abs m1)) es)).
        { destruct I as [<-|I]; [right; left; auto|]. cbn [app] in I. destruct I as [<-|I]; [left; left; auto|].
          apply in_app_iff in I as [I|[<-|I]].
          - left; right. apply in_app_iff; auto.
          - left; right. apply in_app_iff; right; left; auto.
          - right. unfold es. cbn [map]. right. apply in_rev; auto. }
        apply in_app_iff; auto. }
      rewrite app_nil_r in GT.
      eapply grown_perm; [exact GT| |apply Permutation_refl|apply Permutation_refl].
      rewrite <- !app_assoc. apply Permutation_app_head.
      etransitivity; [apply Permutation_app_head, perm_swap|].
      change ([e2] ++ map (tw (abs m1)) es ++ [e1]) with (e2 :: (map (tw (abs m1)) es ++ [e1])).
      symmetry. apply Permutation_middle.
    - assert (Q : leads_through (abs m2) (es ++ [e2]) (((v0 :: v1 :: vs') ++ [w]) ++ [v0])).
      { apply lt_snoc; [eapply lt_grown; [exact W1|exact G|exact HL]|]. split; auto. split; [congruence|].
        unfold target. rewrite T2, O1. auto. }
      exact Q.
    - rewrite (map_vp_grown G); [apply (pb_pay B)|]. intros x I. apply (gr_v (pb_grown B)). auto.
    - change es with ((f0 :: q') ++ [fk]). rewrite <- app_assoc. cbn [app].
      apply (@hole_rot _ _ _ _ [fk; e2] (f0 :: q')) in H2. cbn [app] in H2. exact H2.
    - rewrite MT, rev_app_distr. cbn [rev app]. unfold es. cbn [map rev].
      apply (@hole_rot _ _ _ _ [t0] (e1 :: rev (map (tw (abs m1)) (q' ++ [fk])))). exact H1.
  Qed.

  Lemma ring_rev_hd g es : es <> [] -> exists t, rev (map (tw g) es) = t ++ [tw g (hd 0 es)].
  Proof. destruct es as [|e es]; [congruence|]. intros _. cbn. eauto. Qed.

  Lemma lt_tw_ne g es vs : WF g -> leads_through g es vs -> forall e, In e es -> lv g (tw g e) = true.
  Proof. intros W H e I. apply (wf_tw W). eapply lt_live; eauto. Qed.

  (** A ring with a face on the reverse side. *)
  Lemma insert_polygon_total c m y0 y1 y2 rest a b d : wf m ->
    let ys := y0 :: y1 :: y2 :: rest in let n := length ys in
    fits c m (2 * n + a) (n + b) (S d) ->
    exists m' es vs f, insert_polygon dE dF c m ys = Ok (m', hd 0 es) /\ wf m' /\ fits c m' a b d /\
      ring_built (abs m) (abs m') es vs ys [f] /\ hole (abs m') es /\
      face_is (abs m') f (rev (map (tw (abs m')) es)) dF false.
  Proof.
    intros Wm ys n F. destruct (@insert_loop_total c m y0 y1 y2 rest a b (S d) Wm F) as (m1 & es & vs & E & Wm1 & F1 & B & H1 & H2).
    pose proof (wfW Wm1) as W1.
    assert (NE : es <> []) by (intros ->; destruct H1 as [[_ []] _]).
    destruct (ring_rev_hd (abs m1) NE) as (t & RT). rewrite RT in H2. apply hole_rot in H2. cbn [app] in H2.
    set (e := hd 0 es) in *. set (te := tw (abs m1) e) in *.
    assert (Ie : In e es) by (unfold e; destruct es; [congruence|left; auto]).
    assert (Le : lv (abs m1) e = true) by (apply (hole_live H1 Ie)).
    destruct (do_chole dF Wm1 F1 H2) as (m2 & f & E2 & _ & Wm2 & F2 & G & FI).
    exists m2, es, vs, f. unfold insert_polygon. fold ys in E. rewrite E. cbn [bind]. fold te. rewrite E2. cbn [bind].
    assert (Lte : lv (abs m1) te = true) by (apply (wf_tw W1); auto).
    rewrite (get_twin Wm2 (gr_live_e G Lte)), (gr_tw G Lte). cbn [bind]. unfold te at 1. rewrite (wf_twtw W1) by auto.
    split; auto. split; auto. split; auto.
    assert (LE : forall x, In x es -> lv (abs m1) x = true) by (intros x I; apply (hole_live H1 I)).
    assert (DJ : forall x, In x es -> ~ In x (te :: t)).
    { intros x I J. assert (J' : In x (map (tw (abs m1)) es)).
      { apply in_rev. rewrite RT. apply in_app_iff. destruct J as [J|J]; [right; left; auto|left; auto]. }
      pose proof (gr_e (rb_grown B)) as (ND & _). apply nd_app_inv in ND as (_ & _ & ND). apply (ND x I J'). }
    rewrite (map_tw_grown G LE). split; [split|split].
    - assert (GT : grown (abs m) (abs m2) [] ((es ++ map (tw (abs m1)) es) ++ []) (vs ++ []) ([] ++ [f])).
      { apply (grown_trans (rb_grown B) G). intros x I. right. apply (gr_e (rb_grown B)). apply in_app_iff. right.
        apply in_rev. rewrite RT. apply in_app_iff. destruct I as [I|I]; [right; left; auto|left; auto]. }
      rewrite !app_nil_r in GT. rewrite (map_tw_grown G LE). exact GT.
    - eapply lt_grown; [exact W1|exact G|apply B].
    - rewrite (map_vp_grown G); [apply (rb_pay B)|]. intros x I. apply (gr_v (rb_grown B)). auto.
    - eapply gr_hole; eauto.
    - rewrite RT. apply (@face_is_rot _ _ _ _ _ [te] t). exact FI.
  Qed.

  Lemma insert_dihedron_panics c m y0 y1 y2 rest a b d : wf m -> dbg c = true ->
    let ys := y0 :: y1 :: y2 :: rest in let n := length ys in
    fits c m (2 * n + a) (n + b) (S d) -> insert_dihedron dE dF c m ys = Panic.
  Proof.
    intros Wm D ys n F. destruct (@insert_polygon_total c m y0 y1 y2 rest a b d Wm F) as (m1 & es & vs & f & E & Wm1 & F1 & B & H1 & FI).
    pose proof (wfW Wm1) as W1. unfold insert_dihedron. fold ys in E. rewrite E. cbn [bind].
    assert (NE : es <> []) by (intros ->; destruct H1 as [[_ []] _]).
    assert (Ie : In (hd 0 es) es) by (destruct es; [congruence|left; auto]).
    rewrite (get_twin Wm1 (hole_live H1 Ie)). cbn [bind].
    rewrite (t_close_hole_panics dF false Wm1 D); auto. right.
    destruct FI as (_ & _ & _ & FI). rewrite FI; [congruence|].
    rewrite <- in_rev. apply in_map_iff. eauto.
  Qed.

  (** Fewer than two vertices make no path, and two make no loop in a debug build. *)
  Lemma insert_path_short c m ys : length ys < 2 -> insert_path dE c m ys = Panic.
  Proof. destruct ys as [|y [|y' ys]]; cbn; auto; lia. Qed.
End Path.
