(** Glyph outlines are drawn as closed polygons with curved edges. *)
From Coq Require Import List Arith Lia Bool Permutation.
From Verif Require Import Base DVec DVecFacts Mesh Spec Rep Splice Cycle Traverse Room Ops Ops2 Ops3 MeshSpec MeshProofs
  MeshMore MeshTotal MeshFacts NetProofs BuildSpec Solid BuildStep PathProofs PathBuilder PathBSpec PathBProofs
  SvgProofs Alg Transform Glyph GlyphSpec.
Import ListNotations.
Set Implicit Arguments.
Unset Strict Implicit.

Local Arguments abs : simpl never.
Section Steps.
  Context {VP EP FP : Type}.
  Notation graph := (graph VP EP FP).
  Notation mesh := (mesh VP EP FP).
  Implicit Types (g : graph) (m : mesh).
  Variable (dE : EP) (dF : FP).

  Lemma do_iso c m y0 y a b d : wf m -> fits c m (2 + a) (2 + b) d ->
    exists m' v0 v1 e0, add_isolated_edge c m y0 dE y dE = Ok (m', v0, v1) /\ shared_edge c m' v0 v1 = Ok (Some e0) /\
      fits c m' a b d /\ drawn m m' [e0] [v0; v1] [y0; y] [dE] [dE].
  Proof.
    intros Wm F. destruct (do_isolated dE y0 y Wm F) as (m' & v0 & v1 & e0 & E & Wm' & F' & SH & B & NB).
    exists m', v0, v1, e0. do 3 (split; auto).
    pose proof (pb_grown B) as G. pose proof (wfW Wm) as W. pose proof (wfW Wm') as W'.
    destruct (pb_leads B) as [(L0 & O0 & T0) _]. unfold target in T0.
    assert (NV : v0 <> v1 /\ lvv (abs m) v0 = false /\ lvv (abs m) v1 = false).
    { destruct (gr_v G) as (A & C & _). split; [|split; apply C; cbn; auto].
      intros ->. inversion A; subst. apply H1. left; auto. }
    destruct NV as (NV & N0 & N1).
    assert (NEW : forall x, lv (abs m') x = true -> lvv (abs m) (og (abs m') x) = false -> x = e0 \/ x = tw (abs m') e0).
    { intros x Lx Q. apply (gr_e G) in Lx as [Lx|I].
      - rewrite (gr_og G Lx), (wf_og W _ Lx) in Q. discriminate.
      - cbn in I. destruct I as [<-|[<-|[]]]; auto. }
    destruct (spec_add_isolated_edge Wm E) as (_ & a0 & a1 & A). pose proof (ia_pair A) as P.
    destruct (np_pay P) as [Y0 Y1].
    assert (PY : forall x, In x [e0; tw (abs m') e0] -> ep (abs m') x = Some dE).
    { intros x I. assert (Nx : lv (abs m) x = false) by (apply (gr_e G); exact I).
      assert (Lx : lv (abs m') x = true) by (apply (gr_new_e G); exact I).
      destruct (Nat.eq_dec x a0) as [->|D0]; auto. destruct (Nat.eq_dec x a1) as [->|D1]; auto. exfalso.
      destruct (np_others P D0 D1) as [Q _]. congruence. }
    split; auto.
    - unfold pays. cbn. rewrite PY; [auto|left; auto].
    - unfold pays. cbn. rewrite PY; [auto|right; left; auto].
    - cbn [hd]. split; auto. split; auto. intros x Lx Ox. destruct (NEW x Lx) as [Q|Q]; auto; congruence.
    - cbn [last]. split; [apply (wf_tw W'); auto|]. split; auto. intros x Lx Ox.
      destruct (NEW x Lx) as [Q|Q]; auto; congruence.
  Qed.

  Lemma only_nx m i v : wf m -> lv (abs m) i = true -> only (abs m) v (tw (abs m) i) -> nx (abs m) i = tw (abs m) i.
  Proof.
    intros Wm Li (A & B & C). pose proof (wfW Wm) as W. apply C; [apply (wf_nx W); auto|]. rewrite (wf_ognx W); auto.
  Qed.

  Lemma via_vertex_eq c m i v y x0 x1 : wf m -> lv (abs m) i = true -> fc (abs m) i = None -> only (abs m) v (tw (abs m) i) ->
    add_vertex_via_vertex c m v y x0 x1 = add_vertex_via_edge c m i (nx (abs m) i) y x0 x1.
  Proof.
    intros Wm Li Fi O. destruct (wf_abs Wm) as [R W]. pose proof (only_nx Wm Li O) as NX.
    destruct O as (A & B & C). set (t := tw (abs m) i) in *.
    assert (L : lvv (abs m) v = true) by (rewrite <- B; apply (wf_og W); auto).
    assert (V : ve (abs m) v = Some t).
    { destruct (wf_wheel W _ A) as (e & V & RE). rewrite B in V. rewrite V. f_equal.
      destruct (wf_ve W _ L V) as [Le Oe]. apply C; auto. }
    unfold add_vertex_via_vertex, has_only_one_edge. rewrite (r_vedge R), L, V, A. cbn [bind].
    destruct (r_edge_live R _ A) as (x & EX & X1 & X2 & X3 & _). rewrite EX. cbn [bind]. rewrite <- X2, <- X3.
    assert (TT : tw (abs m) t = i) by (apply (wf_twtw W); auto).
    assert (PT : pv (abs m) t = i) by (rewrite <- NX; apply (wf_pvnx W); auto).
    rewrite TT, PT, Nat.eqb_refl. cbn [unwrap bind]. rewrite (r_twin_id R), A, TT. cbn [bind].
    rewrite !(r_boundary R), Li, A.
    assert (FT : fc (abs m) t = None) by (rewrite <- NX, (wf_fcnx W); auto).
    rewrite Fi, FT. cbn [is_none]. rewrite !dassert_true by auto. rewrite NX. auto.
  Qed.

  Lemma do_next c m i t v y a b d : wf m -> fits c m (2 + a) (S b) d -> hole (abs m) (i :: t) ->
    only (abs m) v (tw (abs m) i) ->
    exists m' w e1 e2, add_vertex_via_vertex c m v y dE dE = Ok (m', w, e1, e2) /\
      fits c m' a b d /\ lined m m' i t v w e1 e2 y dE dE.
  Proof.
    intros Wm F H O. pose proof (wfW Wm) as W. assert (Li : lv (abs m) i = true) by (apply (hole_live H); left; auto).
    assert (Fi : fc (abs m) i = None) by (apply H; left; auto).
    rewrite (via_vertex_eq c y dE dE Wm Li Fi O).
    destruct (t_add_vertex_via_edge y dE dE Wm F Li Fi) as (m' & w & e1 & e2 & E & F').
    destruct (spec_add_vertex_via_edge Wm (or_intror Li) (fun _ => conj eq_refl Fi) E) as (Wm' & _ & A).
    exists m', w, e1, e2. split; auto. split; auto. pose proof (va_pair A) as P.
    destruct (va_vertex A) as (V1 & V2 & V3 & V4). destruct (np_origin P) as [O1 O2].
    assert (OV : og (abs m) (tw (abs m) i) = v) by apply O.
    assert (N2 : lv (abs m') e2 = true) by apply (np_live P).
    split; auto.
    - eapply grown_vertex; [apply H|exact A].
    - destruct H as [Hl Hf]. split; [apply (va_loop A); auto|].
      intros x I. destruct (np_face P). destruct I as [<-|[<-|[<-|I]]]; auto.
      + rewrite <- Fi. apply (pair_old P); auto.
      + assert (J : In x (i :: t)) by (right; auto). rewrite <- (Hf x J). apply (pair_old P). apply Hl; auto.
    - apply (np_twin P).
    - split; auto. rewrite O1. auto.
    - apply (np_pay P).
    - split; auto. split; auto. intros x Lx Ox.
      destruct (Nat.eq_dec x e2) as [|D2]; auto. exfalso.
      destruct (Nat.eq_dec x e1) as [->|D1].
      + assert (VL : lvv (abs m) v = true) by (rewrite <- OV; apply (wf_og W); apply O). congruence.
      + destruct (np_others P D1 D2) as [Q1 Q2]. rewrite Q1 in Lx. destruct (Q2 Lx) as (_ & Q & _).
        pose proof (wf_og W _ Lx) as K. congruence.
  Qed.

  (** the two edges that [close_face_vertices] looks for *)
  Lemma cfv_eq c m0 m es vs ys p0 p1 x0 x1 fp cu : drawn m0 m es vs ys p0 p1 -> es <> [] ->
    close_face_vertices c m (og (abs m) (last es 0)) x0 (last vs 0) x1 (hd 0 vs) fp cu =
    close_face c m (last es 0) x0 (tw (abs m) (hd 0 es)) x1 fp cu.
  Proof.
    intros D NE. pose proof (dr_wf D) as Wm. destruct (wf_abs Wm) as [R W].
    set (fk := last es 0). set (f0 := hd 0 es).
    assert (IK : In fk es) by (unfold fk; destruct (exists_last NE) as (l & z & ->); rewrite last_last; apply in_app_iff; right; left; auto).
    assert (I0 : In f0 es) by (unfold f0; destruct es; [congruence|left; auto]).
    assert (LK : lv (abs m) fk = true) by (eapply drawn_live; eauto).
    assert (L0 : lv (abs m) f0 = true) by (eapply drawn_live; eauto).
    destruct (dr_last D) as (A1 & A2 & A3). destruct (dr_first D) as (B1 & B2 & B3). fold fk in A1, A2, A3. fold f0 in B1, B2, B3.
    unfold close_face_vertices.
    destruct (@shared_edge_ok _ _ _ m [] [] [] (abs m) c R W (og (abs m) fk) (last vs 0) (wf_og W _ LK)) as (o & -> & SP).
    destruct o as [e|].
    2:{ exfalso. apply (SP fk); auto. }
    destruct SP as (S1 & S2 & S3).
    assert (e = fk).
    { rewrite <- (wf_twtw W _ S1), <- (wf_twtw W _ LK). f_equal. apply A3; auto. apply (wf_tw W); auto. }
    subst e. cbn [unwrap bind].
    assert (LV : lvv (abs m) (hd 0 vs) = true) by (rewrite <- B2; apply (wf_og W); auto).
    destruct (edges_in_ok c R W LV) as (l & OL & _ & EI & FI).
    assert (EL : l = [f0]).
    { destruct OL as [ND OL]. assert (Q : forall x, In x l -> x = f0) by (intros x I; apply OL in I as [? ?]; auto).
      assert (Q0 : In f0 l) by (apply OL; auto).
      destruct l as [|z l]; [destruct Q0|]. assert (z = f0) by (apply Q; left; auto). subst z.
      destruct l as [|z l]; auto. exfalso. assert (z = f0) by (apply Q; right; left; auto). subst z.
      inversion ND; subst. apply H1. left; auto. }
    subst l. cbn [map] in EI, FI. set (t0 := tw (abs m) f0) in *.
    assert (Lt : lv (abs m) t0 = true) by (apply (wf_tw W); auto).
    assert (H := pb_hole (dr_path D)).
    assert (IT : In t0 (es ++ rev (map (tw (abs m)) es))) by (apply in_app_iff; right; apply in_rev; rewrite rev_involutive; apply in_map; auto).
    assert (GD : (let* b := is_boundary_self m t0 in if b then let* o := origin_id m fk in same_face m t0 o else Ok false) = Ok true).
    { rewrite (r_boundary R), Lt, (proj2 H _ IT). cbn [is_none bind]. rewrite (r_origin_id R), LK. cbn [bind].
      destruct (loop_exists R W Lt) as [t C]. rewrite (find_og_ok R W _ C Lt). f_equal. apply existsb_exists.
      exists fk. split; [|apply Nat.eqb_refl]. apply (cycle_same (proj2 (proj1 H)) C (x := t0)); auto; [left; auto|].
      apply in_app_iff; left; auto. }
    rewrite dassert_true.
    2:{ intros _. rewrite EI. cbn [bind mapM]. rewrite GD. reflexivity. }
    rewrite FI with (p := fun _ => true).
    2:{ intros x [<-|[]]. exact GD. }
    reflexivity.
  Qed.

  (** closing the path by one more edge *)
  Lemma ring_edge c m0 m f0 q fk vs ys p0 p1 a b d : wf m0 ->
    drawn m0 m (f0 :: q ++ [fk]) vs ys p0 p1 -> fits c m (2 + a) b d ->
    exists m' e1 e2, insert_edge c m fk dE (tw (abs m) f0) dE = Ok (m', e1, e2) /\ fits c m' a b d /\
      tw (abs m') e1 = e2 /\ rung m0 m' (f0 :: q ++ [fk; e1]) vs ys (p0 ++ [dE]) (p1 ++ [dE]).
  Proof.
    intros W0 D F. pose proof (dr_wf D) as Wm. pose proof (wfW Wm) as W. pose proof (dr_path D) as B.
    set (es := f0 :: q ++ [fk]) in *. assert (LE : forall x, In x es -> lv (abs m) x = true) by (intros x I; eapply drawn_live; eauto).
    assert (LL : last es 0 = fk) by (unfold es; rewrite app_comm_cons; apply last_last).
    pose proof (dr_first D) as OF. pose proof (dr_last D) as OL. rewrite LL in OL. cbn [hd es] in OF.
    assert (L0 : lv (abs m) f0 = true) by (apply LE; left; auto).
    assert (LK : lv (abs m) fk = true) by (apply LE; right; apply in_app_iff; right; left; auto).
    set (v := last vs 0) in *. set (u := hd 0 vs) in *.
    pose proof (lt_length (pb_leads B)) as LN.
    assert (LES : length es = S (S (length q))) by (unfold es; cbn; rewrite app_length; cbn; lia).
    set (t0 := tw (abs m) f0) in *.
    assert (H : hole (abs m) (fk :: rev (map (tw (abs m)) (q ++ [fk])) ++ t0 :: (f0 :: q))).
    { pose proof (pb_hole B) as H. unfold es in H. cbn [map rev] in H. fold t0 in H.
      rewrite app_comm_cons in H. rewrite <- app_assoc in H. apply hole_rot in H. cbn [app] in H.
      rewrite <- !app_assoc in H. cbn [app] in H. exact H. }
    assert (TK : target (abs m) fk = v) by apply OL.
    assert (T0 : target (abs m) t0 = u) by (unfold target, t0; rewrite (wf_twtw W); auto; apply OF).
    assert (NP : forall e, leads (abs m) e (target (abs m) fk) (target (abs m) t0) -> False).
    { intros x (Lx & Q1 & Q2). rewrite TK in Q1. rewrite T0 in Q2. unfold target in Q2.
      assert (Q3 : x = tw (abs m) fk) by (apply OL; auto).
      assert (Q4 : tw (abs m) x = f0) by (apply OF; auto; apply (wf_tw W); auto).
      assert (Q5 : fk = f0) by (rewrite <- Q4, Q3, (wf_twtw W); auto).
      pose proof (hole_nodup H) as Z. apply NoDup_cons_iff in Z as [Z _]. apply Z. apply in_app_iff. right. right. left; auto. }
    destruct (do_edge dE Wm F H NP) as (m' & e1 & e2 & E & Wm' & F' & G & H1 & H2 & T1 & T2 & O1 & O2).
    assert (Ft : fc (abs m) t0 = None) by (apply H; right; apply in_app_iff; right; left; auto).
    assert (KN : fk <> t0).
    { intros Q. pose proof (hole_nodup H) as Z. apply NoDup_cons_iff in Z as [Z _]. apply Z. apply in_app_iff. right. left; auto. }
    destruct (spec_insert_edge Wm (or_intror KN) (proj2 H fk (or_introl eq_refl)) Ft E) as (_ & _ & _ & _ & A).
    destruct (np_pay (ei_pair A)) as [Y1 Y2].
    exists m', e1, e2. split; [exact E|]. split; auto. split; auto.
    assert (LE1 : lv (abs m') e1 = true) by (apply (gr_new_e G); left; auto).
    assert (EE : f0 :: q ++ [fk; e1] = es ++ [e1]) by (unfold es; cbn; rewrite <- app_assoc; auto). rewrite EE.
    assert (MT : map (tw (abs m')) (es ++ [e1]) = map (tw (abs m)) es ++ [e2]).
    { rewrite map_app. cbn [map]. rewrite T1, (map_tw_grown G LE). auto. }
    split; auto.
    - split.
      + rewrite MT.
        assert (GT : grown (abs m0) (abs m') [] ((es ++ map (tw (abs m)) es) ++ [e1; e2]) (vs ++ []) ([] ++ [])).
        { apply (grown_trans (pb_grown B) G). intros x I. right. apply (gr_e (pb_grown B)).
          assert (J : In x es \/ In x (map (tw (abs m)) es)).
          { unfold es. cbn [map In] in *. rewrite !in_app_iff in *. rewrite <- in_rev in I. cbn [In] in *. fold t0. tauto. }
          apply in_app_iff; auto. }
        rewrite app_nil_r in GT.
        eapply grown_perm; [exact GT| |apply Permutation_refl|apply Permutation_refl].
        rewrite <- !app_assoc. apply Permutation_app_head.
        change ([e1] ++ map (tw (abs m)) es ++ [e2]) with (e1 :: (map (tw (abs m)) es ++ [e2])).
        symmetry. apply Permutation_middle.
      + assert (NV : vs <> []) by (intros ->; cbn in LN; lia).
        destruct (exists_last NV) as (vs' & z & Ez). assert (z = v) by (unfold v; rewrite Ez, last_last; auto). subst z.
        assert (Q : firstn 1 vs = [u]) by (unfold u; destruct vs; [congruence|auto]). rewrite Q, Ez.
        apply lt_snoc; [rewrite <- Ez; eapply lt_grown; [exact W|exact G|apply (pb_leads B)]|].
        split; auto. split; [congruence|]. unfold target at 1. rewrite T1; congruence.
      + rewrite (map_vp_grown G); [apply (pb_pay B)|]. intros x I. apply (gr_v (pb_grown B)). auto.
    - unfold pays. rewrite !map_app. cbn [map]. rewrite Y1. f_equal.
      pose proof (dr_pay0 D) as Q. unfold pays in Q. rewrite <- Q. apply map_ext_in. intros x I. apply (gr_old_e G). auto.
    - unfold pays. rewrite MT, !map_app. cbn [map]. rewrite Y2. f_equal.
      pose proof (dr_pay1 D) as Q. unfold pays in Q. rewrite <- Q. apply map_ext_in. intros x I.
      apply (gr_old_e G). apply in_map_iff in I as (z & <- & I). apply (wf_tw W). auto.
    - apply (@hole_rot _ _ _ _ [fk; e1] (f0 :: q)) in H1. unfold es. cbn [app] in *. rewrite <- app_assoc. exact H1.
    - rewrite MT, rev_app_distr. cbn [rev app]. unfold es. cbn [map rev]. fold t0.
      apply (@hole_rot _ _ _ _ [t0] (e2 :: rev (map (tw (abs m)) (q ++ [fk])))). exact H2.
  Qed.

  (** a ring with a face on its own side *)
  Record framed m0 m (es vs : list nat) (ys : list VP) (p0 p1 : list EP) f : Prop := {
    fr_wf : wf m;
    fr_ring : ring_built (abs m0) (abs m) es vs ys [f];
    fr_pay0 : pays (abs m) es p0;
    fr_pay1 : pays (abs m) (map (tw (abs m)) es) p1;
    fr_face : face_is (abs m) f es dF false;
    fr_back : hole (abs m) (rev (map (tw (abs m)) es))
  }.

  Lemma ring_face c m0 m l1 fk l2 vs ys p0 p1 a b d : wf m0 -> rung m0 m (l1 ++ fk :: l2) vs ys p0 p1 -> fits c m a b (S d) ->
    exists m' f, close_hole c m fk dF false = Ok (m', f) /\ fits c m' a b d /\
      (forall x, lv (abs m) x = true -> lv (abs m') x = true /\ tw (abs m') x = tw (abs m) x) /\
      framed m0 m' (l1 ++ fk :: l2) vs ys p0 p1 f.
  Proof.
    intros W0 R F. pose proof (rg_wf R) as Wm. pose proof (wfW Wm) as W. pose proof (rg_ring R) as B.
    pose proof (rg_in R) as H1. pose proof (hole_rot H1) as H1'. cbn [app] in H1'.
    set (es := l1 ++ fk :: l2) in *.
    destruct (do_chole dF Wm F H1') as (m2 & f & E2 & _ & Wm2 & F2 & G & FI).
    exists m2, f. split; auto. split; auto.
    split; [intros x Lx; split; [eapply gr_live_e; eauto|apply (gr_tw G Lx)]|].
    assert (LE : forall x, In x es -> lv (abs m) x = true) by (intros x I; apply (hole_live H1 I)).
    assert (SUB : forall x, In x (fk :: l2 ++ l1) -> In x es).
    { intros x I. unfold es. cbn [In] in I. rewrite in_app_iff in *. cbn [In]. tauto. }
    assert (DJ : forall x, In x (rev (map (tw (abs m)) es)) -> ~ In x (fk :: l2 ++ l1)).
    { intros x I J. apply in_rev in I. apply SUB in J.
      pose proof (gr_e (rb_grown B)) as (ND & _). apply nd_app_inv in ND as (_ & _ & ND). apply (ND x J I). }
    split; auto.
    - split.
      + rewrite (map_tw_grown G LE).
        assert (GT : grown (abs m0) (abs m2) [] ((es ++ map (tw (abs m)) es) ++ []) (vs ++ []) ([] ++ [f])).
        { apply (grown_trans (rb_grown B) G). intros x I. right. apply (gr_e (rb_grown B)). apply in_app_iff. left. auto. }
        rewrite !app_nil_r in GT. exact GT.
      + eapply lt_grown; [exact W|exact G|apply B].
      + rewrite (map_vp_grown G); [apply (rb_pay B)|]. intros x I. apply (gr_v (rb_grown B)). auto.
    - pose proof (rg_pay0 R) as Q. unfold pays in *. rewrite <- Q. apply map_ext_in. intros x I. apply (gr_old_e G). auto.
    - rewrite (map_tw_grown G LE). pose proof (rg_pay1 R) as Q. unfold pays in *. rewrite <- Q.
      apply map_ext_in. intros x I. apply (gr_old_e G). apply in_map_iff in I as (z & <- & I). apply (wf_tw W). auto.
    - apply (@face_is_rot _ _ _ _ _ (fk :: l2) l1). exact FI.
    - rewrite (map_tw_grown G LE). eapply gr_hole; [exact G|apply R|exact DJ].
  Qed.

  Lemma framed_pay m0 m m' es e1 e2 vs ys p0 p1 x1 y f : wf m0 -> framed m0 m (es ++ [e1]) vs ys p0 (p1 ++ [x1]) f -> length es = length p1 ->
    wf m' -> tw (abs m) e1 = e2 -> repaid (abs m) (abs m') e2 y -> framed m0 m' (es ++ [e1]) vs ys p0 (p1 ++ [y]) f.
  Proof.
    intros W0 R LN Wm' T P. pose proof (wfW (fr_wf R)) as W. pose proof (fr_ring R) as B.
    assert (LE : forall x, In x (es ++ [e1]) -> lv (abs m) x = true) by (intros x I; apply (fr_face R); auto).
    assert (ND := gr_e (rb_grown B)). destruct ND as (ND & N0 & _). apply nd_app_inv in ND as (ND1 & ND2 & ND3).
    rewrite map_app in ND2, ND3. cbn [map] in ND2, ND3. rewrite T in ND2, ND3.
    assert (L0 : lv (abs m0) e2 = false).
    { apply N0. apply in_app_iff; right. rewrite map_app. apply in_app_iff; right. left. auto. }
    assert (NI : ~ In e2 (es ++ [e1])).
    { intros I. apply (ND3 e2 I). apply in_app_iff; right; left; auto. }
    assert (NT : ~ In e2 (map (tw (abs m)) es)).
    { apply nd_app_inv in ND2 as (_ & _ & K). intros I. apply (K e2 I). left; auto. }
    split; auto.
    - split.
      + rewrite (rp_map_tw P LE). eapply rp_grown; eauto. apply B.
      + eapply rp_lt; eauto. apply B.
      + rewrite <- (rb_pay B). apply map_ext_in. intros x I. apply (rp_v P). apply (gr_new_v (rb_grown B) I).
    - eapply rp_pays; [exact P|exact LE|exact NI|apply R].
    - rewrite (rp_map_tw P LE). pose proof (fr_pay1 R) as Q. unfold pays in *. rewrite !map_app in *. cbn [map] in *. rewrite T in *.
      apply app_inj_tail in Q as [Q _]. rewrite (rp_new P). f_equal. rewrite <- Q. apply map_ext_in. intros x I.
      apply (rp_old P); [|congruence]. apply in_map_iff in I as (z & <- & I). apply (wf_tw W). apply LE. apply in_app_iff; auto.
    - destruct (fr_face R) as (A & C & D & E). split; [rewrite (proj1 (rp_f P f)); auto|].
      split; [rewrite <- C; apply (rp_f P); auto|]. split; [eapply rp_loop; eauto|].
      intros x I. rewrite <- (E x I). apply (rp_e P). auto.
    - rewrite (rp_map_tw P LE). eapply rp_hole; eauto. apply R.
  Qed.
End Steps.

Section Glyphs.
  Variables (R : Type) (zero : R) (add mul : R -> R -> R).
  Context {FP : Type}.
  Notation vec := (vec R).
  Notation graph := (graph (pnu R) (curve R) FP).
  Notation mesh := (mesh (pnu R) (curve R) FP).
  Implicit Types (g : graph) (m : mesh).
  Variable (dF : FP) (same : vec -> vec -> bool).
  Notation dE := (Linear R).
  Notation g_segment := (g_segment zero dF same).
  Notation u_at := (fun p => u_from_pos zero p).

  Lemma repaid_refl g e y : ep g e = Some y -> repaid g g e y.
  Proof. intros E. split; auto; intros x; split; auto. Qed.

  Lemma do_curve c pl m (o : outline R) e a b d : wf m -> fits c m a b d -> lv (abs m) e = true -> ep (abs m) e = Some dE ->
    exists m', (let '(_, _, c0, c1) := split o in g_curve pl m e c0 c1) = Ok m' /\ wf m' /\ fits c m' a b d /\
      repaid (abs m) (abs m') e (moved pl (o_curve o)).
  Proof.
    intros Wm F L Y. destruct o as [p q|p q r|p q r s]; cbn [split g_curve o_curve moved unwrap bind].
    - exists m. split; auto. split; auto. split; auto. apply repaid_refl; auto.
    - destruct (do_pay (fun _ => Quadratic (pl q)) Wm F L Y) as (m' & E & P). exists m'. split; [exact E|exact P].
    - destruct (do_pay (fun _ => Cubic (pl q) (pl r)) Wm F L Y) as (m' & E & P). exists m'. split; [exact E|exact P].
  Qed.

  Lemma split_ends (o : outline R) : exists c0 c1, split o = (o_start o, o_stop o, c0, c1) /\
    same (o_start o) (o_stop o) && is_none c0 && is_none c1 = negb (real same o).
  Proof.
    destruct o as [p q|p q r|p q r s]; cbn; do 2 eexists; (split; [reflexivity|]); cbn;
      rewrite ?negb_involutive, ?andb_true_r, ?andb_false_r; auto.
  Qed.

  Definition penned g (n : pen R) (first : vec) (es vs : list nat) : Prop :=
    n_first n = Some first /\ n_cur n <> None /\ n_cv n = Some (last vs 0) /\ n_sv n = Some (hd 0 vs) /\
    n_pv n = Some (og g (last es 0)).

  Lemma seg_start c pl m (o : outline R) a b d : wf m -> fits c m (2 + a) (2 + b) d -> real same o = true ->
    exists m' n e v0 v1, g_segment c pl (m, pen_up R) o = Ok (m', n) /\ fits c m' a b d /\
      drawn m m' [e] [v0; v1] [u_at (pl (o_start o)); u_at (pl (o_stop o))] [moved pl (o_curve o)] [dE] /\
      penned (abs m') n (o_start o) [e] [v0; v1].
  Proof.
    intros Wm F RO. destruct (do_iso dE (u_at (pl (o_start o))) (u_at (pl (o_stop o))) Wm F) as (m1 & v0 & v1 & e & E & SH & F1 & D).
    destruct (split_ends o) as (c0 & c1 & SP & SK). rewrite RO in SK. cbn [negb] in SK.
    assert (LE : lv (abs m1) e = true) by (eapply drawn_live; [exact D|left; auto]).
    assert (Y : ep (abs m1) e = Some dE).
    { pose proof (dr_pay0 D) as Q. unfold pays in Q. cbn in Q. injection Q as Q. exact Q. }
    destruct (do_curve pl o (dr_wf D) F1 LE Y) as (m2 & E2 & Wm2 & F2 & P). rewrite SP in E2.
    exists m2, (mkPen (Some (o_start o)) (Some (o_stop o)) (Some v1) (Some v0) (Some v0)), e, v0, v1.
    split.
    { unfold Glyph.g_segment. rewrite SP. rewrite SK. cbn [pen_up n_cur]. rewrite E. cbn [bind]. rewrite SH. cbn [unwrap bind].
      rewrite E2. reflexivity. }
    split; auto. split.
    - apply (@drawn_pay _ _ _ m m1 m2 [] e _ _ [] dE _ _ Wm D Wm2 P).
    - split; auto. split; [cbn; congruence|]. split; auto. split; auto. cbn. f_equal. rewrite (rp_og P LE).
      destruct (pb_leads (dr_path D)) as [(_ & Q & _) _]. auto.
  Qed.

  Lemma last_in {A} (l : list A) x : l <> [] -> In (last l x) l.
  Proof. intros N. destruct (exists_last N) as (l' & z & ->). rewrite last_last. apply in_app_iff; right; left; auto. Qed.

  Lemma seg_mid c pl m0 m n first (o : outline R) es vs ys p0 p1 a b d : wf m0 ->
    drawn m0 m es vs ys p0 p1 -> es <> [] -> penned (abs m) n first es vs -> fits c m (2 + a) (S b) d ->
    real same o = true -> same first (o_stop o) = false ->
    exists m' n' e w, g_segment c pl (m, n) o = Ok (m', n') /\ fits c m' a b d /\
      drawn m0 m' (es ++ [e]) (vs ++ [w]) (ys ++ [u_at (pl (o_stop o))]) (p0 ++ [moved pl (o_curve o)]) (p1 ++ [dE]) /\
      penned (abs m') n' first (es ++ [e]) (vs ++ [w]).
  Proof.
    intros W0 D NE (N1 & N2 & N3 & N4 & N5) F RO SM. pose proof (dr_wf D) as Wm. pose proof (wfW Wm) as W.
    destruct (exists_last NE) as (p & i & ->).
    pose proof (lt_length (pb_leads (dr_path D))) as LN. rewrite app_length in LN. cbn in LN.
    assert (NV : vs <> []) by (intros ->; cbn in LN; lia). destruct (exists_last NV) as (us & v & ->).
    rewrite app_length in LN. cbn in LN. assert (NU : us <> []) by (intros ->; cbn in LN; lia).
    rewrite last_last in *.
    assert (H : hole (abs m) (i :: rev (map (tw (abs m)) (p ++ [i])) ++ p)).
    { pose proof (pb_hole (dr_path D)) as H. rewrite <- app_assoc in H. apply hole_rot in H. cbn [app] in H. exact H. }
    pose proof (dr_last D) as OL. rewrite !last_last in OL.
    destruct (do_next dE (u_at (pl (o_stop o))) Wm F H OL) as (m1 & w & e1 & e2 & E & F1 & L).
    assert (D1 := drawn_line W0 D NU eq_refl L). pose proof (dr_wf D1) as Wm1.
    assert (LE : lv (abs m1) e1 = true) by (eapply drawn_live; [exact D1|apply in_app_iff; right; left; auto]).
    destruct (do_curve pl o Wm1 F1 LE (proj1 (ln_ep L))) as (m2 & E2 & Wm2 & F2 & P).
    destruct (split_ends o) as (c0 & c1 & SP & SK). rewrite RO in SK. cbn [negb] in SK. rewrite SP in E2.
    exists m2, (mkPen (n_first n) (Some (o_stop o)) (Some w) (n_sv n) (n_cv n)), e1, w.
    split.
    { unfold Glyph.g_segment. rewrite SP, SK. destruct (n_cur n); [|congruence]. rewrite N1, N3. cbn [unwrap bind]. rewrite SM.
      rewrite E. cbn [bind]. rewrite E2. reflexivity. }
    split; auto. split.
    - apply (@drawn_pay _ _ _ m0 m1 m2 (p ++ [i]) e1 _ _ p0 dE _ _ W0 D1 Wm2 P).
    - split; auto. split; [cbn; congruence|]. rewrite !last_last. cbn [n_cv n_sv n_pv]. split; auto. split.
      + rewrite N4. f_equal. destruct us; auto.
      + rewrite N3, (rp_og P LE). f_equal. symmetry. apply (ln_og L).
  Qed.

  Lemma seg_close c pl m0 m n first (z : outline R) es vs ys p0 p1 a b d : wf m0 ->
    drawn m0 m es vs ys p0 p1 -> 2 <= length es -> penned (abs m) n first es vs -> fits c m (2 + a) b (S d) ->
    real same z = true -> same first (o_stop z) = true ->
    exists m' e f, g_segment c pl (m, n) z = Ok (m', pen_up R) /\ fits c m' a b d /\
      framed dF m0 m' (es ++ [e]) vs ys (p0 ++ [dE]) (p1 ++ [moved pl (o_curve z)]) f.
  Proof.
    intros W0 D LE2 (N1 & N2 & N3 & N4 & N5) F RO SM. pose proof (dr_wf D) as Wm. pose proof (wfW Wm) as W.
    destruct es as [|f0 es]; [cbn in LE2; lia|]. destruct (@exists_last _ es) as (q & fk & ->); [intros ->; cbn in LE2; lia|].
    assert (NE : f0 :: q ++ [fk] <> []) by discriminate.
    assert (LL : last (f0 :: q ++ [fk]) 0 = fk) by (rewrite app_comm_cons; apply last_last).
    assert (CE := fun c => cfv_eq c dE dE dF false D NE). rewrite LL in CE, N5. cbn [hd] in CE.
    destruct (ring_edge dE W0 D F) as (m1 & e1 & e2 & E1 & F1 & T1 & RG).
    assert (EE : f0 :: q ++ [fk; e1] = (f0 :: q) ++ fk :: [e1]) by reflexivity.
    rewrite EE in RG.
    destruct (ring_face dF W0 RG F1) as (m2 & f & E2 & F2 & KT & FR).
    assert (E3 : (f0 :: q) ++ [fk; e1] = (f0 :: q ++ [fk]) ++ [e1]) by (cbn; rewrite <- app_assoc; auto).
    rewrite E3 in FR.
    assert (Le1 : lv (abs m1) e1 = true).
    { apply (rg_in RG). apply in_app_iff; right; right; left; auto. }
    assert (T2 : tw (abs m2) e1 = e2) by (rewrite (proj2 (KT _ Le1)); auto).
    assert (Le2 : lv (abs m2) e2 = true).
    { rewrite <- T1. apply KT. apply (wf_tw (wfW (rg_wf RG))); auto. }
    assert (LP : length (f0 :: q ++ [fk]) = length p1).
    { pose proof (dr_pay1 D) as Q. apply (f_equal (@length _)) in Q. rewrite !map_length in Q. exact Q. }
    assert (Y : ep (abs m2) e2 = Some dE).
    { pose proof (fr_pay1 FR) as Q. unfold pays in Q. rewrite !map_app in Q. cbn [map] in Q. rewrite T2 in Q.
      apply app_inj_tail in Q as [_ Q]. exact Q. }
    destruct (do_curve pl z (fr_wf FR) F2 Le2 Y) as (m3 & E4 & Wm3 & F3 & P).
    destruct (split_ends z) as (c0 & c1 & SP & SK). rewrite RO in SK. cbn [negb] in SK. rewrite SP in E4.
    exists m3, e1, f. split.
    { unfold Glyph.g_segment. rewrite SP, SK. destruct (n_cur n); [|congruence]. rewrite N1, N3, N4, N5. cbn [unwrap bind]. rewrite SM.
      rewrite CE. unfold close_face. rewrite E1. cbn [bind]. rewrite E2. cbn [bind]. rewrite E4. reflexivity. }
    split; auto. apply (framed_pay W0 FR LP Wm3 T2 P).
  Qed.

  Lemma mids c pl m0 first (mid : list (outline R)) : forall m n es vs ys p0 p1 a b d, wf m0 ->
    drawn m0 m es vs ys p0 p1 -> es <> [] -> penned (abs m) n first es vs ->
    fits c m (2 * length mid + a) (length mid + b) d -> forallb (real same) mid = true ->
    Forall (fun o => same first (o_stop o) = false) mid ->
    exists m' n' es' vs', foldM (g_segment c pl) mid (m, n) = Ok (m', n') /\ fits c m' a b d /\ length es' = length mid /\
      drawn m0 m' (es ++ es') (vs ++ vs') (ys ++ map (fun o => u_at (pl (o_stop o))) mid)
        (p0 ++ map (fun o => moved pl (o_curve o)) mid) (p1 ++ repeat dE (length mid)) /\
      penned (abs m') n' first (es ++ es') (vs ++ vs').
  Proof.
    induction mid as [|o mid IH]; intros m n es vs ys p0 p1 a b d W0 D NE PN F RO SM.
    - exists m, n, [], []. cbn [foldM length map repeat]. rewrite !app_nil_r. split; auto.
    - cbn [forallb] in RO. apply andb_prop in RO as [R1 R2]. inversion SM as [|? ? S1 S2]; subst.
      assert (F0 : fits c m (2 + (2 * length mid + a)) (S (length mid + b)) d).
      { eapply (fits_le (dr_wf D)); [exact F|..]; cbn [length]; lia. }
      destruct (seg_mid pl W0 D NE PN F0 R1 S1) as (m1 & n1 & e & w & E & F1 & D1 & P1).
      assert (NE1 : es ++ [e] <> []) by (intros Q; destruct es; discriminate).
      destruct (IH m1 n1 _ _ _ _ _ a b d W0 D1 NE1 P1 F1 R2 S2) as (m2 & n2 & es' & vs' & E2 & F2 & L2 & D2 & P2).
      exists m2, n2, (e :: es'), (w :: vs'). repeat rewrite <- app_assoc in D2. repeat rewrite <- app_assoc in P2. cbn [app] in D2, P2.
      split; [cbn [foldM]; rewrite E; cbn [bind]; exact E2|]. split; auto. split; [cbn; auto|].
      cbn [map length repeat]. auto.
  Qed.

  Lemma linked_starts (x : outline R) mid z : linked (x :: mid ++ [z]) ->
    map (@o_start R) (mid ++ [z]) = map (@o_stop R) (x :: mid).
  Proof.
    revert x. induction mid as [|y mid IH]; intros x H.
    - cbn in *. destruct H as [H _]. congruence.
    - change (x :: (y :: mid) ++ [z]) with (x :: y :: (mid ++ [z])) in H. destruct H as [H1 H2].
      cbn [app map]. rewrite H1. f_equal. apply (IH y H2).
  Qed.

  Lemma one_contour c pl m l a b d : wf m -> contour same l -> forallb (real same) l = true ->
    fits c m (2 * length l + a) (length l + b) (S d) ->
    exists m' es vs f, foldM (g_segment c pl) l (m, pen_up R) = Ok (m', pen_up R) /\ wf m' /\ fits c m' a b d /\
      outlines zero (abs m') dF (pl, l) (es, vs, f) /\ grown (abs m) (abs m') [] (es ++ map (tw (abs m')) es) vs [f].
  Proof.
    intros Wm (x & mid & z & -> & NM & LK & SM & SZ) RO F. cbn [forallb] in RO. rewrite forallb_app in RO.
    apply andb_prop in RO as [R1 RO]. apply andb_prop in RO as [R2 RO]. cbn [forallb] in RO. rewrite andb_true_r in RO.
    assert (F0 : fits c m (2 + (2 * length mid + (2 + a))) (2 + (length mid + b)) (S d)).
    { eapply (fits_le Wm); [exact F|..]; cbn [length]; rewrite ?app_length; cbn [length]; lia. }
    destruct (seg_start pl Wm F0 R1) as (m1 & n1 & e & v0 & v1 & E1 & F1 & D1 & P1).
    destruct (mids pl Wm D1 ltac:(discriminate) P1 F1 R2 SM) as (m2 & n2 & es & vs & E2 & F2 & L2 & D2 & P2).
    assert (L3 : 2 <= length ([e] ++ es)) by (cbn; rewrite L2; destruct mid; [congruence|cbn; lia]).
    destruct (seg_close pl Wm D2 L3 P2 F2 RO SZ) as (m3 & e3 & f & E3 & F3 & FR).
    exists m3, (([e] ++ es) ++ [e3]), ([v0; v1] ++ vs), f.
    split. { cbn [foldM]. rewrite E1. cbn [bind]. rewrite foldM_app, E2. cbn [bind foldM]. rewrite E3. reflexivity. }
    split; [apply FR|]. split; auto. split; [|apply (rb_grown (fr_ring FR))].
    exists (x :: mid), z. split; [reflexivity|]. cbn [fst snd]. split.
    - apply (rb_leads (fr_ring FR)).
    - rewrite (rb_pay (fr_ring FR)).
      transitivity (map (fun p => Some (u_from_pos zero (pl p))) (map (@o_start R) ((x :: mid) ++ [z]))).
      2:{ rewrite map_map. reflexivity. }
      change ((x :: mid) ++ [z]) with (x :: (mid ++ [z])).
      change (map (@o_start R) (x :: (mid ++ [z]))) with (o_start x :: map (@o_start R) (mid ++ [z])).
      rewrite (linked_starts LK). cbn [map app]. rewrite !map_map. reflexivity.
    - apply FR.
    - apply FR.
    - pose proof (fr_pay0 FR) as Q. cbn [app] in Q |- *. exact Q.
    - pose proof (fr_pay1 FR) as Q. exact Q.
  Qed.

  (** * all contours *)
  Lemma outlines_grown g g' E V F p t : WF g -> grown g g' [] E V F -> outlines zero g dF p t -> outlines zero g' dF p t.
  Proof.
    intros W G (l & z & EQ & [A B C D P Q]). exists l, z. split; auto.
    destruct t as [[es vs] f]. cbn [fst snd] in *.
    assert (LE : forall x, In x es -> lv g x = true) by (intros x I; apply C; auto).
    assert (LV : forall x, In x vs -> lvv g x = true).
    { intros x I. apply In_nth_error in I as [k K]. apply (f_equal (fun L => nth_error L k)) in B.
      rewrite (map_nth_error (vp g) _ _ K) in B.
      assert (exists u v, In u es /\ (og g u = x \/ target g u = x) /\ v = x).
      { assert (IV : In x (vs ++ firstn 1 vs)) by (apply in_app_iff; left; eapply nth_error_In; eauto).
        clear - A IV B EQ. assert (NE : es <> []).
        { intros ->. destruct vs as [|v vs]; [destruct IV|]. destruct vs; cbn in A; destruct A. }
        revert NE IV A. generalize (vs ++ firstn 1 vs). clear. induction es as [|e es IH]; intros L NE IV A; [congruence|].
        destruct L as [|v L]; [destruct IV|]. destruct L as [|w L]; [destruct A|]. destruct A as [(A1 & A2 & A3) A].
        destruct IV as [<-|IV]; [exists e, v; cbn; auto|].
        destruct es as [|e' es].
        - destruct L; [|destruct A]. destruct IV as [<-|[]]. exists e, w; cbn; auto.
        - destruct (IH (w :: L) ltac:(discriminate) IV A) as (u & v' & H1 & H2 & H3). exists u, v'; cbn in *; auto. }
      destruct H as (u & v & H1 & H2 & H3). destruct H2 as [<-|<-]; [apply (wf_og W)|apply (wf_og W), (wf_tw W)]; auto. }
    split; cbn [fst snd].
    - eapply lt_grown; eauto.
    - rewrite (map_vp_grown G LV). exact B.
    - eapply gr_face_is; [exact G|exact C|intros x _ []].
    - rewrite (map_tw_grown G LE). eapply gr_hole; [exact G|exact D|intros x _ []].
    - unfold pays in *. rewrite <- P. apply map_ext_in. intros x I. apply (gr_old_e G). auto.
    - rewrite (map_tw_grown G LE). unfold pays in *. rewrite <- Q. apply map_ext_in. intros x I. apply (gr_old_e G).
      apply in_map_iff in I as (y & <- & I). apply (wf_tw W); auto.
  Qed.

  Lemma added_refl g : outlines_added zero g g dF [].
  Proof.
    exists []. split; [constructor|]. cbn. split; auto.
    - apply added_nil; auto.
    - apply added_nil; auto.
    - apply added_nil; auto.
  Qed.

  Lemma added_trans g g1 g2 cs1 cs2 : WF g1 -> outlines_added zero g g1 dF cs1 -> outlines_added zero g1 g2 dF cs2 ->
    outlines_added zero g g2 dF (cs1 ++ cs2).
  Proof.
    intros W1 (ts1 & A1 & G1) (ts2 & A2 & G2). exists (ts1 ++ ts2). split.
    - apply Forall2_app; auto. clear - A1 G2 W1. induction A1; constructor; auto. eapply outlines_grown; eauto.
    - assert (G := grown_trans G1 G2). rewrite !flat_map_app, map_app.
      assert (EQ : flat_map (fun t : list nat * list nat * nat => fst (fst t) ++ map (tw g2) (fst (fst t))) ts1 =
        flat_map (fun t : list nat * list nat * nat => fst (fst t) ++ map (tw g1) (fst (fst t))) ts1).
      { assert (K : forall t, In t ts1 -> map (tw g2) (fst (fst t)) = map (tw g1) (fst (fst t))).
        { intros t I. apply (map_tw_grown G2). intros x Ix. apply (gr_new_e G1).
          apply in_flat_map. exists t. split; auto. apply in_app_iff; auto. }
        clear - K. induction ts1 as [|t ts IH]; cbn; auto. rewrite (K t) by (left; auto). f_equal. apply IH. intros u I. apply K; right; auto. }
      rewrite EQ. apply G. intros x [].
  Qed.

  Lemma all_contours c pl cs : forall m a b d, wf m -> Forall (contour same) cs -> forallb (real same) (concat cs) = true ->
    fits c m (2 * length (concat cs) + a) (length (concat cs) + b) (length cs + d) ->
    exists m', foldM (g_segment c pl) (concat cs) (m, pen_up R) = Ok (m', pen_up R) /\ wf m' /\ fits c m' a b d /\
      outlines_added zero (abs m) (abs m') dF (map (fun l => (pl, l)) cs).
  Proof.
    induction cs as [|l cs IH]; intros m a b d Wm CT RO F.
    - exists m. cbn. split; auto. split; auto. split; [exact F|]. apply added_refl.
    - inversion CT as [|? ? C1 C2]; subst. cbn [concat] in *. rewrite forallb_app in RO. apply andb_prop in RO as [R1 R2].
      assert (F0 : fits c m (2 * length l + (2 * length (concat cs) + a)) (length l + (length (concat cs) + b)) (S (length cs + d))).
      { eapply (fits_le Wm); [exact F|..]; rewrite ?app_length; cbn [length]; lia. }
      destruct (one_contour pl Wm C1 R1 F0) as (m1 & es & vs & f & E1 & Wm1 & F1 & O1 & G1).
      destruct (IH m1 a b d Wm1 C2 R2 F1) as (m2 & E2 & Wm2 & F2 & A2).
      exists m2. split; [rewrite foldM_app, E1; cbn [bind]; exact E2|]. split; auto. split; auto.
      cbn [map]. change ((pl, l) :: map (fun l => (pl, l)) cs) with ([(pl, l)] ++ map (fun l => (pl, l)) cs).
      eapply added_trans; [apply (wfW Wm1)| |exact A2]. exists [(es, vs, f)]. split; [constructor; auto|].
      cbn [flat_map map fst snd]. rewrite !app_nil_r. exact G1.
  Qed.

  Lemma fold_real c pl l : forall s, foldM (g_segment c pl) l s = foldM (g_segment c pl) (filter (real same) l) s.
  Proof.
    induction l as [|o l IH]; intros [m n]; auto. cbn [foldM filter]. destruct (real same o) eqn:Q.
    - cbn [foldM]. destruct (g_segment c pl (m, n) o); cbn [bind]; auto.
    - destruct (split_ends o) as (c0 & c1 & SP & SK). rewrite Q in SK. cbn [negb] in SK.
      assert (E : g_segment c pl (m, n) o = Ok (m, n)) by (unfold Glyph.g_segment; rewrite SP, SK; auto).
      rewrite E. cbn [bind]. apply IH.
  Qed.

  Lemma real_filter (l : list (outline R)) : forallb (real same) (filter (real same) l) = true.
  Proof. apply forallb_forall. intros x I. apply filter_In in I. apply I. Qed.

  Lemma glyph_ok c scale x m ol cs a b d : wf m -> filter (real same) ol = concat cs -> Forall (contour same) cs ->
    fits c m (2 * length (concat cs) + a) (length (concat cs) + b) (length cs + d) ->
    exists m', draw_glyph zero add mul dF same c scale x m (Some ol) = Ok m' /\ wf m' /\ fits c m' a b d /\
      outlines_added zero (abs m) (abs m') dF (map (fun l => (place zero add mul scale x, l)) cs).
  Proof.
    intros Wm EQ CT F. assert (RO : forallb (real same) (concat cs) = true) by (rewrite <- EQ; apply real_filter).
    destruct (all_contours (place zero add mul scale x) Wm CT RO F) as (m' & E & Wm' & F' & A).
    exists m'. split; auto. unfold draw_glyph. rewrite fold_real, EQ, E. reflexivity.
  Qed.

  Section Layout.
    Context {G : Type}.
    Variables (glyph : G -> option (list (outline R))) (kern : G -> G -> R) (advance : G -> R).
    Variable cs : G -> list (list (outline R)).
    Notation at_ := (pen_at zero add kern advance).
    Notation step := (text_step zero add mul dF same glyph kern advance).

    Lemma draw_made c scale x m (g : G) a b d : wf m -> glyph_made same (glyph g) (cs g) ->
      fits c m (2 * length (concat (cs g)) + a) (length (concat (cs g)) + b) (length (cs g) + d) ->
      exists m', draw_glyph zero add mul dF same c scale x m (glyph g) = Ok m' /\ wf m' /\ fits c m' a b d /\
        outlines_added zero (abs m) (abs m') dF (map (fun l => (place zero add mul scale x, l)) (cs g)).
    Proof.
      intros Wm M F. unfold glyph_made in M. destruct (glyph g) as [ol|].
      - destruct M. eapply glyph_ok; eauto.
      - rewrite M in *. exists m. split; [reflexivity|]. split; auto. split; [exact F|]. apply added_refl.
    Qed.

    Lemma pen_next pre (g : G) rest x : nth_error (pre ++ g :: rest) (length pre) = Some g ->
      (forall p l, pre = p ++ [l] -> x = add (at_ (pre ++ g :: rest) (length p)) (advance l)) ->
      forall p l, pre = p ++ [l] -> at_ (pre ++ g :: rest) (length pre) = add x (kern l g).
    Proof.
      intros N X p l E. rewrite (X p l E). subst pre. rewrite app_length, Nat.add_comm. cbn [length plus pen_at].
      assert (N1 : nth_error ((p ++ [l]) ++ g :: rest) (length p) = Some l).
      { rewrite <- app_assoc. cbn. rewrite nth_error_app2, Nat.sub_diag; auto. }
      rewrite N1. rewrite app_length, Nat.add_comm in N. cbn [length plus] in N. rewrite N. reflexivity.
    Qed.

    Lemma text_from c scale rest : forall pre m x last a b d, wf m ->
      Forall (fun g : G => glyph_made same (glyph g) (cs g)) rest ->
      fits c m (2 * length (concat (flat_map cs rest)) + a) (length (concat (flat_map cs rest)) + b) (length (flat_map cs rest) + d) ->
      (pre = [] /\ x = zero /\ last = None \/
       exists p l, pre = p ++ [l] /\ last = Some l /\ x = add (at_ (pre ++ rest) (length p)) (advance l)) ->
      exists m' x' last', foldM (step c scale) rest (m, x, last) = Ok (m', x', last') /\ wf m' /\ fits c m' a b d /\
        outlines_added zero (abs m) (abs m') dF
          (flat_map (fun ka => map (fun l => (place zero add mul scale (at_ (pre ++ rest) (fst ka)), l)) (cs (snd ka)))
             (combine (seq (length pre) (length rest)) rest)).
    Proof.
      induction rest as [|g rest IH]; intros pre m x last a b d Wm M F I.
      - exists m, x, last. split; [reflexivity|]. split; auto. split; [exact F|]. apply added_refl.
      - inversion M as [|? ? M1 M2]; subst. cbn [flat_map] in F. rewrite concat_app, !app_length in F.
        assert (N : nth_error (pre ++ g :: rest) (length pre) = Some g) by (rewrite nth_error_app2, Nat.sub_diag; auto).
        set (x1 := match last with Some l => add x (kern l g) | None => x end).
        assert (X1 : x1 = at_ (pre ++ g :: rest) (length pre)).
        { destruct I as [(-> & -> & ->)|(p & l & E & -> & X)]; [reflexivity|]. unfold x1. symmetry.
          apply (@pen_next pre g rest x N) with (p := p); auto.
          intros p' l' E'. assert (Q : p ++ [l] = p' ++ [l']) by congruence. apply app_inj_tail in Q as [<- <-]. exact X. }
        assert (F0 : fits c m (2 * length (concat (cs g)) + (2 * length (concat (flat_map cs rest)) + a))
          (length (concat (cs g)) + (length (concat (flat_map cs rest)) + b)) (length (cs g) + (length (flat_map cs rest) + d))).
        { eapply (fits_le Wm); [exact F|..]; lia. }
        destruct (draw_made scale x1 Wm M1 F0) as (m1 & E1 & Wm1 & F1 & A1).
        assert (EQ : pre ++ g :: rest = (pre ++ [g]) ++ rest) by (rewrite <- app_assoc; auto).
        destruct (IH (pre ++ [g]) m1 (add x1 (advance g)) (Some g) a b d Wm1 M2 F1) as (m2 & x2 & l2 & E2 & Wm2 & F2 & A2).
        { right. exists pre, g. split; auto. split; auto. rewrite <- EQ, X1. reflexivity. }
        exists m2, x2, l2. split.
        { cbn [foldM]. unfold text_step at 1. fold x1. rewrite E1. cbn [bind]. exact E2. }
        split; auto. split; auto. cbn [length seq combine flat_map fst snd]. rewrite <- X1.
        rewrite <- EQ in A2. rewrite app_length, Nat.add_comm in A2. cbn [length plus] in A2.
        eapply added_trans; [apply (wfW Wm1)|exact A1|exact A2].
    Qed.

    Lemma text_ok c scale m text a b d : wf m -> Forall (fun g : G => glyph_made same (glyph g) (cs g)) text ->
      fits c m (2 * length (concat (flat_map cs text)) + a) (length (concat (flat_map cs text)) + b) (length (flat_map cs text) + d) ->
      exists m', layout_text zero add mul dF same glyph kern advance c scale m text = Ok m' /\ wf m' /\ fits c m' a b d /\
        outlines_added zero (abs m) (abs m') dF (drawing zero add kern advance (place zero add mul scale) cs text).
    Proof.
      intros Wm M F. destruct (@text_from c scale text [] m zero None a b d Wm M F) as (m' & x & l & E & Wm' & F' & A); [auto|].
      exists m'. split; [|auto]. unfold layout_text. rewrite E. reflexivity.
    Qed.
  End Layout.

  (** an outline that never returns to its start *)
  Lemma glyph_open c scale x m ol o l a b d : wf m -> filter (real same) ol = o :: l ->
    Forall (fun y => same (o_start o) (o_stop y) = false) l ->
    fits c m (2 * S (length l) + a) (S (S (length l)) + b) d ->
    let pl := place zero add mul scale x in
    exists m' es vs, draw_glyph zero add mul dF same c scale x m (Some ol) = Ok m' /\ wf m' /\ fits c m' a b d /\
      path_built (abs m) (abs m') es vs (map (fun p => u_from_pos zero (pl p)) (o_start o :: map (@o_stop R) (o :: l))).
  Proof.
    intros Wm EQ SM F pl. assert (RO := real_filter ol). rewrite EQ in RO. cbn [forallb] in RO. apply andb_prop in RO as [R1 R2].
    assert (F0 : fits c m (2 + (2 * length l + a)) (2 + (length l + b)) d) by (eapply (fits_le Wm); [exact F|..]; lia).
    destruct (seg_start pl Wm F0 R1) as (m1 & n1 & e & v0 & v1 & E1 & F1 & D1 & P1).
    destruct (mids pl Wm D1 ltac:(discriminate) P1 F1 R2 SM) as (m2 & n2 & es & vs & E2 & F2 & L2 & D2 & P2).
    exists m2, ([e] ++ es), ([v0; v1] ++ vs). split.
    { unfold draw_glyph. rewrite fold_real, EQ. cbn [foldM]. fold pl. rewrite E1. cbn [bind]. rewrite E2. reflexivity. }
    split; [apply D2|]. split; auto. pose proof (dr_path D2) as B. cbn [map app] in B |- *. rewrite map_map. exact B.
  Qed.

  (** two segments: the closing edge already exists *)
  Lemma glyph_two c scale x m o z a b d : wf m -> dbg c = true -> real same o = true -> real same z = true ->
    same (o_start o) (o_stop z) = true -> fits c m (2 + a) (2 + b) d ->
    draw_glyph zero add mul dF same c scale x m (Some [o; z]) = Panic.
  Proof.
    intros Wm DB RO RZ SZ F. unfold draw_glyph. set (pl := place zero add mul scale x).
    destruct (seg_start pl Wm F RO) as (m1 & n1 & e & v0 & v1 & E1 & F1 & D1 & (N1 & N2 & N3 & N4 & N5)).
    cbn [foldM]. fold pl. rewrite E1. cbn [bind].
    destruct (split_ends z) as (c0 & c1 & SP & SK). rewrite RZ in SK. cbn [negb] in SK.
    unfold Glyph.g_segment at 1. rewrite SP, SK. destruct (n_cur n1); [|congruence].
    rewrite N1, N3, N4, N5. cbn [unwrap bind]. rewrite SZ.
    pose proof (cfv_eq c dE dE dF false D1 ltac:(discriminate)) as CE. rewrite CE. cbn [last hd].
    assert (CP : close_face c m1 e dE (tw (abs m1) e) dE dF false = Panic); [|rewrite CP; reflexivity].
    pose proof (dr_wf D1) as Wm1. destruct (wf_abs Wm1) as [R1 W1].
    assert (Le : lv (abs m1) e = true) by (eapply drawn_live; [exact D1|left; auto]).
    set (t := tw (abs m1) e). assert (Lt : lv (abs m1) t = true) by (apply (wf_tw W1); auto).
    assert (TT : tw (abs m1) t = e) by (apply (wf_twtw W1); auto).
    destruct (dr_first D1) as (A1 & A2 & A3). destruct (dr_last D1) as (B1 & B2 & B3). cbn [hd last] in *.
    assert (NXe : nx (abs m1) e = t). { apply B3; [apply (wf_nx W1); auto|]. rewrite (wf_ognx W1); auto. }
    assert (NXt : nx (abs m1) t = e).
    { apply A3; [apply (wf_nx W1); auto|]. rewrite (wf_ognx W1), TT; auto. }
    assert (LP : loop (abs m1) (e :: [t])).
    { pose proof (pb_hole (dr_path D1)) as H. apply H. }
    assert (LP' : loop (abs m1) (t :: [e])) by (apply (@loop_rot _ _ _ _ [e] [t]); exact LP).
    unfold close_face, insert_edge.
    destruct (r_edge_live R1 _ Le) as (xe & XE & _). destruct (r_edge_live R1 _ Lt) as (xt & XT & _). rewrite XE, XT. cbn [bind].
    rewrite (r_gtarget' Wm1 Le), (r_gtarget' Wm1 Lt). fold t. rewrite TT. cbn [bind].
    assert (S1 := same_back Wm1 LP (or_intror (or_introl eq_refl)) (o := t)). rewrite NXt in S1.
    assert (S2 := same_back Wm1 LP' (or_intror (or_introl eq_refl)) (o := e)). rewrite NXe in S2.
    rewrite S1, S2. rewrite !dassert_true by auto.
    rewrite !(r_next R1), Le, Lt, NXe, NXt, Le, Lt. cbn [andb bind].
    assert (V1 : lvv (abs m1) (og (abs m1) e) = true) by (apply (wf_og W1); auto).
    assert (V2 : lvv (abs m1) (og (abs m1) t) = true) by (apply (wf_og W1); auto).
    unfold insert_edge_no_update.
    rewrite (dassert_true (b := Ok (d_has (verts m1) (og (abs m1) t)))) by (intros _; rewrite (r_has_v R1), V2; auto).
    rewrite (dassert_true (b := Ok (d_has (verts m1) (og (abs m1) e)))) by (intros _; rewrite (r_has_v R1), V1; auto).
    rewrite !(r_next_id R1), !(r_origin_id R1), !(r_target R1), Le, Lt, NXe, NXt, Le, Lt. cbn [andb bind].
    rewrite !Nat.eqb_refl. rewrite !dassert_true by auto.
    destruct (@shared_edge_ok _ _ _ m1 [] [] [] (abs m1) c R1 W1 (og (abs m1) t) (og (abs m1) e) V2) as (r & -> & SR).
    destruct r as [r|]; [|exfalso; apply (SR t); auto; rewrite TT; auto].
    cbn [bind is_none]. unfold dassert at 1. rewrite DB. reflexivity.
  Qed.
End Glyphs.
