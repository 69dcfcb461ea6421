(** The edge-inserting builder operations as graph transformations. *)
From Coq Require Import List Arith Lia Bool.
From Verif Require Import Base DVec DVecFacts Mesh Spec Rep Splice Cycle Traverse Room Ops.
Import ListNotations.
Set Implicit Arguments.
Unset Strict Implicit.

Ltac eqcase := repeat match goal with
  | |- context [?a =? ?b] => destruct (Nat.eqb_spec a b); try subst; try congruence
  end; try congruence; auto.

Lemma dassert_true {A} c (b : res bool) (k : res A) :
  (dbg c = true -> b = Ok true) -> dassert c b k = k.
Proof. unfold dassert. destruct (dbg c); auto. intros ->; auto. Qed.

Section Ops.
  Context {VP EP FP : Type}.
  Notation mesh := (mesh VP EP FP).
  Notation graph := (graph VP EP FP).
  Implicit Types (g : graph) (m : mesh) (c : cfg).

  Ltac geqs := split; intros j; cbn -[Nat.eqb]; unfold fu, at_in, at_out, cin, cout, opt;
    cbn -[Nat.eqb]; intros; rewrite ?andb_true_r, ?andb_false_r; eqcase.

  (** add_vertex_via_edge, src/halfedge/mesh/builder/halfedge.rs:17-41 *)
  Lemma add_vertex_via_edge_ok c m g input output y y1 y2 m' v e1 e2 :
    rep m [] [] [] g -> (dbg c = true \/ lv g input = true) ->
    add_vertex_via_edge c m input output y y1 y2 = Ok (m', v, e1, e2) ->
    lv g output = true /\ lv g input = true /\
    (dbg c = true -> og g (nx g input) = og g output) /\
    lvv g v = false /\ lv g e1 = false /\ lv g e2 = false /\ e1 <> e2 /\
    rep m' [] [] []
      (splice e1 e2 (og g output) v (Some (input, output)) None y1 y2 (gw_vertex v None y g)).
  Proof.
    intros R DL H. unfold add_vertex_via_edge in H.
    rewrite (r_origin_id R) in H. destruct (lv g output) eqn:LO; [|discriminate]. cbn [bind] in H.
    apply dassert_ok in H as [D H].
    assert (D' : dbg c = true -> lv g input = true /\ og g (nx g input) = og g output).
    { intros DB. specialize (D DB). rewrite (r_target R) in D.
      destruct (lv g input && lv g (nx g input)) eqn:LL; [|discriminate].
      apply andb_prop in LL as [LL _]. cbn [bind] in D. injection D as D. apply Nat.eqb_eq in D. auto. }
    assert (LI : lv g input = true) by (destruct DL; auto; apply D'; auto). clear D DL.
    apply bind_ok in H as ((m1 & v1) & H1 & H). destruct (w_alloc_vertex R H1) as (DV & _ & R1).
    apply bind_ok in H as (((m2 & e1') & e2') & H2 & H).
    destruct (w_insert_pair R1 H2) as (D1 & D2 & NE & R2). clear R1 H1 H2.
    apply bind_ok in H as (m3 & H3 & H).
    pose proof (@w_set_vertex _ _ _ m2 [] [] v1 [] [] _ c _ m3 R2 H3) as R3. cbn [app v_edge v_pay] in R3. clear R2 H3.
    apply bind_ok in H as (m4 & H4 & H). destruct (w_set_next R3 H4) as (L4 & R4). clear R3 H4.
    apply bind_ok in H as (m5 & H5 & H). destruct (w_set_prev R4 H5) as (L5 & R5). clear R4 H5.
    injection H as <- <- <- <-.
    split; auto. split; auto. split; [apply D'|]. split; auto. split; auto. split; auto. split; auto.
    eapply rep_geq_l; [exact R5|]. geqs.
  Qed.

  Lemma f_add_vertex_via_edge c m g input output y y1 y2 a b d :
    rep m [] [] [] g -> room c m (2 + a) (S b) d -> lv g input = true -> lv g output = true ->
    lv g (nx g input) = true -> og g (nx g input) = og g output ->
    exists m' v e1 e2, add_vertex_via_edge c m input output y y1 y2 = Ok (m', v, e1, e2) /\
      room c m' a b d.
  Proof.
    intros R RM LI LO LN T. unfold add_vertex_via_edge.
    rewrite (r_origin_id R), LO. cbn [bind]. rewrite dassert_true.
    2:{ intros _. rewrite (r_target R), LI, LN. cbn. rewrite T, Nat.eqb_refl. reflexivity. }
    destruct (f_alloc_vertex R RM) as (m1 & v & -> & DV & _ & R1 & RM1). cbn [bind].
    destruct (@f_insert_pair _ _ _ c m1 [v] [] g None (Some input) (og g output) None y1
      (Some output) None v None y2 a b d R1 RM1) as (m2 & e1 & e2 & E2 & RM2).
    { intros x [Hx|[Hx|[Hx|[Hx|[]]]]]; congruence. }
    rewrite E2. cbn [bind]. destruct (w_insert_pair R1 E2) as (D1 & D2 & NE & R2).
    destruct (@f_set_vertex _ _ _ c m2 [] [] v [] [] _ (mkV (Some e2) y) a b d R2 RM2) as (m3 & -> & R3 & RM3).
    cbn [bind app] in *.
    destruct (@f_set_next _ _ _ c m3 [] [] [] _ input e1 a b d R3) as (m4 & -> & R4 & RM4); auto.
    { cbn -[Nat.eqb]. unfold fu. eqcase. }
    cbn [bind].
    destruct (@f_set_prev _ _ _ c m4 [] [] [] _ output e2 a b d R4) as (m5 & -> & R5 & RM5); auto.
    { cbn -[Nat.eqb]. unfold fu. eqcase. }
    cbn [bind]. do 4 eexists. eauto.
  Qed.

  (** The graph after [add_vertex_via_edge] at a boundary corner is consistent. *)
  Lemma add_vertex_splice_WF g input output v e1 e2 y y1 y2 :
    WF g -> lv g input = true -> nx g input = output -> fc g input = None ->
    lvv g v = false -> lv g e1 = false -> lv g e2 = false -> e1 <> e2 ->
    WF (splice e1 e2 (og g output) v (Some (input, output)) None y1 y2 (gw_vertex v None y g)).
  Proof.
    intros W LI N F DV D1 D2 NE. apply splice_WF; auto.
    - apply gw_vertex_WF; auto.
    - cbn. auto.
    - cbn. unfold fu. rewrite Nat.eqb_refl. auto.
    - exact I.
  Qed.

  (** add_isolated_edge, src/halfedge/mesh/builder/halfedge.rs:77-100 *)
  Lemma add_isolated_edge_ok c m g ya y1 yb y2 m' v0 v1 :
    rep m [] [] [] g -> add_isolated_edge c m ya y1 yb y2 = Ok (m', v0, v1) ->
    lvv g v0 = false /\ lvv g v1 = false /\ v0 <> v1 /\
    exists e0 e1, lv g e0 = false /\ lv g e1 = false /\ e0 <> e1 /\
    rep m' [] [] []
      (splice e0 e1 v0 v1 None None y1 y2 (gw_vertex v1 None yb (gw_vertex v0 None ya g))).
  Proof.
    intros R H. unfold add_isolated_edge in H.
    apply bind_ok in H as ((m1 & v0') & H1 & H). destruct (w_alloc_vertex R H1) as (D0 & _ & R1).
    apply bind_ok in H as ((m2 & v1') & H2 & H). destruct (w_alloc_vertex R1 H2) as (D1 & NI & R2).
    apply bind_ok in H as (((m3 & e0) & e1) & H3 & H).
    destruct (w_insert_pair R2 H3) as (DE0 & DE1 & NE & R3). clear R1 R2 H1 H2 H3.
    apply bind_ok in H as (m4 & H4 & H).
    pose proof (@w_set_vertex _ _ _ m3 [] [v1'] v0' [] [] _ c _ m4 R3 H4) as R4. cbn [app v_edge v_pay] in R4. clear R3 H4.
    apply bind_ok in H as (m5 & H5 & H).
    pose proof (@w_set_vertex _ _ _ m4 [] [] v1' [] [] _ c _ m5 R4 H5) as R5. cbn [app v_edge v_pay] in R5. clear R4 H5.
    injection H as <- <- <-.
    assert (v0' <> v1') by (intros ->; apply NI; left; auto).
    split; auto. split; auto. split; auto. exists e0, e1. split; auto. split; auto. split; auto.
    eapply rep_geq_l; [exact R5|]. geqs.
  Qed.

  Lemma f_add_isolated_edge c m g ya y1 yb y2 a b d :
    rep m [] [] [] g -> room c m (2 + a) (2 + b) d ->
    exists m' v0 v1, add_isolated_edge c m ya y1 yb y2 = Ok (m', v0, v1) /\ room c m' a b d.
  Proof.
    intros R RM. unfold add_isolated_edge.
    destruct (f_alloc_vertex R RM) as (m1 & v0 & -> & _ & _ & R1 & RM1). cbn [bind].
    destruct (f_alloc_vertex R1 RM1) as (m2 & v1 & -> & _ & _ & R2 & RM2). cbn [bind].
    destruct (@f_insert_pair _ _ _ c m2 [v1; v0] [] g None None v0 None y1
      None None v1 None y2 a b d R2 RM2) as (m3 & e0 & e1 & E3 & RM3).
    { intros x [Hx|[Hx|[Hx|[Hx|[]]]]]; congruence. }
    rewrite E3. cbn [bind]. destruct (w_insert_pair R2 E3) as (D1 & D2 & NE & R3).
    destruct (@f_set_vertex _ _ _ c m3 [] [v1] v0 [] [] _ (mkV (Some e0) ya) a b d R3 RM3) as (m4 & -> & R4 & RM4).
    cbn [bind app] in *.
    destruct (@f_set_vertex _ _ _ c m4 [] [] v1 [] [] _ (mkV (Some e1) yb) a b d R4 RM4) as (m5 & -> & R5 & RM5).
    cbn [bind]. eauto.
  Qed.

  Lemma isolated_splice_WF g v0 v1 e0 e1 ya yb y1 y2 :
    WF g -> lvv g v0 = false -> lvv g v1 = false -> v0 <> v1 ->
    lv g e0 = false -> lv g e1 = false -> e0 <> e1 ->
    WF (splice e0 e1 v0 v1 None None y1 y2 (gw_vertex v1 None yb (gw_vertex v0 None ya g))).
  Proof.
    intros W D0 D1 NV L0 L1 NE. apply splice_WF; auto.
    - apply gw_vertex_WF; [apply gw_vertex_WF; auto|]. cbn. unfold fu. eqcase.
    - cbn -[Nat.eqb]. unfold fu. split; eqcase.
    - cbn -[Nat.eqb]. unfold fu. split; eqcase.
  Qed.

  (** insert_edge_no_check, src/halfedge/mesh/builder/semi.rs:12-38 *)
  Definition ins_edge (i o e1 e2 : nat) (y1 y2 : EP) g : graph :=
    splice e1 e2 (og g (nx g i)) (og g (nx g o)) (Some (i, nx g i)) (Some (o, nx g o)) y1 y2 g.

  Lemma relink_ok m g i o oi oo e1 e2 m' qe qv qf :
    rep m qe qv qf g -> relink m i o oi oo e1 e2 = Ok m' ->
    rep m' qe qv qf (gw_next o e2 (gw_next i e1 (gw_prev oo e2 (gw_prev oi e1 g)))).
  Proof.
    intros R H. unfold relink in H.
    apply bind_ok in H as (m1 & H1 & H). destruct (w_set_prev R H1) as (_ & R1).
    apply bind_ok in H as (m2 & H2 & H). destruct (w_set_prev R1 H2) as (_ & R2).
    apply bind_ok in H as (m3 & H3 & H). destruct (w_set_next R2 H3) as (_ & R3).
    destruct (w_set_next R3 H) as (_ & R4). exact R4.
  Qed.

  Lemma f_relink c m g i o oi oo e1 e2 qe qv qf a b d :
    rep m qe qv qf g -> room c m a b d ->
    lv g i = true -> lv g o = true -> lv g oi = true -> lv g oo = true ->
    exists m', relink m i o oi oo e1 e2 = Ok m' /\ room c m' a b d.
  Proof.
    intros R RM L1 L2 L3 L4. unfold relink.
    destruct (@f_set_prev _ _ _ c m qe qv qf g oi e1 a b d) as (m1 & -> & R1 & RM1); auto. cbn [bind].
    destruct (@f_set_prev _ _ _ c m1 qe qv qf _ oo e2 a b d R1) as (m2 & -> & R2 & RM2); auto. cbn [bind].
    destruct (@f_set_next _ _ _ c m2 qe qv qf _ i e1 a b d R2) as (m3 & -> & R3 & RM3); auto. cbn [bind].
    destruct (@f_set_next _ _ _ c m3 qe qv qf _ o e2 a b d R3) as (m4 & -> & R4 & RM4); auto. eauto.
  Qed.

  Lemma ins_edge_core c m g i o y1 y2 m1 e1 e2 m2 :
    rep m [] [] [] g -> WF g -> lv g i = true -> lv g o = true -> i <> o ->
    insert_pair c m (Some (nx g o)) (Some i) (og g (nx g i)) None y1 (Some (nx g i)) (Some o) (og g (nx g o)) None y2
      = Ok (m1, e1, e2) ->
    relink m1 i o (nx g o) (nx g i) e1 e2 = Ok m2 ->
    lv g e1 = false /\ lv g e2 = false /\ e1 <> e2 /\ rep m2 [] [] [] (ins_edge i o e1 e2 y1 y2 g).
  Proof.
    intros R W Li Lo NE H1 H2.
    destruct (w_insert_pair R H1) as (D1 & D2 & N12 & R1). pose proof (relink_ok R1 H2) as R2.
    split; auto. split; auto. split; auto. eapply rep_geq_l; [exact R2|].
    pose proof (wf_nx W i Li) as Lni. pose proof (wf_nx W o Lo) as Lno.
    assert (nx g i <> nx g o) by (intros X; apply NE; eapply nx_inj; eauto).
    unfold ins_edge. geqs.
  Qed.

  Lemma f_ins_edge_core c m g i o y1 y2 a b d :
    rep m [] [] [] g -> WF g -> lv g i = true -> lv g o = true -> room c m (2 + a) b d ->
    exists m1 e1 e2 m2,
    insert_pair c m (Some (nx g o)) (Some i) (og g (nx g i)) None y1 (Some (nx g i)) (Some o) (og g (nx g o)) None y2
      = Ok (m1, e1, e2) /\
    relink m1 i o (nx g o) (nx g i) e1 e2 = Ok m2 /\ room c m2 a b d.
  Proof.
    intros R W Li Lo RM. pose proof (wf_nx W i Li) as Lni. pose proof (wf_nx W o Lo) as Lno.
    destruct (@f_insert_pair _ _ _ c m [] [] g (Some (nx g o)) (Some i) (og g (nx g i)) None y1
      (Some (nx g i)) (Some o) (og g (nx g o)) None y2 a b d R RM) as (m1 & e1 & e2 & E1 & RM1).
    { intros x [Hx|[Hx|[Hx|[Hx|[]]]]]; congruence. }
    destruct (w_insert_pair R E1) as (D1 & D2 & N12 & R1).
    exists m1, e1, e2.
    destruct (@f_relink c m1 _ i o (nx g o) (nx g i) e1 e2 [] [] [] a b d R1 RM1) as (m2 & E2 & RM2);
      try (cbn -[Nat.eqb]; unfold fu; eqcase; fail).
    eauto.
  Qed.

  Lemma ins_edge_WF g i o e1 e2 y1 y2 :
    WF g -> lv g i = true -> lv g o = true -> i <> o -> fc g i = None -> fc g o = None ->
    lv g e1 = false -> lv g e2 = false -> e1 <> e2 -> WF (ins_edge i o e1 e2 y1 y2 g).
  Proof. intros. apply splice_WF; auto; cbn; auto. Qed.

  Lemma insert_edge_no_check_ok c m g i o y1 y2 m' e1 e2 :
    rep m [] [] [] g -> WF g -> i <> o ->
    insert_edge_no_check c m i y1 o y2 = Ok (m', e1, e2) ->
    lv g i = true /\ lv g o = true /\ lv g e1 = false /\ lv g e2 = false /\ e1 <> e2 /\
    rep m' [] [] [] (ins_edge i o e1 e2 y1 y2 g).
  Proof.
    intros R W NE H. unfold insert_edge_no_check in H. rewrite !(r_chk R) in H.
    destruct (lv g i) eqn:Li; [|discriminate]. destruct (lv g o) eqn:Lo; [|discriminate].
    rewrite !(r_gtarget R), !(r_next R), Li, Lo, (wf_nx W i Li), (wf_nx W o Lo) in H. cbn [andb bind] in H.
    rewrite (wf_og W _ (wf_nx W i Li)), (wf_og W _ (wf_nx W o Lo)) in H. cbn [bind] in H.
    apply bind_ok in H as (((m1 & e1') & e2') & H1 & H). apply bind_ok in H as (m2 & H2 & H).
    injection H as <- <- <-. split; auto. split; auto.
    eapply ins_edge_core; eauto.
  Qed.

  Lemma insert_edge_ok c m g i o y1 y2 m' e1 e2 :
    rep m [] [] [] g -> WF g -> i <> o ->
    insert_edge c m i y1 o y2 = Ok (m', e1, e2) ->
    lv g i = true /\ lv g o = true /\ lv g e1 = false /\ lv g e2 = false /\ e1 <> e2 /\
    rep m' [] [] [] (ins_edge i o e1 e2 y1 y2 g) /\
    (dbg c = true -> same_face_back m i (og g (nx g o)) = Ok true /\
       same_face_back m o (og g (nx g i)) = Ok true /\
       shared_edge c m (og g (nx g i)) (og g (nx g o)) = Ok None /\
       shared_edge c m (og g (nx g o)) (og g (nx g i)) = Ok None).
  Proof.
    intros R W NE H. unfold insert_edge in H. rewrite !(r_chk R) in H.
    destruct (lv g i) eqn:Li; [|discriminate]. destruct (lv g o) eqn:Lo; [|discriminate].
    rewrite !(r_gtarget R), !(r_next R), Li, Lo, (wf_nx W i Li), (wf_nx W o Lo) in H. cbn [andb bind] in H.
    rewrite (wf_og W _ (wf_nx W i Li)), (wf_og W _ (wf_nx W o Lo)) in H. cbn [bind] in H.
    apply dassert_ok in H as [D1 H]. apply dassert_ok in H as [D2 H].
    apply bind_ok in H as (((m1 & e1') & e2') & H1 & H). apply bind_ok in H as (m2 & H2 & H).
    do 4 (apply dassert_ok in H as [_ H]). injection H as <- <- <-.
    unfold insert_edge_no_update in H1. do 6 (apply dassert_ok in H1 as [_ H1]).
    apply dassert_ok in H1 as [D3 H1]. apply dassert_ok in H1 as [D4 H1].
    split; auto. split; auto.
    destruct (ins_edge_core R W Li Lo NE H1 H2) as (? & ? & ? & ?).
    split; auto. split; auto. split; auto. split; auto.
    intros DB. specialize (D1 DB). specialize (D2 DB). specialize (D3 DB). specialize (D4 DB).
    split; auto. split; auto.
    split.
    - destruct (shared_edge c m (og g (nx g i)) (og g (nx g o))) as [[?|]| |]; cbn in D3; auto; discriminate.
    - destruct (shared_edge c m (og g (nx g o)) (og g (nx g i))) as [[?|]| |]; cbn in D4; auto; discriminate.
  Qed.

  Lemma ins_edge_facts g i o e1 e2 y1 y2 :
    WF g -> lv g i = true -> lv g o = true -> i <> o ->
    lv g e1 = false -> lv g e2 = false -> e1 <> e2 ->
    let g' := ins_edge i o e1 e2 y1 y2 g in
    (lv g' e1 = true /\ pv g' e1 = i /\ nx g' e1 = nx g o /\ nx g' i = e1 /\ pv g' (nx g o) = e1) /\
    (lv g' e2 = true /\ pv g' e2 = o /\ nx g' e2 = nx g i /\ nx g' o = e2 /\ pv g' (nx g i) = e2) /\
    (forall x, lv g x = true -> lv g' x = true).
  Proof.
    intros W Li Lo NE D1 D2 N12. pose proof (wf_nx W i Li) as Lni. pose proof (wf_nx W o Lo) as Lno.
    assert (nx g i <> nx g o) by (intros X; apply NE; eapply nx_inj; eauto).
    unfold ins_edge; cbn -[Nat.eqb]; unfold fu, at_in, at_out, cin, cout, opt; cbn -[Nat.eqb].
    split; [|split]; [repeat split; eqcase|repeat split; eqcase|intros; eqcase].
  Qed.

  Lemma f_insert_edge c m g i o y1 y2 a b d :
    rep m [] [] [] g -> WF g -> i <> o -> room c m (2 + a) b d ->
    lv g i = true -> lv g o = true ->
    (dbg c = true -> same_face_back m i (og g (nx g o)) = Ok true /\
       same_face_back m o (og g (nx g i)) = Ok true /\
       shared_edge c m (og g (nx g i)) (og g (nx g o)) = Ok None /\
       shared_edge c m (og g (nx g o)) (og g (nx g i)) = Ok None) ->
    exists m' e1 e2, insert_edge c m i y1 o y2 = Ok (m', e1, e2) /\ room c m' a b d.
  Proof.
    intros R W NE RM Li Lo D. unfold insert_edge. rewrite !(r_chk R), Li, Lo.
    pose proof (wf_nx W i Li) as Lni. pose proof (wf_nx W o Lo) as Lno.
    rewrite !(r_gtarget R), !(r_next R), Li, Lo, Lni, Lno. cbn [andb bind].
    rewrite (wf_og W _ Lni), (wf_og W _ Lno). cbn [bind].
    rewrite !dassert_true by (intros DB; apply D; auto).
    destruct (@f_ins_edge_core c m g i o y1 y2 a b d R W Li Lo RM) as (m1 & e1 & e2 & m2 & E1 & E2 & RM2).
    destruct (ins_edge_core R W Li Lo NE E1 E2) as (D1 & D2 & N12 & R2).
    unfold insert_edge_no_update.
    rewrite (dassert_true (b := Ok (d_has _ _))) by (intros; rewrite (r_has_v R), (wf_og W _ Lni); auto).
    rewrite (dassert_true (b := Ok (d_has _ _))) by (intros; rewrite (r_has_v R), (wf_og W _ Lno); auto).
    rewrite !(r_next_id R), Li, Lo, !(r_origin_id R), Lni, Lno, !(r_target R), Li, Lo, Lni, Lno.
    cbn [bind andb]. rewrite !Nat.eqb_refl.
    rewrite !(dassert_true (b := Ok true)) by auto.
    rewrite (dassert_true (b := let* s := shared_edge c m (og g (nx g i)) _ in _))
      by (intros DB; destruct (D DB) as (_ & _ & -> & _); auto).
    rewrite (dassert_true (b := let* s := shared_edge c m (og g (nx g o)) _ in _))
      by (intros DB; destruct (D DB) as (_ & _ & _ & ->); auto).
    rewrite E1. cbn [bind]. rewrite E2. cbn [bind].
    assert (X : forall e, e = e1 \/ e = e2 ->
      (let* p := g_prev m2 e in let* n := next_id m2 p in Ok (n =? e)) = Ok true /\
      (let* p := g_next m2 e in let* n := prev_id m2 p in Ok (n =? e)) = Ok true).
    { intros e He.
      pose proof (@ins_edge_facts g i o e1 e2 y1 y2 W Li Lo NE D1 D2 N12) as (F1 & F2 & FL).
      cbv zeta in *.
      destruct He as [-> | ->]; [clear F2; destruct F1 as (F1 & F3 & F4 & F5 & F6)|clear F1; destruct F2 as (F1 & F3 & F4 & F5 & F6)];
        rewrite (r_prev R2), (r_next R2), F1, F3, F4, !FL by auto; cbn [andb bind];
        rewrite (r_next_id R2), (r_prev_id R2), F5, F6, !FL by auto; cbn [bind];
        rewrite Nat.eqb_refl; auto. }
    rewrite !dassert_true by (intros _; apply X; auto).
    eauto.
  Qed.
End Ops.
