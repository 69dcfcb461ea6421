(** Operations that look for the boundary corner themselves. *)
From Coq Require Import List Arith Lia Bool.
From Verif Require Import Base DVec DVecFacts Mesh Spec Rep Splice Cycle Traverse Room Ops Ops2.
Import ListNotations.
Set Implicit Arguments.
Unset Strict Implicit.

Lemma filter_unique {A} (p : A -> bool) l e : NoDup l -> In e l -> p e = true ->
  (forall x, In x l -> p x = true -> x = e) -> filter p l = [e].
Proof.
  intros ND I P U. assert (K : forall l', NoDup l' -> ~ In e l' -> (forall x, In x l' -> p x = true -> x = e) -> filter p l' = []).
  { clear. induction l' as [|x l' IH]; intros ND NI U; auto. simpl. inversion ND; subst.
    destruct (p x) eqn:E. - exfalso. apply NI. left. apply U; auto. left; auto.
    - apply IH; auto. intros X; apply NI; right; auto. intros; apply U; auto; right; auto. }
  apply in_split in I as (l1 & l2 & ->). apply NoDup_remove in ND as [ND NI].
  rewrite filter_app. simpl. rewrite P.
  assert (ND1 : NoDup l1) by (apply NoDup_remove_1 with (l' := []) (a := e) || idtac; clear -ND; induction l1; simpl in *; [constructor|inversion ND; subst; constructor; auto; rewrite in_app_iff in *; tauto]).
  assert (ND2 : NoDup l2) by (clear -ND; induction l1; simpl in *; auto; inversion ND; auto).
  rewrite !K; auto; intros; try (apply U; auto; rewrite in_app_iff in *; simpl; tauto);
    intros X; apply NI; rewrite in_app_iff; auto.
Qed.

Lemma find_unique {A} (p : A -> bool) l e : In e l -> p e = true ->
  (forall x, In x l -> p x = true -> x = e) -> find p l = Some e.
Proof.
  intros I P U. destruct (find p l) as [x|] eqn:F.
  - apply find_in in F as [Ix Px]. f_equal. auto.
  - apply (find_none _ _ F) in I. congruence.
Qed.

Section Ops.
  Context {VP EP FP : Type}.
  Notation mesh := (mesh VP EP FP).
  Notation graph := (graph VP EP FP).
  Implicit Types (g : graph) (m : mesh) (c : cfg).

  Ltac geqs := split; intros j; cbn -[Nat.eqb]; unfold fu, at_in, at_out, cin, cout, opt;
    cbn -[Nat.eqb]; intros; rewrite ?andb_true_r, ?andb_false_r; eqcase.

  (** At most one boundary half-edge leaves [v]. *)
  Definition one_corner g (v : nat) : Prop := forall x y,
    lv g x = true -> lv g y = true -> og g x = v -> og g y = v -> fc g x = None -> fc g y = None -> x = y.

  Lemma one_corner_in g v : WF g -> one_corner g v -> forall x y,
    lv g x = true -> lv g y = true -> og g (tw g x) = v -> og g (tw g y) = v ->
    fc g x = None -> fc g y = None -> x = y.
  Proof.
    intros W U x y Lx Ly Ox Oy Fx Fy. eapply nx_inj; eauto.
    apply U; try (apply W; auto; fail); rewrite ?(wf_ognx W), ?(wf_fcnx W); auto.
  Qed.

  Lemma corner_at_ok c m g v p n : rep m [] [] [] g -> WF g -> (dbg c = true \/ one_corner g v) ->
    inserter c m true v = Ok p -> inserter c m false v = Ok n ->
    lvv g v = true /\ exists ca, corner_ok g v ca /\ p = option_map fst ca /\ n = option_map snd ca /\
      (ca <> None -> one_corner g v).
  Proof.
    intros R W U HP HN. unfold inserter in *.
    destruct (lvv g v) eqn:L; [|rewrite (r_vertex_dead R) in HP by auto; discriminate].
    split; auto. destruct (r_vertex_live R _ L) as (x & EX & VE & _).
    rewrite EX in HP, HN. cbn [bind] in HP, HN. rewrite <- VE in HP, HN.
    destruct (ve g v) as [e|] eqn:V.
    - apply bind_ok in HP as (rp & HP1 & HP). apply bind_ok in HP as (p' & HP2 & HP). injection HP as <-.
      apply unwrap_ok in HP2. subst rp.
      apply bind_ok in HN as (rn & HN1 & HN). apply bind_ok in HN as (n' & HN2 & HN). injection HN as <-.
      apply unwrap_ok in HN2. subst rn.
      destruct (ingoing_ok R W L HP1) as (Lp & Op & Fp & Up).
      destruct (outgoing_ok R W L HN1) as (Ln & On & Fn & Un).
      assert (OC : one_corner g v).
      { destruct U as [DB|U]; auto. intros a b La Lb Oa Ob Fa Fb.
        rewrite (Un DB a), (Un DB b); auto. }
      assert (NX : nx g p' = n').
      { apply OC; auto; try (apply W; auto; fail); rewrite ?(wf_ognx W), ?(wf_fcnx W); auto. }
      exists (Some (p', n')). cbn. repeat split; auto.
    - injection HP as <-. injection HN as <-. exists None. cbn. repeat split; auto. congruence.
  Qed.

  Lemma f_inserter c m g v ca : rep m [] [] [] g -> WF g -> corner_ok g v ca ->
    (ca <> None -> one_corner g v) ->
    inserter c m true v = Ok (option_map fst ca) /\ inserter c m false v = Ok (option_map snd ca).
  Proof.
    intros R W C U. unfold inserter.
    assert (L : lvv g v = true) by (destruct (@corner_facts _ _ _ g W v ca C); auto).
    destruct (r_vertex_live R _ L) as (x & -> & VE & _). cbn [bind]. rewrite <- VE.
    destruct ca as [[i o]|].
    - destruct (@corner_facts _ _ _ g W v _ C) as [_ H]. destruct (H i o eq_refl) as (Li & Lo & NX & PV & OO & Fi & Fo & OT & LT & V).
      assert (OC : one_corner g v) by (apply U; congruence).
      pose proof (one_corner_in W OC) as OI.
      destruct (ve g v); [|congruence].
      destruct (edges_out_ok c R W L) as (l & OL & E & F).
      destruct (edges_in_ok c R W L) as (l' & OL' & E' & EI & FI).
      pose proof (in_tw_out W OL') as IN.
      assert (LL : forall x, In x l -> lv g x = true) by (intros; apply OL; auto).
      assert (LL' : forall x, In x (map (tw g) l') -> lv g x = true) by (intros; apply IN; auto).
      split.
      + unfold ingoing_boundary_edge. rewrite dassert_true.
        * rewrite FI with (p := fun x => is_none (fc g x)).
          2:{ intros z Hz. rewrite (r_boundary R), (LL' z Hz). reflexivity. }
          rewrite find_unique with (e := i); [reflexivity| | |].
          { apply IN; auto. } { apply is_none_true; auto. }
          intros z Hz Fz. apply is_none_true in Fz. apply IN in Hz as [? ?]. apply OI; auto.
        * intros _. rewrite EI. cbn [bind]. rewrite (boundary_of_ok R) by auto. cbn [bind].
          rewrite filter_unique with (e := i); [reflexivity| | | |].
          { apply NoDup_map_inv with (f := tw g). rewrite map_map. rewrite map_ext_in with (g := fun x => x).
            - rewrite map_id. apply OL'.
            - intros z Hz. apply W. apply OL'; auto. }
          { apply IN; auto. } { apply is_none_true; auto. }
          intros z Hz Fz. apply is_none_true in Fz. apply IN in Hz as [? ?]. apply OI; auto.
      + unfold outgoing_boundary_edge. rewrite dassert_true.
        * rewrite F with (p := fun x => is_none (fc g x)).
          2:{ intros z Hz. rewrite (r_boundary R), (LL z Hz). reflexivity. }
          rewrite find_unique with (e := o); [reflexivity| | |].
          { apply OL; auto. } { apply is_none_true; auto. }
          intros z Hz Fz. apply is_none_true in Fz. apply OL in Hz as [? ?]. apply OC; auto.
        * intros _. rewrite E. cbn [bind]. rewrite (boundary_of_ok R) by auto. cbn [bind].
          rewrite filter_unique with (e := o); [| | | |].
          { destruct (length l =? 0); reflexivity. }
          { apply OL. } { apply OL; auto. } { apply is_none_true; auto. }
          intros z Hz Fz. apply is_none_true in Fz. apply OL in Hz as [? ?]. apply OC; auto.
    - destruct C as [_ V]. rewrite V. auto.
  Qed.

  (** insert_edge_between, src/halfedge/mesh/builder/halfedge.rs:102-191 *)
  Lemma insert_edge_between_ok c m g o0 y0 o1 y1 m' e0 e1 :
    rep m [] [] [] g -> WF g -> o0 <> o1 ->
    (dbg c = true \/ (one_corner g o0 /\ one_corner g o1)) ->
    insert_edge_between c m o0 y0 o1 y1 = Ok (m', e0, e1) ->
    lv g e0 = false /\ lv g e1 = false /\ e0 <> e1 /\
    exists ca cb, corner_ok g o0 ca /\ corner_ok g o1 cb /\ corners_apart o0 o1 ca cb /\
      (ca <> None -> one_corner g o0) /\ (cb <> None -> one_corner g o1) /\
      rep m' [] [] [] (splice e0 e1 o0 o1 ca cb y0 y1 g) /\
      (dbg c = true -> shared_edge c m o0 o1 = Ok None /\ shared_edge c m o1 o0 = Ok None).
  Proof.
    intros R W NE U H. unfold insert_edge_between in H.
    apply dassert_ok in H as [_ H]. apply dassert_ok in H as [_ H].
    apply dassert_ok in H as [S0 H]. apply dassert_ok in H as [S1 H].
    apply bind_ok in H as (next0 & HN0 & H). apply bind_ok in H as (prev0 & HP0 & H).
    apply bind_ok in H as (next1 & HN1 & H). apply bind_ok in H as (prev1 & HP1 & H).
    assert (U0 : dbg c = true \/ one_corner g o0) by tauto.
    assert (U1 : dbg c = true \/ one_corner g o1) by tauto.
    destruct (corner_at_ok R W U0 HP0 HN1) as (L0 & ca & CA & -> & -> & UA).
    destruct (corner_at_ok R W U1 HP1 HN0) as (L1 & cb & CB & -> & -> & UB).
    apply bind_ok in H as (((m1 & e0') & e1') & H1 & H).
    destruct (w_insert_pair R H1) as (D0 & D1 & N01 & R1). clear H1.
    assert (AP : corners_apart o0 o1 ca cb).
    { destruct ca as [[i o]|], cb as [[i' o']|]; cbn; auto. intros <-.
      apply NE. destruct CA as (A1 & A2 & A3 & A4), CB as (B1 & B2 & B3 & B4). congruence. }
    assert (SH : dbg c = true -> shared_edge c m o0 o1 = Ok None /\ shared_edge c m o1 o0 = Ok None).
    { intros DB. specialize (S0 DB). specialize (S1 DB). split.
      - destruct (shared_edge c m o0 o1) as [[?|]| |]; cbn in S0; auto; discriminate.
      - destruct (shared_edge c m o1 o0) as [[?|]| |]; cbn in S1; auto; discriminate. }
    apply bind_ok in H as (m2 & H2 & H). apply bind_ok in H as (m3 & H3 & H).
    apply bind_ok in H as (m4 & H4 & H). apply bind_ok in H as (m5 & H5 & H).
    injection H as <- <- <-.
    split; auto. split; auto. split; auto. exists ca, cb. split; auto. split; auto. split; auto. split; auto. split; auto.
    split; auto.
    destruct (@corner_facts _ _ _ g W _ _ CA) as [_ FA]. destruct (@corner_facts _ _ _ g W _ _ CB) as [_ FB].
    destruct ca as [[i o]|], cb as [[i' o']|]; cbn [option_map fst snd] in *.
    - destruct (w_set_prev R1 H2) as (_ & R2). destruct (w_set_next R2 H3) as (_ & R3).
      destruct (w_set_prev R3 H4) as (_ & R4). destruct (w_set_next R4 H5) as (_ & R5).
      destruct (FA i o eq_refl) as (A1 & A2 & A3 & A4 & A5 & _). destruct (FB i' o' eq_refl) as (B1 & B2 & B3 & B4 & B5 & _).
      clear - R5 D0 D1 N01 A1 A2 A3 A4 A5 B1 B2 B3 B4 B5 AP NE. cbn in AP.
      eapply rep_geq_l; [exact R5|]. geqs.
    - destruct (w_set_vedge R1 H2) as (_ & R2). destruct (w_set_next R2 H3) as (_ & R3).
      destruct (w_set_prev R3 H4) as (_ & R4). injection H5 as <-.
      destruct (FA i o eq_refl) as (A1 & A2 & A3 & A4 & A5 & _).
      clear - R4 D0 D1 N01 A1 A2 A3 A4 A5 NE.
      eapply rep_geq_l; [exact R4|]. geqs.
    - destruct (w_set_prev R1 H2) as (_ & R2). injection H3 as <-.
      destruct (w_set_vedge R2 H4) as (_ & R4). destruct (w_set_next R4 H5) as (_ & R5).
      destruct (FB i' o' eq_refl) as (B1 & B2 & B3 & B4 & B5 & _).
      clear - R5 D0 D1 N01 B1 B2 B3 B4 B5 NE.
      eapply rep_geq_l; [exact R5|]. geqs.
    - destruct (w_set_vedge R1 H2) as (_ & R2). injection H3 as <-.
      destruct (w_set_vedge R2 H4) as (_ & R4). injection H5 as <-.
      clear - R4 D0 D1 N01 NE.
      eapply rep_geq_l; [exact R4|]. geqs.
  Qed.

  Lemma f_insert_edge_between c m g o0 y0 o1 y1 ca cb a b d :
    rep m [] [] [] g -> WF g -> room c m (2 + a) b d ->
    corner_ok g o0 ca -> corner_ok g o1 cb ->
    (ca <> None -> one_corner g o0) -> (cb <> None -> one_corner g o1) ->
    (dbg c = true -> shared_edge c m o0 o1 = Ok None /\ shared_edge c m o1 o0 = Ok None) ->
    exists m' e0 e1, insert_edge_between c m o0 y0 o1 y1 = Ok (m', e0, e1) /\ room c m' a b d.
  Proof.
    intros R W RM CA CB UA UB S. unfold insert_edge_between.
    destruct (@corner_facts _ _ _ g W _ _ CA) as [LA FA]. destruct (@corner_facts _ _ _ g W _ _ CB) as [LB FB].
    rewrite (dassert_true (b := Ok (d_has _ _))) by (intros; rewrite (r_has_v R), LA; auto).
    rewrite (dassert_true (b := Ok (d_has _ _))) by (intros; rewrite (r_has_v R), LB; auto).
    rewrite (dassert_true (b := let* s := shared_edge c m o0 _ in _))
      by (intros DB; destruct (S DB) as [-> _]; auto).
    rewrite (dassert_true (b := let* s := shared_edge c m o1 _ in _))
      by (intros DB; destruct (S DB) as [_ ->]; auto).
    destruct (f_inserter c R W CA UA) as [-> ->]. destruct (f_inserter c R W CB UB) as [-> ->].
    cbn [bind].
    destruct (@f_insert_pair _ _ _ c m [] [] g (option_map snd cb) (option_map fst ca) o0 None y0
      (option_map snd ca) (option_map fst cb) o1 None y1 a b d R RM) as (m1 & e0 & e1 & E1 & RM1).
    { intros x [Hx|[Hx|[Hx|[Hx|[]]]]].
      - destruct cb as [[i o]|]; [|discriminate]. injection Hx as <-. eapply (FB i o eq_refl).
      - destruct ca as [[i o]|]; [|discriminate]. injection Hx as <-. eapply (FA i o eq_refl).
      - destruct ca as [[i o]|]; [|discriminate]. injection Hx as <-. eapply (FA i o eq_refl).
      - destruct cb as [[i o]|]; [|discriminate]. injection Hx as <-. eapply (FB i o eq_refl). }
    rewrite E1. cbn [bind]. destruct (w_insert_pair R E1) as (D0 & D1 & N01 & R1).
    assert (ST : forall x, lv g x = true -> fu (fu (lv g) e0 true) e1 true x = true).
    { intros x Hx. unfold fu. eqcase. }
    assert (S2 : exists m2 g2, match option_map snd cb with
       | Some n => set_prev m1 n e0 | None => set_vedge m1 o1 (Some e1) end = Ok m2 /\ rep m2 [] [] [] g2 /\ room c m2 a b d /\
       (forall x, lv g x = true -> lv g2 x = true) /\ (lvv g2 o0 = true)).
    { destruct cb as [[i o]|]; cbn [option_map snd].
      - destruct (@f_set_prev _ _ _ c m1 [] [] [] _ o e0 a b d R1) as (m2 & E & R2 & RM2); auto.
        { cbn. apply ST. apply (FB i o eq_refl). } eauto 10.
      - destruct (@f_set_vedge _ _ _ c m1 [] [] [] _ o1 (Some e1) a b d R1) as (m2 & E & R2 & RM2); auto. eauto 10. }
    destruct S2 as (m2 & g2 & -> & R2 & RM2 & ST2 & LV2). cbn [bind].
    assert (S3 : exists m3 g3, match option_map fst ca with
       | Some n => set_next m2 n e0 | None => Ok m2 end = Ok m3 /\ rep m3 [] [] [] g3 /\ room c m3 a b d /\
       (forall x, lv g x = true -> lv g3 x = true) /\ (lvv g3 o0 = true)).
    { destruct ca as [[i o]|]; cbn [option_map fst]; [|eauto 10].
      destruct (@f_set_next _ _ _ c m2 [] [] [] _ i e0 a b d R2) as (m3 & E & R3 & RM3); auto.
      { apply ST2. apply (FA i o eq_refl). } eauto 10. }
    destruct S3 as (m3 & g3 & -> & R3 & RM3 & ST3 & LV3). cbn [bind].
    assert (S4 : exists m4 g4, match option_map snd ca with
       | Some n => set_prev m3 n e1 | None => set_vedge m3 o0 (Some e0) end = Ok m4 /\ rep m4 [] [] [] g4 /\ room c m4 a b d /\
       (forall x, lv g x = true -> lv g4 x = true)).
    { destruct ca as [[i o]|]; cbn [option_map snd].
      - destruct (@f_set_prev _ _ _ c m3 [] [] [] _ o e1 a b d R3) as (m4 & E & R4 & RM4); auto.
        { cbn. apply ST3. apply (FA i o eq_refl). } eauto 10.
      - destruct (@f_set_vedge _ _ _ c m3 [] [] [] _ o0 (Some e0) a b d R3) as (m4 & E & R4 & RM4); auto. eauto 10. }
    destruct S4 as (m4 & g4 & -> & R4 & RM4 & ST4). cbn [bind].
    destruct cb as [[i o]|]; cbn [option_map fst].
    - destruct (@f_set_next _ _ _ c m4 [] [] [] _ i e1 a b d R4) as (m5 & -> & R5 & RM5); auto.
      { apply ST4. apply (FB i o eq_refl). } cbn [bind]. eauto.
    - cbn [bind]. eauto.
  Qed.

  (** add_vertex_via_vertex, src/halfedge/mesh/builder/halfedge.rs:43-75 *)
  Lemma add_vertex_via_vertex_ok c m g v y y1 y2 m' w e1 e2 :
    rep m [] [] [] g -> WF g ->
    add_vertex_via_vertex c m v y y1 y2 = Ok (m', w, e1, e2) ->
    lvv g v = true /\
    exists input, lv g input = true /\ og g (tw g input) = v /\
      (dbg c = true -> fc g input = None) /\
      lvv g w = false /\ lv g e1 = false /\ lv g e2 = false /\ e1 <> e2 /\
      rep m' [] [] []
        (splice e1 e2 v w (Some (input, nx g input)) None y1 y2 (gw_vertex w None y g)).
  Proof.
    intros R W H. unfold add_vertex_via_vertex in H.
    apply bind_ok in H as (one & H1 & H). apply bind_ok in H as ((input & output) & H2 & H).
    apply dassert_ok in H as [DI H]. apply dassert_ok in H as [DO H].
    unfold has_only_one_edge in H1. rewrite (r_vedge R) in H1.
    destruct (lvv g v) eqn:L; [|discriminate]. split; auto.
    assert (G : lv g input = true /\ nx g input = output /\ og g output = v).
    { destruct one.
      - rewrite (r_vedge R), L in H2. destruct (ve g v) as [e|] eqn:V; [|discriminate].
        destruct (wf_ve W _ L V) as [Le Oe]. rewrite Le in H1, H2. cbn [bind unwrap] in *.
        destruct (r_edge_live R _ Le) as (x & EX & X1 & X2 & X3 & _). rewrite EX in H1. cbn [bind] in H1.
        injection H1 as H1. apply Nat.eqb_eq in H1. rewrite (r_twin_id R), Le in H2. cbn [bind] in H2.
        injection H2 as <- <-. split; [apply W; auto|]. split; auto.
        replace (tw g e) with (pv g e) by congruence. apply W; auto.
      - apply bind_ok in H2 as (r & H2 & H3). destruct r as [b|]; [|discriminate].
        apply dassert_ok in H3 as [_ H3]. apply bind_ok in H3 as (p & H4 & H3).
        injection H3 as <- <-.
        destruct (edges_out_ok c R W L) as (l & OL & E & F).
        rewrite F with (p := fun x => is_none (fc g x)) in H2.
        2:{ intros z Hz. apply OL in Hz as [Lz _]. rewrite (r_boundary R), Lz. reflexivity. }
        injection H2 as H2. apply find_in in H2 as [Ib Fb]. apply OL in Ib as [Lb Ob].
        rewrite (r_prev_id R), Lb in H4. injection H4 as <-.
        split; [apply W; auto|]. split; auto. apply W; auto. }
    destruct G as (LI & NX & OO).
    destruct (add_vertex_via_edge_ok R (or_intror LI) H) as (LO & _ & _ & ? & ? & ? & ? & R').
    rewrite OO in R'. subst output.
    exists input. split; auto. split; [rewrite <- (wf_ognx W) by auto; auto|].
    split; [|repeat split; auto; apply R'].
    intros DB. specialize (DI DB). rewrite (r_boundary R), LI in DI. injection DI as DI.
    apply is_none_true; auto.
  Qed.

  Lemma f_add_vertex_via_vertex c m g v y y1 y2 i a b d :
    rep m [] [] [] g -> WF g -> room c m (2 + a) (S b) d ->
    lv g i = true -> og g i = v -> fc g i = None -> one_corner g v ->
    exists m' w e1 e2, add_vertex_via_vertex c m v y y1 y2 = Ok (m', w, e1, e2) /\ room c m' a b d.
  Proof.
    intros R W RM Li Oi Fi OC. unfold add_vertex_via_vertex.
    assert (L : lvv g v = true) by (subst v; apply W; auto).
    unfold has_only_one_edge. rewrite (r_vedge R), L.
    destruct (wf_wheel W _ Li) as (e & V & RE). rewrite Oi in V. rewrite V.
    destruct (wf_ve W _ L V) as [Le Oe]. rewrite Le. cbn [bind].
    destruct (r_edge_live R _ Le) as (x & EX & X1 & X2 & X3 & _). rewrite EX. cbn [bind].
    rewrite <- X2, <- X3.
    destruct (Nat.eqb_spec (pv g e) (tw g e)) as [Q|Q].
    - cbn [unwrap bind]. rewrite (r_twin_id R), Le. cbn [bind].
      assert (e = i).
      { assert (WE : wheel g e = e). { unfold wheel. rewrite <- Q. apply W; auto. }
        clear - RE WE. induction RE; auto. subst. auto. }
      subst i.
      rewrite !(r_boundary R), (wf_tw W _ Le), Le.
      assert (FT : fc g (tw g e) = None). { rewrite <- Q. rewrite <- (wf_fcnx W), (wf_nxpv W); auto. apply W; auto. }
      rewrite Fi, FT. cbn [is_none]. rewrite !dassert_true by auto.
      eapply f_add_vertex_via_edge; eauto; try (repeat apply W; auto; fail).
      rewrite <- Q. rewrite (wf_nxpv W) by auto. auto.
    - destruct (edges_out_ok c R W L) as (l & OL & E & F).
      assert (LL : forall x, In x l -> lv g x = true) by (intros; apply OL; auto).
      rewrite F with (p := fun x => is_none (fc g x)).
      2:{ intros z Hz. rewrite (r_boundary R), (LL z Hz). reflexivity. }
      rewrite find_unique with (e := i).
      2:{ apply OL; auto. } 2:{ apply is_none_true; auto. }
      2:{ intros z Hz Fz. apply is_none_true in Fz. apply OL in Hz as [? ?]. apply OC; auto. }
      cbn [bind]. rewrite dassert_true.
      2:{ intros _. rewrite E. cbn [bind]. rewrite (boundary_of_ok R) by auto. cbn [bind].
          rewrite filter_unique with (e := i); [reflexivity|apply OL|apply OL; auto|apply is_none_true; auto|].
          intros z Hz Fz. apply is_none_true in Fz. apply OL in Hz as [? ?]. apply OC; auto. }
      rewrite (r_prev_id R), Li. cbn [bind].
      pose proof (wf_pv W _ Li) as Lp.
      rewrite !(r_boundary R), Lp, Li.
      assert (FT : fc g (pv g i) = None). { rewrite <- (wf_fcnx W), (wf_nxpv W); auto. }
      rewrite Fi, FT. cbn [is_none]. rewrite !dassert_true by auto.
      eapply f_add_vertex_via_edge; eauto; rewrite (wf_nxpv W); auto.
  Qed.
End Ops.
