(** [loop_subdivision] runs through and keeps the shape of the mesh. *)
From Coq Require Import List Arith Lia Bool.
From Verif Require Import Base DVec DVecFacts Mesh Spec Rep Splice Cycle Traverse Room Ops Ops2 Subdivision SubdivSpec SubdivStep SubdivFace SubdivInv SubdivCut.
Import ListNotations.
Set Implicit Arguments.
Unset Strict Implicit.
Local Arguments abs : simpl never.

Lemma iter_r (f : nat -> nat) n x : Nat.iter (S n) f x = Nat.iter n f (f x).
Proof. induction n; [reflexivity|]. change (f (Nat.iter (S n) f x) = f (Nat.iter n f (f x))). rewrite IHn. auto. Qed.

Lemma chain_iter f x l : chain f x l -> last l x = Nat.iter (length l) f x.
Proof.
  revert x. induction l as [|y l IH]; intros x; [reflexivity|]. intros [<- C].
  rewrite last_cons, (IH _ C). cbn [length]. rewrite iter_r. reflexivity.
Qed.

Lemma filter_one (f f' : nat -> bool) x l : NoDup l -> In x l -> f x = true ->
  (forall y, In y l -> f' y = f y && negb (y =? x)) -> length (filter f l) = S (length (filter f' l)).
Proof.
  induction l as [|y l IH]; intros ND I F E; [destruct I|]. apply NoDup_cons_iff in ND as [N ND].
  cbn [filter]. rewrite (E y) by (left; auto). destruct I as [->|I].
  - rewrite F, Nat.eqb_refl. cbn. f_equal. f_equal. apply filter_ext_in. intros z Z. rewrite (E z) by (right; auto).
    destruct (Nat.eqb_spec z x); [congruence|]. rewrite andb_true_r. auto.
  - destruct (Nat.eqb_spec y x); [congruence|]. rewrite andb_true_r.
    assert (Q : length (filter f l) = S (length (filter f' l))) by (apply IH; auto; intros; apply E; right; auto).
    destruct (f y); cbn; auto.
Qed.

Section Loop.
  Context {VP EP FP : Type}.
  Notation mesh := (mesh VP EP FP).
  Notation graph := (graph VP EP FP).
  Implicit Types (g : graph) (m : mesh) (c : cfg) (q : st).
  Variable g0 : graph.
  Variable W : WF g0.
  Variable T : triangles g0.
  Variable phi : list (nat * VP) -> VP.
  Variable dE : EP.
  Variable interp : mesh -> list (nat * nat) -> res VP.
  Variable CP : VP -> VP -> VP -> Prop.
  Hypothesis RD : reads CP phi interp.
  Hypothesis EF : every_face CP g0.
  Notation Inv := (Inv g0 phi).
  Notation F0 := (F0 g0).
  Notation pre := (pre g0).
  Notation dom := (dom g0).

  Section Search.
    Variables (q : st) (g : graph) (m : mesh).
    Hypothesis I : Inv q g.
    Hypothesis R : rep m [] [] [] g.

    Lemma search_none e : lv g0 e = true -> sp q e = false -> sp q (tw g0 e) = false ->
      forall n fl cur, lv g0 cur = true -> og g0 cur = og g0 e -> Nat.iter n (wheel g0) cur = e -> n < fl ->
      fixup_search m e (tw g0 e) (og g0 e) cur fl = Ok None.
    Proof.
      intros L NS NT. pose proof (live_t W L) as LT. induction n as [|n IH]; intros fl cur Lc Oc It Fl;
        (destruct fl as [|fl]; [lia|]); cbn [fixup_search].
      - cbn in It. subst cur. rewrite (r_twin_id R), (r_twin R). pose proof (dO q L) as D. pose proof (dO q LT) as DT.
        pose proof (i_tw I D) as Q. cbn in Q. rewrite NS in Q. cbn in Q. rewrite Q.
        pose proof (dom_live I D) as G. cbn in G. rewrite G. pose proof (dom_live I DT) as GT. cbn in GT. rewrite GT. cbn [andb bind].
        destruct (Nat.eqb_spec (tw g0 e) e) as [E|_]; [destruct (wf_twne W L E)|].
        rewrite (r_next R), GT. pose proof (i_nx I DT) as Q2. cbn -[SubdivInv.pre] in Q2.
        rewrite (nsp_npre I LT NT), NT in Q2. rewrite Q2.
        pose proof (dom_live I (dO q (live_n W LT))) as GN. cbn in GN. rewrite GN. cbn [andb bind].
        rewrite (r_origin_id R), GN. pose proof (i_og I (dO q (live_n W LT))) as Q3. cbn in Q3. rewrite Q3. cbn [bind].
        rewrite (wf_ognx W _ LT), (wf_twtw W _ L), Nat.eqb_refl. cbn [negb].
        rewrite (r_prev_id R), GN. pose proof (i_pv I (dO q (live_n W LT))) as Q4. cbn in Q4.
        rewrite (wf_pvnx W _ LT), NT in Q4. rewrite Q4. cbn [bind]. rewrite Nat.eqb_refl. auto.
      - set (y := tw g0 cur). pose proof (live_t W Lc) as Ly. fold y in Ly.
        assert (Ow : og g0 (nx g0 y) = og g0 e) by (rewrite (wf_ognx W _ Ly); unfold y; rewrite (wf_twtw W _ Lc); auto).
        assert (IHn : fixup_search m e (tw g0 e) (og g0 e) (nx g0 y) fl = Ok None).
        { apply IH; auto; [apply (live_n W Ly)| |lia]. rewrite iter_r in It. exact It. }
        assert (Ny : y <> e).
        { intros E. unfold y in E. assert (cur = tw g0 e) by (rewrite <- E; symmetry; apply (wf_twtw W); auto). subst cur.
          apply (tm_apart T L). auto. }
        pose proof (dO q Lc) as D. pose proof (dom_live I D) as G. cbn in G.
        pose proof (dO q (live_n W Ly)) as DN. pose proof (dom_live I DN) as GN. cbn in GN.
        pose proof (i_og I DN) as ON. cbn in ON.
        rewrite (r_twin_id R), (r_twin R), G. pose proof (i_tw I D) as Q. cbn in Q. fold y in Q.
        destruct (sp q cur && sp q y) eqn:S2.
        + apply andb_prop in S2 as [Sc Sy]. pose proof (dS Ly Sy) as DS. pose proof (dom_live I DS) as GS. cbn in GS.
          rewrite Q, GS. cbn [andb bind].
          destruct (Nat.eqb_spec (sn q y) e) as [E|_].
          { apply (@i_inj _ _ _ _ _ _ _ I tS y tO e) in E as [E _]; auto; [discriminate|apply dO; auto]. }
          rewrite (r_next R), GS. pose proof (i_nx I DS) as Q2. cbn in Q2. rewrite Q2, GN. cbn [andb bind].
          rewrite (r_origin_id R), GN, ON, Ow. cbn [bind]. rewrite Nat.eqb_refl. cbn [negb].
          rewrite (r_prev_id R), GN. pose proof (i_pv I DN) as Q4. cbn in Q4. rewrite (wf_pvnx W _ Ly), Sy in Q4. rewrite Q4. cbn [bind].
          destruct (Nat.eqb_spec (sn q y) (tw g0 e)) as [E|_]; auto.
        + pose proof (dO q Ly) as Dy. pose proof (dom_live I Dy) as Gy. cbn in Gy. rewrite Q, Gy. cbn [andb bind].
          destruct (Nat.eqb_spec y e) as [E|_]; [tauto|]. rewrite (r_next R), Gy.
          pose proof (i_nx I Dy) as Q2. cbn -[SubdivInv.pre] in Q2.
          destruct (sp q y) eqn:Sy.
          * assert (X : exists j, nx g y = j /\ lv g j = true /\ og g j = mu q y).
            { rewrite Q2. destruct (pre q y) eqn:Py.
              - pose proof (dC Ly Py) as DC. exists (cn q y). split; auto. split; [apply (dom_live I DC)|apply (i_og I DC)].
              - pose proof (dS Ly Sy) as DC. exists (sn q y). split; auto. split; [apply (dom_live I DC)|apply (i_og I DC)]. }
            destruct X as (j & -> & Gj & Oj). rewrite Gj. cbn [andb bind]. rewrite (r_origin_id R), Gj, Oj. cbn [bind].
            destruct (Nat.eqb_spec (mu q y) (og g0 e)) as [E|_]; auto.
            pose proof (i_mu1 I Ly Sy) as A. rewrite E, (wf_og W _ L) in A. discriminate.
          * rewrite (nsp_npre I Ly Sy) in Q2. rewrite Q2, GN. cbn [andb bind].
            rewrite (r_origin_id R), GN, ON, Ow. cbn [bind]. rewrite Nat.eqb_refl. cbn [negb].
            rewrite (r_prev_id R), GN. pose proof (i_pv I DN) as Q4. cbn in Q4. rewrite (wf_pvnx W _ Ly), Sy in Q4. rewrite Q4. cbn [bind].
            destruct (Nat.eqb_spec y (tw g0 e)) as [E|_]; auto.
    Qed.

    Lemma search_found e fl : lv g0 e = true -> sp q e = false -> pre q (tw g0 e) = true -> 3 <= fl ->
      fixup_search m e (tw g0 e) (mu q (tw g0 e)) (cn q (tw g0 e)) fl = Ok (Some (sn q (tw g0 e))).
    Proof.
      intros L NS PT Fl. pose proof (live_t W L) as LT. pose proof (wf_twtw W _ L) as TT. set (t := tw g0 e) in *.
      pose proof (i_pre I LT PT) as ST.
      assert (PN : pre q (nx g0 t) = true) by (rewrite pre_nx; auto). pose proof (live_n W LT) as LN.
      pose proof (dC LT PT) as D1. pose proof (dD LT PT) as D2. pose proof (dD LN PN) as D3. pose proof (dC LN PN) as D4. pose proof (dS LT ST) as D5.
      assert (NE : forall tg a, dom q tg a = true -> tg <> tO -> nm q tg a <> e).
      { intros tg a D N E. apply (@i_inj _ _ _ _ _ _ _ I tg a tO e) in E; auto; [tauto|apply dO; auto]. }
      assert (NT : forall tg a, dom q tg a = true -> tg <> tO -> nm q tg a <> t).
      { intros tg a D N E. apply (@i_inj _ _ _ _ _ _ _ I tg a tO t) in E; auto; [tauto|apply dO; auto]. }
      pose proof (dom_live I D1) as G1. pose proof (dom_live I D2) as G2. pose proof (dom_live I D3) as G3. pose proof (dom_live I D4) as G4. pose proof (dom_live I D5) as G5.
      pose proof (i_tw I D1) as T1. pose proof (i_nx I D2) as N2. pose proof (i_og I D3) as O3. pose proof (i_pv I D3) as P3.
      pose proof (i_tw I D3) as T3. pose proof (i_nx I D4) as N4. pose proof (i_og I D5) as O5. pose proof (i_pv I D5) as P5. pose proof (i_tw I D5) as T5.
      assert (A2 : dn q t <> e) by (apply (NE tD); auto; discriminate). assert (A4 : cn q (nx g0 t) <> e) by (apply (NE tC); auto; discriminate).
      assert (B2 : dn q t <> t) by (apply (NT tD); auto; discriminate). assert (B4 : cn q (nx g0 t) <> t) by (apply (NT tC); auto; discriminate).
      cbn -[SubdivInv.pre] in *. rewrite (wf_pvnx W _ LT) in *. rewrite PT in P5. rewrite TT in T5.
      destruct fl as [|[|[|fl]]]; try lia. cbn [fixup_search].
      rewrite !(r_twin_id R), !(r_twin R), G1, T1, G2. cbn [andb bind]. ev.
      rewrite !(r_next R), G2, N2, G3. cbn [andb bind]. rewrite (r_origin_id R), G3, O3. cbn [bind]. rewrite Nat.eqb_refl. cbn [negb].
      rewrite (r_prev_id R), G3, P3. cbn [bind]. ev.
      rewrite !(r_twin_id R), !(r_twin R), G3, T3, G4. cbn [andb bind]. ev.
      rewrite !(r_next R), G4, N4, G5. cbn [andb bind]. rewrite (r_origin_id R), G5, O5. cbn [bind]. rewrite Nat.eqb_refl. cbn [negb].
      rewrite (r_prev_id R), G5, P5. cbn [bind]. ev.
      rewrite !(r_twin_id R), G5, T5. cbn [bind]. rewrite Nat.eqb_refl. auto.
    Qed.
  End Search.

  (** the half-edges of the original mesh *)
  Variable le : list nat.
  Hypothesis ND : NoDup le.
  Hypothesis LE : forall x, In x le <-> lv g0 x = true.

  (** the number of edges that are still in one piece *)
  Definition whole q : nat := length (filter (fun x => (x <? tw g0 x) && negb (sp q x) && negb (sp q (tw g0 x))) le).

  Lemma whole_same q q' e : lv g0 e = true -> sp q (tw g0 e) = true -> (forall x, sp q' x = fu (sp q) e true x) -> whole q' = whole q.
  Proof.
    intros L S E. unfold whole. f_equal. apply filter_ext_in. intros x X. apply LE in X. rewrite !E. unfold fu.
    destruct (Nat.eqb_spec x e) as [->|N]; [rewrite S, !andb_false_r; auto|].
    destruct (Nat.eqb_spec (tw g0 x) e) as [Q|]; auto. subst e. rewrite (wf_twtw W _ X) in S. rewrite S. rewrite !andb_false_r. auto.
  Qed.
  Lemma whole_less q q' e : lv g0 e = true -> sp q e = false -> sp q (tw g0 e) = false -> (forall x, sp q' x = fu (sp q) e true x) ->
    whole q = S (whole q').
  Proof.
    intros L S1 S2 E. unfold whole. pose proof (live_t W L) as LT. pose proof (wf_twtw W _ L) as TT. pose proof (wf_twne W L) as NE.
    destruct (Nat.lt_ge_cases e (tw g0 e)) as [C|C].
    - apply filter_one with (x := e); auto; [apply LE; auto|rewrite S1, S2; destruct (Nat.ltb_spec e (tw g0 e)); auto; lia|].
      intros y Y. apply LE in Y. rewrite !E. unfold fu. destruct (Nat.eqb_spec y e) as [->|N]; [rewrite !andb_false_r; auto|].
      destruct (Nat.eqb_spec (tw g0 y) e) as [Q|]; rewrite andb_true_r; auto. cbn [negb]. rewrite andb_false_r.
      destruct (Nat.ltb_spec y (tw g0 y)); auto. rewrite Q in *. assert (tw g0 e = y) by (rewrite <- Q; apply (wf_twtw W); auto). lia.
    - apply filter_one with (x := tw g0 e); auto; [apply LE; auto|rewrite TT, S1, S2; destruct (Nat.ltb_spec (tw g0 e) e); auto; lia|].
      intros y Y. apply LE in Y. rewrite !E. unfold fu. destruct (Nat.eqb_spec y (tw g0 e)) as [->|N].
      + rewrite TT, Nat.eqb_refl, !andb_false_r. auto.
      + rewrite andb_true_r. destruct (Nat.eqb_spec (tw g0 y) e) as [Q|].
        { exfalso. apply N. rewrite <- Q. symmetry. apply (wf_twtw W); auto. }
        destruct (Nat.eqb_spec y e) as [->|]; auto. destruct (Nat.ltb_spec e (tw g0 e)); auto. lia.
  Qed.
  Lemma whole_done q : (forall x, lv g0 x = true -> sp q x = true) -> whole q = 0.
  Proof.
    intros H. unfold whole. rewrite (filter_ext_in _ (fun _ => false)).
    - clear. induction le; auto. - intros x X. apply LE in X. rewrite (H x X), andb_false_r. auto.
  Qed.

  (** *** one side of a face *)
  Section Side.
    Variables (q : st) (g : graph) (m : mesh) (c : cfg) (f : nat).
    Hypothesis I : Inv q g.
    Hypothesis R : rep m [] [] [] g.
    Hypothesis LF : lvf g0 f = true.
    Hypothesis SPF : forall x, lv g0 x = true -> sp q x = true -> pre q x = true \/ F0 x = f.

    Lemma fuel_three t : lv g0 t = true -> 3 <= fuel m.
    Proof.
      intros L. pose proof (live_n W L) as LN. pose proof (live_p W L) as LP.
      assert (ND3 : NoDup [t; nx g0 t; pv g0 t]).
      { pose proof (nx_ne T L). pose proof (pv_ne W T L). pose proof (nx_pv W T L). repeat constructor; cbn; intuition. }
      pose proof (live_list_length R ND3) as H. cbn in H. unfold fuel. cut (3 <= length (slots (edges m))); [lia|]. apply H.
      intros x [<-|[<-|[<-|[]]]]; [apply (dom_live I (dO q L))|apply (dom_live I (dO q LN))|apply (dom_live I (dO q LP))].
    Qed.

    Lemma mid_some e : lv g0 e = true -> F0 e = f -> (forall v, lvv g0 v = true -> vp g0 v <> None) ->
      forall x1 x2 x3, fe g0 f = x1 -> nx g0 x1 = x2 -> nx g0 x2 = x3 ->
      forall o n, o = og g0 e -> n = og g0 (nx g0 e) -> lv g0 x1 = true ->
      exists y, mid_payload phi g0 e = Some y /\
        interp m (map (fun v => (if (v =? o) || (v =? n) then 1 else 0, v)) [og g0 x1; og g0 x2; og g0 x3]) = Ok y.
    Proof.
      intros L Fe VPL x1 x2 x3 E1 E2 E3 o n -> -> L1. unfold mid_payload. rewrite (F0_some T L), Fe, E1, E2, E3.
      assert (L2 : lv g0 x2 = true) by (rewrite <- E2; apply W; auto). assert (L3 : lv g0 x3 = true) by (rewrite <- E3; apply W; auto).
      pose proof (wf_og W _ L1) as V1. pose proof (wf_og W _ L2) as V2. pose proof (wf_og W _ L3) as V3.
      pose proof (VPL _ V1) as P1. pose proof (VPL _ V2) as P2. pose proof (VPL _ V3) as P3.
      destruct (vp g0 (og g0 x1)) as [p1|] eqn:Q1; [|tauto]. destruct (vp g0 (og g0 x2)) as [p2|] eqn:Q2; [|tauto].
      destruct (vp g0 (og g0 x3)) as [p3|] eqn:Q3; [|tauto].
      assert (X : forall v p, lvv g0 v = true -> vp g0 v = Some p -> vp (abs m) v = Some p).
      { intros v p Lv Vp. rewrite <- Vp, <- (proj2 (i_old I Lv)). symmetry. apply (q_vp (rep_geq R (@rep_abs _ _ _ m _ _ _ (rE R) (rV R) (rF R)))).
        apply (i_lvv I). auto. }
      eexists. split; [reflexivity|]. cbn [map]. apply RD; auto.
      { destruct (tm_three T L1) as [C1 _]. rewrite E2, E3 in C1.
        pose proof (tm_apart T L1) as A1. pose proof (tm_apart T L2) as A2. pose proof (tm_apart T L3) as A3.
        rewrite <- (wf_ognx W _ L1) in A1. rewrite <- (wf_ognx W _ L2) in A2. rewrite <- (wf_ognx W _ L3) in A3. rewrite E2 in A1. rewrite E3 in A2. rewrite C1 in A3.
        assert (PX : pv g0 x1 = x3) by (rewrite <- C1; apply (wf_pvnx W _ L3)).
        assert (LFf : lvf g0 f = true) by (pose proof (F0_some T L) as FS; rewrite Fe in FS; apply (wf_fc W _ L FS)).
        assert (EX : e = x1 \/ e = x2 \/ e = x3).
        { rewrite <- E2 at 1. rewrite <- PX. apply (same_face W T); auto. rewrite Fe. unfold F0. rewrite <- E1, (proj2 (wf_fe W _ LFf)). reflexivity. }
        unfold halfway. destruct EX as [-> | [-> | ->]]; rewrite ?E2, ?E3, ?C1, ?Nat.eqb_refl, ?orb_true_r; cbn [orb].
        - rewrite (proj2 (Nat.eqb_neq _ _) A2), (proj2 (Nat.eqb_neq _ _) (not_eq_sym A3)). cbn; auto.
        - rewrite (proj2 (Nat.eqb_neq _ _) A3), (proj2 (Nat.eqb_neq _ _) (not_eq_sym A1)). cbn; auto.
        - rewrite (proj2 (Nat.eqb_neq _ _) A1), (proj2 (Nat.eqb_neq _ _) (not_eq_sym A2)). cbn; auto.
      }
      apply (EF L1); rewrite ?E2, ?E3; auto.
    Qed.

    Lemma side_ok e x1 x2 x3 ex a b d : lv g0 e = true -> sp q e = false -> F0 e = f -> (forall v, lvv g0 v = true -> vp g0 v <> None) ->
      fe g0 f = x1 -> nx g0 x1 = x2 -> nx g0 x2 = x3 -> e_origin ex = og g0 e -> e_next ex = nx g0 e ->
      room c m (S a) (whole q + b) d ->
      exists m' q' g', split_edge dE interp c [og g0 x1; og g0 x2; og g0 x3] m (e, ex) = Ok m' /\ Inv q' g' /\ rep m' [] [] [] g' /\
        (forall x, sp q' x = fu (sp q) e true x) /\ (forall k, pr q' k = pr q k) /\ room c m' a (whole q' + b) d.
    Proof.
      intros L NS Fe VPL E1 E2 E3 EO EN RM. pose proof (live_t W L) as LT. pose proof (wf_twne W L) as TNE. pose proof (wf_twtw W _ L) as TT.
      pose proof (dO q L) as D. pose proof (dO q LT) as DT. pose proof (dom_live I D) as G. pose proof (dom_live I DT) as GT. cbn in G, GT.
      pose proof (nsp_npre I L NS) as NP. pose proof (i_nx I D) as NX. cbn -[SubdivInv.pre] in NX. rewrite NP, NS in NX.
      pose proof (i_tw I D) as TW. cbn in TW. rewrite NS in TW. cbn in TW.
      pose proof (live_n W L) as LN. pose proof (dom_live I (dO q LN)) as GN. cbn in GN.
      assert (L1 : lv g0 x1 = true) by (rewrite <- E1; apply (wf_fe W); auto).
      unfold split_edge. cbn [fst snd]. destruct (sp q (tw g0 e)) eqn:ST.
      - destruct (SPF LT ST) as [PT|PT]; [|destruct (twin_face W T L); congruence].
        pose proof (i_nx I DT) as NT. cbn -[SubdivInv.pre] in NT. rewrite PT in NT.
        pose proof (dC LT PT) as DC. pose proof (dom_live I DC) as GC. pose proof (i_og I DC) as OC. cbn in GC, OC.
        pose proof (dS LT ST) as DS. pose proof (dom_live I DS) as GS. cbn in GS.
        destruct (@try_fixup_found _ _ _ c m g e (sn q (tw g0 e)) dE a (whole q + b) d R RM) as (m' & n & -> & DN & R' & RM'); auto.
        { rewrite NX; auto. } { rewrite TW; auto. } { rewrite TW, NT; auto. } { rewrite TW; auto. }
        { rewrite TW, NT, OC. apply search_found with (g := g) (q := q); auto. apply (fuel_three L). }
        cbn [bind]. rewrite TW in R'. exists m', (q_split q e n (mu q (tw g0 e))), (fixup_graph e n (tw g0 e) (sn q (tw g0 e)) dE g). split; [reflexivity|].
        split; [apply inv_fixup; auto|]. split; [exact R'|]. split; [reflexivity|]. split; [reflexivity|].
        rewrite (@whole_same q _ e); auto.
      - pose proof (i_nx I DT) as NT. cbn -[SubdivInv.pre] in NT. rewrite ST, (nsp_npre I LT ST) in NT.
        pose proof (live_n W LT) as LNT. pose proof (dO q LNT) as DNT. pose proof (dom_live I DNT) as GNT. cbn in GNT.
        pose proof (i_og I DNT) as ONT. cbn in ONT.
        rewrite (@try_fixup_none _ _ _ c m g e dE R); auto; rewrite ?TW, ?NT; auto.
        2:{ rewrite ONT, (wf_ognx W _ LT), TT.
            destruct (@cycle_exists (wheel g0) (fun x => lv g0 x = true) (length (slots (edges m)))) with (x := e) as (t & C & Len); auto.
            - apply (wheel_live W). - intros x Lx. apply (r_bound R). apply (dom_live I (dO q Lx)). - intros x y; apply (wheel_inj W).
            - apply is_cycle_cons in C as (_ & CH & LA). rewrite (chain_iter CH) in LA.
              apply search_none with (g := g) (q := q) (n := length t); auto.
              + rewrite (wf_ognx W _ LT), TT. auto.
              + change (nx g0 (tw g0 e)) with (wheel g0 e). rewrite iter_swap. auto.
              + unfold fuel. cbn in Len. lia. }
        cbn [bind].
        assert (WS : mapM (weight m ex) [og g0 x1; og g0 x2; og g0 x3] =
          Ok (map (fun v => (if (v =? og g0 e) || (v =? og g0 (nx g0 e)) then 1 else 0, v)) [og g0 x1; og g0 x2; og g0 x3])).
        { assert (K : forall v, weight m ex v = Ok (if (v =? og g0 e) || (v =? og g0 (nx g0 e)) then 1 else 0, v)).
          { intros v. unfold weight. rewrite EO, EN. destruct (v =? og g0 e); auto.
            destruct (r_edge_live R _ GN) as (z & -> & _ & _ & _ & OZ & _). cbn [bind orb].
            rewrite <- OZ. pose proof (i_og I (dO q LN)) as ON. cbn in ON. rewrite ON. auto. }
          cbn [mapM]. rewrite !K. cbn [bind]. reflexivity. }
        rewrite WS. cbn [bind].
        destruct (@mid_some e L Fe VPL x1 x2 x3 E1 E2 E3 _ _ eq_refl eq_refl L1) as (y & MP & ->). cbn [bind].
        assert (RM2 : exists w, whole q + b = S (w + b) /\ whole q = S w).
        { pose proof (@whole_less q (q_split q e 0 0) e L NS ST (fun _ => eq_refl)) as X. rewrite X. eexists. split; reflexivity. }
        destruct RM2 as (w & Ew & Ew'). rewrite Ew in RM.
        destruct (@subdivide_unsafe_ok _ _ _ c m g e y dE a (w + b) d R RM) as (m' & n & v & -> & DN & DV & R' & RM'); auto.
        { rewrite NX; auto. } { rewrite TW; auto. }
        cbn [bind]. exists m', (q_split q e n v), (split_graph e n v y dE g). split; [reflexivity|].
        split; [apply inv_fresh with (y := y); auto|]. split; [exact R'|]. split; [reflexivity|]. split; [reflexivity|].
        pose proof (@whole_less q (q_split q e n v) e L NS ST (fun _ => eq_refl)) as X. replace (whole (q_split q e n v)) with w by lia. auto.
    Qed.
  End Side.

  Hypothesis VPL : forall v, lvv g0 v = true -> vp g0 v <> None.

  (** *** one face; between faces exactly the sides of the cut faces are split *)
  Lemma face_ok c m g q f a b d : Inv q g -> rep m [] [] [] g -> lvf g0 f = true -> pr q f = false ->
    (forall x, lv g0 x = true -> sp q x = pre q x) -> room c m (9 + a) (whole q + b) (3 + d) ->
    exists m' q' g', subdivide_face dE interp c m f = Ok m' /\ Inv q' g' /\ rep m' [] [] [] g' /\
      (forall x, lv g0 x = true -> sp q' x = pre q' x) /\ (forall k, pr q' k = fu (pr q) f true k) /\ room c m' a (whole q' + b) d.
  Proof.
    intros I R LF NP J RM. destruct (wf_fe W _ LF) as [L1 FC1]. destruct (i_fold I LF NP) as [FE FP1].
    set (x1 := fe g0 f) in *. set (x2 := nx g0 x1). set (x3 := nx g0 x2).
    assert (F1 : F0 x1 = f) by (unfold SubdivInv.F0; rewrite FC1; auto).
    assert (L2 : lv g0 x2 = true) by (apply W; auto). assert (L3 : lv g0 x3 = true) by (apply W; auto).
    assert (F2 : F0 x2 = f) by (unfold x2; rewrite (F0_nx W L1); auto). assert (F3 : F0 x3 = f) by (unfold x3; rewrite (F0_nx W L2); auto).
    assert (N31 : nx g0 x3 = x1) by (apply (tm_three T L1)).
    assert (P1 : pre q x1 = false) by (unfold SubdivInv.pre; rewrite F1; auto).
    assert (P2 : pre q x2 = false) by (unfold SubdivInv.pre; rewrite F2; auto).
    assert (P3 : pre q x3 = false) by (unfold SubdivInv.pre; rewrite F3; auto).
    pose proof (J _ L1) as S1. pose proof (J _ L2) as S2. pose proof (J _ L3) as S3. rewrite P1 in S1. rewrite P2 in S2. rewrite P3 in S3.
    assert (N12 : x1 <> x2) by (intros E; apply (tm_three T L1); auto).
    assert (N23 : x2 <> x3) by (intros E; apply (tm_three T L2); auto).
    assert (N13 : x1 <> x3) by (intros E; apply (tm_three T L3); rewrite N31; auto).
    pose proof (dO q L1) as D1. pose proof (dO q L2) as D2. pose proof (dO q L3) as D3.
    pose proof (i_nx I D1) as X1. pose proof (i_nx I D2) as X2. pose proof (i_nx I D3) as X3.
    pose proof (i_og I D1) as O1. pose proof (i_og I D2) as O2. pose proof (i_og I D3) as O3.
    pose proof (dom_live I D1) as G1. pose proof (dom_live I D2) as G2. pose proof (dom_live I D3) as G3.
    cbn -[SubdivInv.pre] in X1, X2, X3, O1, O2, O3, G1, G2, G3. rewrite P1, S1 in X1. rewrite P2, S2 in X2. rewrite P3, S3, N31 in X3.
    fold x2 in X1. fold x3 in X2.
    assert (LG : lvf g f = true) by (apply (i_lvf I); auto).
    unfold subdivide_face. destruct (r_face_live R _ LG) as (xf & -> & FE' & _). cbn [bind]. rewrite <- FE', FE.
    rewrite (@edges_face_raw _ _ _ m [] [] [] g x1 [x2; x3] R).
    2:{ rewrite is_cycle_cons. split; [repeat constructor; cbn; intuition|]. cbn. auto. }
    2:{ intros j [<-|[<-|[<-|[]]]]; auto. }
    cbn [bind mapM].
    destruct (r_edge_live R _ G1) as (e1 & -> & A1 & _ & _ & A2 & _). destruct (r_edge_live R _ G2) as (e2 & -> & A3 & _ & _ & A4 & _).
    destruct (r_edge_live R _ G3) as (e3 & -> & A5 & _ & _ & A6 & _). cbn [bind map length combine foldM].
    rewrite Nat.eqb_refl. cbn [assert].
    assert (B1 : e_next e1 = nx g0 x1) by (rewrite <- A1; exact X1). assert (B2 : e_next e2 = nx g0 x2) by (rewrite <- A3; exact X2).
    assert (B3 : e_next e3 = nx g0 x3) by (rewrite <- A5, N31; exact X3).
    rewrite O1 in A2. rewrite O2 in A4. rewrite O3 in A6. rewrite <- A2, <- A4, <- A6.
    destruct (@side_ok q g m c f I R LF) with (e := x1) (x1 := x1) (x2 := x2) (x3 := x3) (ex := e1) (a := 8 + a) (b := b) (d := 3 + d)
      as (m1 & q1 & g1 & -> & I1 & R1 & SP1 & PR1 & RM1); auto; try congruence.
    { intros x Lx Sx. left. rewrite <- J; auto. }
    cbn [bind].
    assert (PRE : forall q', (forall k, pr q' k = pr q k) -> forall x, pre q' x = pre q x) by (intros q' E x; apply E).
    destruct (@side_ok q1 g1 m1 c f I1 R1 LF) with (e := x2) (x1 := x1) (x2 := x2) (x3 := x3) (ex := e2) (a := 7 + a) (b := b) (d := 3 + d)
      as (m2 & q2 & g2 & -> & I2 & R2 & SP2 & PR2 & RM2); auto; try congruence.
    { intros x Lx. rewrite SP1, (PRE _ PR1). unfold fu. destruct (Nat.eqb_spec x x1) as [->|]; auto. rewrite J; auto. }
    { rewrite SP1. unfold fu. ev. auto. }
    cbn [bind].
    assert (PR2' : forall k, pr q2 k = pr q k) by (intros k; rewrite PR2; auto).
    assert (SP2' : forall x, sp q2 x = fu (fu (sp q) x1 true) x2 true x).
    { intros x. rewrite SP2. unfold fu. destruct (x =? x2); auto. rewrite SP1. auto. }
    destruct (@side_ok q2 g2 m2 c f I2 R2 LF) with (e := x3) (x1 := x1) (x2 := x2) (x3 := x3) (ex := e3) (a := 6 + a) (b := b) (d := 3 + d)
      as (m3 & q3 & g3 & -> & I3 & R3 & SP3 & PR3 & RM3); auto; try congruence.
    { intros x Lx. rewrite SP2', (PRE _ PR2'). unfold fu. destruct (Nat.eqb_spec x x2) as [->|]; auto. destruct (Nat.eqb_spec x x1) as [->|]; auto. rewrite J; auto. }
    { rewrite SP2'. unfold fu. ev. auto. }
    cbn [bind].
    assert (PR3' : forall k, pr q3 k = pr q k) by (intros k; rewrite PR3; auto).
    assert (SP3' : forall x, sp q3 x = fu (fu (fu (sp q) x1 true) x2 true) x3 true x).
    { intros x. rewrite SP3. unfold fu. destruct (x =? x3); auto. rewrite SP2'. auto. }
    assert (T1 : sp q3 x1 = true) by (rewrite SP3'; unfold fu; ev; auto).
    assert (T2 : sp q3 x2 = true) by (rewrite SP3'; unfold fu; ev; auto).
    assert (T3 : sp q3 x3 = true) by (rewrite SP3'; unfold fu; ev; auto).
    assert (NP3 : pr q3 f = false) by (rewrite PR3'; auto).
    destruct (@ready _ _ _ g0 W T phi q3 g3 f x1 x2 x3 (sn q3 x1) (sn q3 x2) (sn q3 x3) I3 NP3 L1 F1 eq_refl eq_refl T1 T2 T3 eq_refl eq_refl eq_refl)
      as (NDx & LFx & (Y1 & Y2 & Y3 & Y4 & Y5 & Y6) & (Z1 & Z2 & Z3 & Z4 & Z5 & Z6) & (V1 & V2 & V3)).
    destruct (i_fold I3 LF NP3) as [FE3 FP3].
    destruct (@finish_ok _ _ _ dE c m3 g3 f x1 x2 x3 (sn q3 x1) (sn q3 x2) (sn q3 x3) a (whole q3 + b) d R3 RM3)
      as (m' & P & cu & y & FI & FPg & (E1 & E2 & E3 & E4 & E5 & E6) & NDn & DNn & NDk & DKk & R4 & RM4); auto.
    { apply (i_lvf I3). auto. }
    unfold finish in FI. cbn [hd foldM] in FI |- *. rewrite FI.
    destruct P as [y1 y2 y3 s1 s2 s3 c1 c2 c3 d1 d2 d3 k1 k2 k3 k4]. cbn in E1, E2, E3, E4, E5, E6, NDn, DNn, NDk, DKk. subst y1 y2 y3 s1 s2 s3.
    rewrite FP3 in FPg.
    assert (Dn : forall j, In j [c1; c2; c3; d1; d2; d3] -> lv g3 j = false) by (intros j H; apply DNn; cbn in H; tauto).
    assert (Dk : forall k, In k [k1; k2; k3; k4] -> lvf g3 k = true -> k = f) by (intros k H; apply DKk; cbn in H; tauto).
    exists m', (q_cut q3 (mkP x1 x2 x3 (sn q3 x1) (sn q3 x2) (sn q3 x3) c1 c2 c3 d1 d2 d3 k1 k2 k3 k4) f).
    eexists. split; [reflexivity|].
    split; [|split; [exact R4|]].
    - eapply inv_cut; eauto.
    - split; [|split].
      + intros x Lx. cbn -[Nat.eqb SubdivInv.pre]. rewrite SP3'. unfold SubdivInv.pre. cbn -[Nat.eqb]. unfold fu.
        destruct (Nat.eqb_spec (F0 x) f) as [E|N].
        * assert (Q : F0 x1 = F0 x) by congruence. apply (same_face W T L1 Lx) in Q. fold x2 in Q. rewrite (pv_nn W T L1) in Q. fold x2 x3 in Q.
          destruct Q as [-> | [-> | ->]]; ev; auto; repeat (destruct (_ =? _); auto).
        * assert (x <> x1) by congruence. assert (x <> x2) by congruence. assert (x <> x3) by congruence. ev. rewrite PR3', J; auto.
      + intros k. cbn -[Nat.eqb]. unfold fu. rewrite PR3'. auto.
      + exact RM4.
  Qed.

  (** *** all faces *)
  Lemma faces_ok c : forall l m g q a b d, Inv q g -> rep m [] [] [] g -> NoDup l ->
    (forall f, In f l -> lvf g0 f = true /\ pr q f = false) ->
    (forall x, lv g0 x = true -> sp q x = pre q x) -> room c m (9 * length l + a) (whole q + b) (3 * length l + d) ->
    exists m' q' g', foldM (subdivide_face dE interp c) l m = Ok m' /\ Inv q' g' /\ rep m' [] [] [] g' /\
      (forall x, lv g0 x = true -> sp q' x = pre q' x) /\ (forall k, pr q' k = pr q k || mem k l) /\ room c m' a (whole q' + b) d.
  Proof.
    induction l as [|f l IH]; intros m g q a b d I R NDl LFl J RM.
    - exists m, q, g. cbn. split; auto. split; auto. split; auto. split; auto. split; auto. intros k. rewrite orb_false_r. auto.
    - apply NoDup_cons_iff in NDl as [NI NDl]. destruct (LFl f (or_introl eq_refl)) as [LF NP].
      cbn [length] in RM. replace (9 * S (length l) + a) with (9 + (9 * length l + a)) in RM by lia.
      replace (3 * S (length l) + d) with (3 + (3 * length l + d)) in RM by lia.
      destruct (face_ok I R LF NP J RM) as (m1 & q1 & g1 & E1 & I1 & R1 & J1 & PR1 & RM1).
      destruct (IH m1 g1 q1 a b d I1 R1 NDl) as (m2 & q2 & g2 & E2 & I2 & R2 & J2 & PR2 & RM2); auto.
      { intros k Hk. split; [apply LFl; right; auto|]. rewrite PR1. unfold fu. destruct (Nat.eqb_spec k f); [congruence|]. apply LFl. right; auto. }
      exists m2, q2, g2. cbn [foldM]. rewrite E1. cbn [bind]. split; auto. split; auto. split; auto. split; auto. split; auto.
      intros k. rewrite PR2, PR1. unfold fu, mem. cbn [existsb]. rewrite (Nat.eqb_sym k f) at 1.
      destruct (Nat.eqb_spec f k) as [->|]; rewrite ?Nat.eqb_refl; cbn; [rewrite orb_true_r; auto|].
      destruct (Nat.eqb_spec k f); [congruence|]. auto.
  Qed.
End Loop.
