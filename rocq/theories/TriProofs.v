(** Rings of triangles around a hole of any length. *)
From Coq Require Import List Arith Lia Bool Permutation.
From Verif Require Import Base DVec DVecFacts Mesh Spec Rep Splice Cycle Traverse Room Ops MeshSpec MeshProofs
  MeshMore MeshTotal MeshFacts NetProofs BuildSpec Solid BuildStep PathProofs ApexProofs LoftProofs.
Import ListNotations.
Set Implicit Arguments.
Unset Strict Implicit.

Local Arguments abs : simpl never.
Section Tri.
  Context {VP EP FP : Type}.
  Notation graph := (graph VP EP FP).
  Notation mesh := (mesh VP EP FP).
  Implicit Types (g : graph) (m : mesh).
  Variable (dE : EP) (dF : FP).

  (** All neighbours of [v] satisfy [P]. *)
  Definition nbp g v (P : nat -> Prop) : Prop := forall e, lv g e = true -> og g e = v -> P (target g e).

  Lemma nbp_pair g g' L e1 e2 V F v (P Q : nat -> Prop) : WF g -> grown g g' L [e1; e2] V F ->
    tw g' e1 = e2 -> tw g' e2 = e1 -> nbp g v P ->
    (og g' e1 = v -> Q (og g' e2)) -> (og g' e2 = v -> Q (og g' e1)) -> (forall x, P x -> Q x) -> nbp g' v Q.
  Proof.
    intros W G T1 T2 N A B I e Le O. apply (gr_e G) in Le as [Le|[<-|[<-|[]]]].
    - rewrite (gr_target W G Le). apply I. apply N; auto. rewrite <- O. symmetry. apply (gr_og G); auto.
    - unfold target. rewrite T1. auto.
    - unfold target. rewrite T2. auto.
  Qed.
  Lemma nbp_no g v w (P : nat -> Prop) : nbp g v P -> ~ P w -> forall e, leads g e v w -> False.
  Proof. intros N I e (A & B & C). apply I. rewrite <- C. apply N; auto. Qed.
  Lemma nbp_no' g v w (P : nat -> Prop) : WF g -> nbp g w P -> ~ P v -> forall e, leads g e v w -> False.
  Proof.
    intros W N I e (A & B & C). apply I. rewrite <- B. rewrite <- (wf_twtw W _ A).
    apply N; auto. apply (wf_tw W); auto.
  Qed.
  Lemma nbp_weak g v (P Q : nat -> Prop) : nbp g v P -> (forall x, P x -> Q x) -> nbp g v Q.
  Proof. intros N I e L O. auto. Qed.
  Lemma nbrs_nbp g v l (P : nat -> Prop) : nbrs g v l -> (forall x, In x l -> P x) -> nbp g v P.
  Proof. intros N I e L O. apply I. apply N; auto. Qed.

  Lemma tband_length g bk y es : forall ps ds ts fs hs, tband g bk y es ps ds ts fs hs ->
    length ps = S (length es) /\ length ds = length es /\ length ts = length es /\ length fs = length es /\ length hs = length es.
  Proof.
    induction es as [|e es IH]; intros ps ds ts fs hs H; destruct ps as [|p [|q ps]]; destruct ds as [|d ds];
      destruct ts as [|t ts]; destruct fs as [|f fs]; destruct hs as [|h hs]; cbn in *; try tauto.
    destruct H as (_ & _ & H). apply IH in H. cbn in *. lia.
  Qed.

  Lemma tband_keep g g' L E V F bk y es : WF g -> grown g g' L E V F -> (forall x, In x L -> fc g x = None) ->
    forall ps ds ts fs hs, tband g bk y es ps ds ts fs hs -> (forall t, In t ts -> lv g t = true) ->
    tband g' bk y es ps ds ts fs hs.
  Proof.
    intros W G H. induction es as [|e es IH]; intros ps ds ts fs hs K LT; destruct ps as [|p [|q ps]]; destruct ds as [|d ds];
      destruct ts as [|t ts]; destruct fs as [|f fs]; destruct hs as [|h hs]; cbn in K |- *; try tauto.
    destruct K as (K1 & K2 & K3).
    assert (Lt : lv g t = true) by (apply LT; left; auto).
    assert (Le : lv g e = true).
    { destruct bk; destruct K2 as (_ & (_ & _ & K2 & _) & _); apply K2; left; auto. }
    split; [rewrite (gr_og G Le), (gr_og G Lt); eapply gr_leads; eauto|].
    split; [|apply IH; auto; intros z I; apply LT; right; auto].
    destruct bk; destruct K2 as (K4 & K5 & K6).
    - rewrite (gr_og G Le), (gr_target W G Lt), (gr_tw G (proj1 K4)), (gr_tw G (proj1 K1)), (gr_tw G Lt).
      split; [eapply gr_leads; eauto|]. split; eapply gr_face_keep; eauto.
    - rewrite (gr_target W G Le), (gr_og G Lt), (gr_tw G (proj1 K4)), (gr_tw G (proj1 K1)), (gr_tw G Lt).
      split; [eapply gr_leads; eauto|]. split; eapply gr_face_keep; eauto.
  Qed.

  Lemma tband_snoc g y es : forall ps ds ts fs hs p e d t f h q, tband g false y es (ps ++ [p]) ds ts fs hs ->
    leads g p (og g e) (og g t) -> leads g d (target g e) (og g t) ->
    face_is g f [e; d; tw g p] y false -> face_is g h [q; tw g t; tw g d] y false ->
    tband g false y (es ++ [e]) ((ps ++ [p]) ++ [q]) (ds ++ [d]) (ts ++ [t]) (fs ++ [f]) (hs ++ [h]).
  Proof.
    induction es as [|e0 es IH]; intros ps ds ts fs hs p e d t f h q H K1 K2 K3 K4;
      destruct ps as [|p0 ps]; destruct ds as [|d0 ds]; destruct ts as [|t0 ts]; destruct fs as [|f0 fs];
      destruct hs as [|h0 hs]; cbn in H; try tauto; try (destruct ps; cbn in H; tauto).
    - cbn. auto 10.
    - destruct (ps ++ [p]) eqn:Q; [destruct ps; discriminate|].
      destruct H as (H1 & H2 & H3). rewrite <- Q in H3. specialize (IH _ _ _ _ _ _ _ _ _ _ _ q H3 K1 K2 K3 K4).
      cbn [app]. rewrite Q in *. cbn [app tband] in *. auto.
  Qed.

  (** * Backwards *)
  Record tb_state m0 m L w0 pre x dn s s0 sp ds ts ws fs hs xs : Prop := {
    ts_wf : wf m;
    ts_L : L = pre ++ x :: dn;
    ts_s : s = hd s0 sp;
    ts_hole : hole (abs m) (x :: s :: ts ++ tw (abs m) s0 :: pre);
    ts_grown : grown (abs m0) (abs m) L (((s0 :: sp) ++ ds ++ ts) ++ map (tw (abs m)) ((s0 :: sp) ++ ds ++ ts)) (w0 :: ws) (fs ++ hs);
    ts_band : tband (abs m) true dF dn (sp ++ [s0]) ds ts fs hs;
    ts_rim : leads_through (abs m) ts (ws ++ [w0]);
    ts_s0 : leads (abs m) s0 (og (abs m0) (hd 0 L)) w0;
    ts_ss : target (abs m) s = hd w0 ws;
    ts_nb0 : nbp (abs m) w0 (fun u => lvv (abs m0) u = true \/ In u (map (og (abs m)) (firstn 1 (rev ts))));
    ts_nb : nbp (abs m) (hd w0 ws) (fun u => u = target (abs m0) x \/ lvv (abs m0) u = false);
    ts_pay : map (vp (abs m)) (w0 :: ws) = map Some xs
  }.

  Lemma ts_fresh m0 m L w0 pre x dn s s0 sp ds ts ws fs hs xs : tb_state m0 m L w0 pre x dn s s0 sp ds ts ws fs hs xs ->
    forall z, In z (x :: s :: ts ++ tw (abs m) s0 :: pre) -> In z L \/ lv (abs m0) z = false.
  Proof.
    intros A z I. pose proof (ts_grown A) as G.
    assert (J : In z L \/ In z (((s0 :: sp) ++ ds ++ ts) ++ map (tw (abs m)) ((s0 :: sp) ++ ds ++ ts))).
    { rewrite (ts_L A). destruct I as [<-|[<-|I]].
      - left. inl.
      - right. rewrite (ts_s A). destruct sp; cbn; auto.
      - apply in_app_iff in I as [I|[<-|I]].
        + right. inl.
        + right. apply in_app_iff. right. cbn. auto.
        + left. inl. }
    destruct J as [J|J]; auto. right. apply (gr_new_e G J).
  Qed.

  (** What is left to do after the second face of a round. *)
  Definition tb_rest c m s i ret (rest : list VP) : res (mesh * nat) :=
    let* m3 := if (match rest with [] => false | _ => true end) then cface dE dF c m s i else Ok m in
    tri_back_loop dE dF c m3 false rest false i ret.

  Lemma rev_first z (ts : list nat) : ts <> [] -> firstn 1 (rev (z :: ts)) = firstn 1 (rev ts).
  Proof. intros N. cbn [rev]. destruct (rev ts) eqn:Q; auto. destruct N. rewrite <- (rev_involutive ts), Q. auto. Qed.

  Lemma tb_round c m0 m L w0 pre y x dn s s0 sp ds ts ws fs hs xs ret xv rest a b d : wf m0 -> loop (abs m0) L ->
    (forall e, In e L -> og (abs m0) e <> target (abs m0) e) ->
    tb_state m0 m L w0 (pre ++ [y]) x dn s s0 sp ds ts ws fs hs xs -> fits c m (6 + a) (S b) (2 + d) ->
    exists m' z ws' sp' ds' ts' fs' hs',
      tb_rest c m s (pv (abs m) x) ret (xv :: rest) = tb_rest c m' z (pv (abs m') y) ret rest /\
      tb_state m0 m' L w0 pre y (x :: dn) z s0 sp' ds' ts' ws' fs' hs' (hd xv xs :: xv :: tl xs) /\ fits c m' a b d /\
      tw (abs m') s0 = tw (abs m) s0.
  Proof.
    intros Wm0 HL NS A F. pose proof (wfW Wm0) as W0. pose proof (ts_wf A) as Wm. pose proof (wfW Wm) as W.
    pose proof (ts_hole A) as H. pose proof (ts_grown A) as G0.
    set (s0' := tw (abs m) s0) in *.
    assert (Lx : lv (abs m) x = true) by (apply (hole_live H); left; auto).
    assert (Ly : lv (abs m) y = true) by (apply (hole_live H); inl).
    assert (Ls : lv (abs m) s = true) by (apply (hole_live H); right; left; auto).
    assert (EQ : x :: s :: ts ++ s0' :: pre ++ [y] = x :: (s :: ts ++ s0' :: pre) ++ [y]).
    { cbn. f_equal. f_equal. rewrite <- app_assoc. auto. }
    assert (PX : pv (abs m) x = y) by (apply (loop_pv_wrap (p := s :: ts ++ s0' :: pre) W (proj1 H)); auto).
    assert (NY : nx (abs m) y = x) by (apply (loop_nx_wrap (p := s :: ts ++ s0' :: pre) (proj1 H)); auto).
    unfold tb_rest at 1. rewrite PX.
    assert (Ix : In x L) by (rewrite (ts_L A); inl).
    assert (Iy : In y L) by (rewrite (ts_L A); inl).
    assert (Ix0 : lv (abs m0) x = true) by (apply (loop_live' HL); auto).
    assert (Iy0 : lv (abs m0) y = true) by (apply (loop_live' HL); auto).
    assert (OX : og (abs m) x = og (abs m0) x) by (apply (gr_og G0 Ix0)).
    assert (TY : target (abs m) y = og (abs m0) x).
    { rewrite <- OX, <- NY. symmetry. apply (wf_ognx W _ Ly). }
    assert (OXL : lvv (abs m0) (og (abs m0) x) = true) by (apply (wf_og W0 _ Ix0)).
    assert (H' : hole (abs m) (s :: (ts ++ s0' :: pre) ++ y :: [x])).
    { apply (@hole_rot _ _ _ _ [x] (s :: ts ++ s0' :: pre ++ [y])) in H.
      cbn [app] in H |- *. rewrite <- !app_assoc in *. cbn [app] in *. rewrite <- !app_assoc in *. exact H. }
    assert (FW : forall z, In z (w0 :: ws) -> lvv (abs m0) z = false) by (intros z I; apply (gr_new_v G0 I)).
    assert (IH0 : In (hd w0 ws) (w0 :: ws)) by (destruct ws; cbn; auto).
    assert (FS : lvv (abs m0) (hd w0 ws) = false) by (apply FW; auto).
    assert (FW0 : lvv (abs m0) w0 = false) by (apply FW; left; auto).
    assert (NL : forall e, leads (abs m) e (target (abs m) s) (target (abs m) y) -> False).
    { rewrite (ts_ss A), TY. apply (nbp_no (ts_nb A)). intros [Q|Q]; [apply (NS x Ix Q)|clash]. }
    assert (F1 : fits c m (2 + (4 + a)) (S b) (S (S d))) by exact F.
    destruct (do_cface dE dF Wm F1 H' NL) as (m1 & f & x1 & x2 & E1 & Wm1 & F2 & G1 & FI1 & H1 & T1 & T2 & O1 & O2).
    rewrite E1. cbn [bind]. pose proof (wfW Wm1) as W1.
    assert (Ly1 : lv (abs m1) y = true) by (apply (gr_live_e G1 Ly)).
    assert (Lx1 : lv (abs m1) x1 = true) by (apply (gr_new_e G1); left; auto).
    assert (Lx2 : lv (abs m1) x2 = true) by (apply (gr_new_e G1); right; left; auto).
    cbn [tri_back_loop]. rewrite (get_next Wm1 Ly1), (loop_nx (proj1 H1)). cbn [bind].
    assert (F3 : fits c m1 (2 + (2 + a)) (S b) (S d)) by exact F2.
    destruct (do_via dE xv Wm1 F3 H1 (eq_sym (loop_nx (proj1 H1)))) as (m2 & w & u & u' & E2 & Wm2 & F4 & G2 & H2 & T3 & T4 & O3 & O4 & Y).
    rewrite E2. cbn [bind]. pose proof (wfW Wm2) as W2.
    assert (Ly2 : lv (abs m2) y = true) by (apply (gr_live_e G2 Ly1)).
    assert (Lu : lv (abs m2) u = true) by (apply (gr_new_e G2); left; auto).
    assert (Lu' : lv (abs m2) u' = true) by (apply (gr_new_e G2); right; left; auto).
    rewrite (get_next Wm2 Ly2), (loop_nx (proj1 H2)). cbn [bind]. rewrite (get_prev Wm2 Ly2). cbn [bind].
    set (i := pv (abs m2) y).
    assert (H2' : hole (abs m2) (x2 :: (ts ++ s0' :: pre ++ [y]) ++ u :: [u'])).
    { apply (@hole_rot _ _ _ _ [y; u; u'] (x2 :: ts ++ s0' :: pre)) in H2.
      cbn [app] in H2 |- *. rewrite <- !app_assoc in *. cbn [app] in *. rewrite <- !app_assoc in *. exact H2. }
    assert (TX2 : target (abs m1) x2 = hd w0 ws) by (unfold target; rewrite T2, O1; apply (ts_ss A)).
    assert (TX2' : target (abs m2) x2 = hd w0 ws) by (rewrite (gr_target W1 G2 Lx2); auto).
    assert (TU : target (abs m2) u = w) by (unfold target; rewrite T3; auto).
    assert (TY1 : target (abs m1) y = og (abs m0) x) by (rewrite (gr_target W G1 Ly); auto).
    assert (NW : nbrs (abs m2) w [og (abs m0) x]) by (rewrite <- TY1; apply (nbrs_via Wm1 G2 Ly1 T3 T4 O3 O4)).
    assert (VW1 : lvv (abs m1) w = false) by (apply (gr_new_v G2); left; auto).
    assert (VW : lvv (abs m) w = false).
    { destruct (lvv (abs m) w) eqn:Q; auto. assert (lvv (abs m1) w = true) by (apply (gr_live_v G1 Q)). clash. }
    assert (VW0 : lvv (abs m0) w = false).
    { destruct (lvv (abs m0) w) eqn:Q; auto. assert (lvv (abs m) w = true) by (apply (gr_live_v G0 Q)). clash. }
    assert (NL2 : forall e, leads (abs m2) e (target (abs m2) x2) (target (abs m2) u) -> False).
    { rewrite TU, TX2'. apply (nbrs_no' W2 NW). intros [Q|[]]. clash. }
    assert (F5 : fits c m2 (2 + a) b (S d)) by exact F4.
    destruct (do_cface dE dF Wm2 F5 H2' NL2) as (m3 & h & z1 & z2 & E3 & Wm3 & F6 & G3 & FI3 & H3 & T5 & T6 & O5 & O6).
    rewrite E3. cbn [bind]. pose proof (wfW Wm3) as W3.
    assert (G23 : grown (abs m1) (abs m3) (y :: x2 :: ts ++ s0' :: pre) ([u; u'] ++ [z1; z2]) ([w] ++ []) ([] ++ [h])).
    { apply (grown_trans G2 G3). intros z I.
      assert (J : In z [u; u'] \/ In z (y :: x2 :: ts ++ s0' :: pre)) by (revert I; inl).
      destruct J as [J|J]; auto. right. apply (gr_new_e G2 J). }
    assert (G123 : grown (abs m) (abs m3) (s :: (ts ++ s0' :: pre) ++ y :: [x]) ([x1; x2] ++ ([u; u'] ++ [z1; z2]))
              ([] ++ ([w] ++ [])) ([f] ++ ([] ++ [h]))).
    { apply (grown_trans G1 G23). intros z I.
      assert (J : In z [x1; x2] \/ In z (s :: (ts ++ s0' :: pre) ++ y :: [x])) by (revert I; inl).
      destruct J as [J|J]; auto. right. apply (gr_new_e G1 J). }
    cbn [app] in G23, G123.
    assert (GT : grown (abs m0) (abs m3) L ((((s0 :: sp) ++ ds ++ ts) ++ map (tw (abs m)) ((s0 :: sp) ++ ds ++ ts)) ++ [x1; x2; u; u'; z1; z2])
                   ((w0 :: ws) ++ [w]) ((fs ++ hs) ++ [f; h])).
    { apply (grown_trans G0 G123). intros z I. apply (ts_fresh A). fold s0'. revert I. inl. }
    assert (LA : forall e, In e ((s0 :: sp) ++ ds ++ ts) -> lv (abs m) e = true).
    { intros e I. apply (gr_e G0). right. apply in_app_iff. auto. }
    assert (LT : forall t, In t ts -> lv (abs m) t = true) by (intros t I; apply LA; inl).
    assert (LS0 : lv (abs m) s0 = true) by (apply LA; left; auto).
    assert (TW2 : tw (abs m3) x2 = x1) by (rewrite (gr_tw G23 Lx2); auto).
    assert (TW3 : tw (abs m3) u = u') by (rewrite (gr_tw G3 Lu); auto).
    assert (Lz2 : lv (abs m3) z2 = true) by (apply (gr_new_e G3); right; left; auto).
    assert (OZ2 : og (abs m3) z2 = w) by (rewrite O6; exact TU).
    assert (TZ2 : target (abs m3) z2 = hd w0 ws) by (unfold target; rewrite T6, O5; exact TX2').
    assert (FN : forall z, In z (s :: (ts ++ s0' :: pre) ++ y :: [x]) -> fc (abs m) z = None) by (apply (proj2 H')).
    assert (HF : hole (abs m3) (y :: u :: z2 :: ts ++ s0' :: pre)).
    { apply (@hole_rot _ _ _ _ (u :: z2 :: ts ++ s0' :: pre) [y]).
      cbn [app] in H3 |- *. rewrite <- !app_assoc in *. cbn [app] in *. rewrite <- !app_assoc in *. exact H3. }
    assert (PI : i = pv (abs m3) y).
    { destruct (app_cons_last pre s0') as (p & q & EQP & _). unfold i.
      rewrite (loop_pv_wrap (a := q) (p := u :: u' :: x2 :: ts ++ p) W2 (proj1 H2)).
      - rewrite (loop_pv_wrap (a := q) (p := u :: z2 :: ts ++ p) W3 (proj1 HF)); auto.
        rewrite EQP. cbn. rewrite <- app_assoc. auto.
      - rewrite EQP. cbn. rewrite <- app_assoc. auto. }
    exists m3, u, (w :: ws), (u :: sp), (x2 :: ds), (z2 :: ts), (f :: fs), (h :: hs).
    split; [rewrite <- PI; reflexivity|]. split; [|split; [exact F6|apply (gr_tw G123 LS0)]].
    assert (NE0 : forall v, lvv (abs m) v = true -> lvv (abs m0) v = false ->
      forall e, lv (abs m3) e = true -> og (abs m3) e = v -> lv (abs m) e = true \/ v = hd w0 ws \/ False).
    { intros v Lv Fv e Le Oe. destruct (proj1 (proj2 (proj2 (gr_e G123)) e) Le) as [K|K]; auto. right. left.
      cbn [In] in K. destruct K as [<-|[<-|[<-|[<-|[<-|[<-|[]]]]]]].
      - rewrite (gr_og G23 Lx1), O1, (ts_ss A) in Oe. auto.
      - exfalso. rewrite (gr_og G23 Lx2), O2, TY in Oe. clash.
      - exfalso. rewrite (gr_og G3 Lu), O3, TY1 in Oe. clash.
      - exfalso. rewrite (gr_og G3 Lu'), O4 in Oe. clash.
      - rewrite O5, TX2' in Oe. auto.
      - exfalso. rewrite OZ2 in Oe. clash. }
    split; auto.
    - rewrite (ts_L A), <- app_assoc. auto.
    - rewrite (gr_tw G123 LS0). exact HF.
    - eapply grown_perm; [exact GT|..|].
      + replace (map (tw (abs m3)) ((s0 :: u :: sp) ++ (x2 :: ds) ++ z2 :: ts)) with
          ((tw (abs m) s0) :: u' :: map (tw (abs m)) sp ++ x1 :: map (tw (abs m)) ds ++ z1 :: map (tw (abs m)) ts).
        * perm.
        * rewrite !map_app. cbn [map app]. rewrite TW2, TW3, T6, (gr_tw G123 LS0).
          f_equal. f_equal. f_equal; [|f_equal; f_equal; [|f_equal]];
            symmetry; apply (map_tw_grown G123); intros e I; apply LA; inl.
      + perm.
      + perm.
    - assert (B : tband (abs m3) true dF dn (sp ++ [s0]) ds ts fs hs).
      { eapply tband_keep; [exact W|exact G123|exact FN|apply (ts_band A)|exact LT]. }
      assert (K1 : leads (abs m3) u (og (abs m3) x) (og (abs m3) z2)).
      { split; [apply (gr_live_e G3 Lu)|]. split.
        - rewrite (gr_og G3 Lu), O3, TY1, (gr_og G123 Lx). auto.
        - rewrite (gr_target W2 G3 Lu), OZ2. exact TU. }
      assert (K2 : leads (abs m3) x2 (og (abs m3) x) (target (abs m3) z2)).
      { split; [apply (gr_live_e G23 Lx2)|]. split.
        - rewrite (gr_og G23 Lx2), O2, TY, (gr_og G123 Lx). auto.
        - rewrite (gr_target W1 G23 Lx2), TX2. auto. }
      assert (K3 : face_is (abs m3) f [x; s; tw (abs m3) x2] dF false).
      { rewrite TW2. apply (@face_is_rot _ _ _ _ _ [s; x1] [x]). eapply gr_face_keep; [exact G23|apply (proj2 H1)|exact FI1]. }
      assert (K4 : face_is (abs m3) h [x2; tw (abs m3) z2; tw (abs m3) u] dF false).
      { rewrite T6, TW3. exact FI3. }
      rewrite (ts_s A) in K3. cbn [app tband]. destruct sp as [|q sp]; cbn [app hd] in *; auto 10.
    - pose proof (lt_grown W G123 (ts_rim A)) as RM. cbn [app].
      assert (K : leads (abs m3) z2 w (hd w0 ws)) by (split; auto).
      destruct ws as [|w1 ws]; cbn [app hd] in *; cbn [leads_through]; auto.
    - eapply gr_leads; [exact W|exact G123|apply (ts_s0 A)].
    - cbn [hd]. rewrite (gr_target W2 G3 Lu). auto.
    - assert (Lw0 : lvv (abs m) w0 = true) by (apply (gr_new_v G0); left; auto).
      destruct (Nat.eq_dec w0 (hd w0 ws)) as [Q|Q].
      + assert (EW : ws = [] /\ ts = []).
        { destruct ws as [|w1 ws].
          - split; auto. pose proof (lt_length (ts_rim A)) as LN. cbn in LN. destruct ts; auto. cbn in LN; lia.
          - exfalso. cbn [hd] in Q. pose proof (proj1 (gr_v G0)) as ND. apply NoDup_cons_iff in ND. apply (proj1 ND). left. auto. }
        destruct EW as [-> ->]. cbn [hd] in *.
        intros e Le Oe. destruct (proj1 (proj2 (proj2 (gr_e G123)) e) Le) as [K|K].
        * left. assert (P : nbp (abs m) w0 _) by apply (ts_nb0 A). destruct (P e K) as [P1|[]]; [rewrite <- (gr_og G123 K); auto|].
          rewrite (gr_target W G123 K). auto.
        * cbn [In] in K. destruct K as [<-|[<-|[<-|[<-|[<-|[<-|[]]]]]]].
          -- left. rewrite (gr_target W1 G23 Lx1). unfold target. rewrite T1, O2, TY. auto.
          -- exfalso. rewrite (gr_og G23 Lx2), O2, TY in Oe. clash.
          -- exfalso. rewrite (gr_og G3 Lu), O3, TY1 in Oe. clash.
          -- exfalso. rewrite (gr_og G3 Lu'), O4 in Oe. clash.
          -- right. left. unfold target. rewrite T5. auto.
          -- exfalso. rewrite OZ2 in Oe. clash.
      + intros e Le Oe. destruct (NE0 w0 Lw0 FW0 e Le Oe) as [K|[K|[]]]; [|contradiction].
        assert (P : nbp (abs m) w0 _) by apply (ts_nb0 A).
        rewrite (gr_target W G123 K). destruct (P e K) as [P1|P1]; [rewrite <- (gr_og G123 K); auto|auto|right].
        destruct ts as [|t ts']; [destruct P1|]. rewrite rev_first by discriminate.
        apply in_map_iff in P1 as (q & Q1 & Q2). apply in_map_iff. exists q. split; auto. rewrite <- Q1.
        apply (gr_og G123). apply LT. apply in_rev. rewrite <- (firstn_skipn 1). apply in_app_iff. auto.
    - cbn [hd]. intros e Le Oe. destruct (proj1 (proj2 (proj2 (gr_e G123)) e) Le) as [K|K].
      { exfalso. rewrite (gr_og G123 K) in Oe. assert (lvv (abs m) (og (abs m) e) = true) by (apply (wf_og W _ K)). clash. }
      assert (HX : og (abs m0) x = target (abs m0) y).
      { rewrite <- TY. apply (gr_target W0 G0 Iy0). }
      cbn [In] in K. destruct K as [<-|[<-|[<-|[<-|[<-|[<-|[]]]]]]].
      + exfalso. rewrite (gr_og G23 Lx1), O1, (ts_ss A) in Oe.
        assert (lvv (abs m) (hd w0 ws) = true) by (apply (gr_new_v G0); auto). clash.
      + exfalso. rewrite (gr_og G23 Lx2), O2, TY in Oe. clash.
      + exfalso. rewrite (gr_og G3 Lu), O3, TY1 in Oe. clash.
      + left. rewrite (gr_target W2 G3 Lu'). unfold target. rewrite T4, O3, TY1. exact HX.
      + exfalso. rewrite O5, TX2' in Oe. assert (lvv (abs m) (hd w0 ws) = true) by (apply (gr_new_v G0); auto). clash.
      + right. rewrite TZ2. auto.
    - cbn [map]. pose proof (ts_pay A) as P. cbn [map] in P. destruct xs as [|x0 xs]; [discriminate|]. cbn [map] in P.
      assert (P1 : vp (abs m) w0 = Some x0) by exact (f_equal (hd None) P).
      assert (P2 : map (vp (abs m)) ws = map Some xs) by exact (f_equal (@tl _) P).
      cbn [hd tl map]. rewrite (gr_vp G123), P1; [|apply (gr_new_v G0); left; auto]. f_equal. f_equal.
      + rewrite (gr_vp G3), Y; auto. apply (gr_new_v G2). left; auto.
      + rewrite <- P2. apply (map_vp_grown G123). intros v I. apply (gr_new_v G0). right; auto.
  Qed.

  Lemma tb_rounds c m0 L w0 s0 ret : wf m0 -> loop (abs m0) L ->
    (forall e, In e L -> og (abs m0) e <> target (abs m0) e) ->
    forall rest m pre x dn s sp ds ts ws fs hs xs a b d,
    tb_state m0 m L w0 pre x dn s s0 sp ds ts ws fs hs xs -> length rest <= length pre ->
    fits c m (6 * length rest + a) (length rest + b) (2 * length rest + d) ->
    exists m' pre' x' q s' sp' ds' ts' ws' fs' hs',
      tb_rest c m s (pv (abs m) x) ret rest = Ok (m', ret) /\
      tb_state m0 m' L w0 pre' x' (q ++ dn) s' s0 sp' ds' ts' ws' fs' hs' (firstn 1 xs ++ rev rest ++ tl xs) /\
      fits c m' a b d /\ pre ++ [x] = (pre' ++ [x']) ++ q /\ length q = length rest /\
      tw (abs m') s0 = tw (abs m) s0.
  Proof.
    intros Wm0 HL NS. induction rest as [|xv rest IH]; intros m pre x dn s sp ds ts ws fs hs xs a b d A LN F.
    - exists m, pre, x, [], s, sp, ds, ts, ws, fs, hs. cbn [rev app length] in *. rewrite app_nil_r. split; auto.
      assert (EX : firstn 1 xs ++ tl xs = xs) by (destruct xs; auto). rewrite EX.
      split; auto.
    - destruct (@exists_last _ pre) as (pre1 & y & ->); [intros ->; cbn in LN; lia|].
      rewrite app_length in LN. cbn [length] in *.
      assert (F1 : fits c m (6 + (6 * length rest + a)) (S (length rest + b)) (2 + (2 * length rest + d))).
      { eapply fits_le; eauto; try apply A; lia. }
      destruct (tb_round ret xv rest Wm0 HL NS A F1) as (m1 & z & ws1 & sp1 & ds1 & ts1 & fs1 & hs1 & E & A1 & F2 & TW1).
      destruct (IH m1 pre1 y (x :: dn) z sp1 ds1 ts1 ws1 fs1 hs1 _ a b d A1)
        as (m' & pre' & x' & q & s' & sp' & ds' & ts' & ws' & fs' & hs' & E' & A' & F' & Q1 & Q2 & TW2); auto.
      { lia. }
      exists m', pre', x', (q ++ [x]), s', sp', ds', ts', ws', fs', hs'.
      split; [rewrite E; exact E'|]. split.
      + cbn [firstn tl] in A'. rewrite <- !app_assoc. cbn [rev app].
        pose proof (ts_pay A) as P. destruct xs as [|x0 xs]; [discriminate|]. cbn [hd tl firstn app] in *.
        rewrite <- app_assoc. cbn [app]. exact A'.
      + split; auto. split; [rewrite Q1, <- !app_assoc; auto|]. split; [rewrite app_length; cbn; lia|]. rewrite TW2; auto.
  Qed.

  Lemma tb_close c m0 m L w0 x dn s s0 sp ds ts ws fs hs xs a b d : wf m0 -> loop (abs m0) L ->
    (forall e, In e L -> og (abs m0) e <> target (abs m0) e) ->
    tb_state m0 m L w0 [] x dn s s0 sp ds ts ws fs hs xs -> 2 <= length dn -> fits c m (4 + a) b (2 + d) ->
    let e := tw (abs m) s0 in
    exists m' x2 z2 f h, (let* outside := prev_id m e in
        let* n := g_next m e in
        let* nn := next_id m n in
        let* m2 := cface dE dF c m nn e in
        let* n2 := next_id m2 e in
        let* m3 := cface dE dF c m2 n2 outside in
        Ok (m3, e)) = Ok (m', tw (abs m') s0) /\
      wf m' /\ fits c m' a b d /\
      tband_built (abs m0) (abs m') true L xs dF (s0 :: sp) (x2 :: ds) (z2 :: ts) (w0 :: ws) (f :: fs) (h :: hs).
  Proof.
    intros Wm0 HL NS A N F s0'. pose proof (wfW Wm0) as W0. pose proof (ts_wf A) as Wm. pose proof (wfW Wm) as W.
    pose proof (ts_hole A) as H. pose proof (ts_grown A) as G0. fold s0' in H.
    destruct (tband_length (ts_band A)) as (_ & _ & LT & _).
    destruct (@exists_last _ ts) as (ts' & y & ET); [intros ->; cbn in LT; lia|].
    pose proof (lt_length (ts_rim A)) as LW. rewrite app_length in LW. cbn in LW.
    destruct ws as [|w1 ws1]; [cbn in LW; lia|].
    destruct (@exists_last _ ws1) as (ws' & wl & EW); [intros ->; cbn in LW; lia|].
    pose proof (ts_L A) as EL. cbn [app] in EL.
    assert (LA : forall e, In e ((s0 :: sp) ++ ds ++ ts) -> lv (abs m) e = true).
    { intros e I. apply (gr_e G0). right. apply in_app_iff. auto. }
    assert (LTS : forall t, In t ts -> lv (abs m) t = true) by (intros t I; apply LA; inl).
    assert (LS0 : lv (abs m) s0 = true) by (apply LA; left; auto).
    assert (LS0' : lv (abs m) s0' = true) by (apply (wf_tw W _ LS0)).
    assert (Lx : lv (abs m) x = true) by (apply (hole_live H); left; auto).
    assert (Ix : In x L) by (rewrite EL; left; auto).
    assert (Lx0 : lv (abs m0) x = true) by (apply (loop_live' HL); auto).
    assert (N0 : nx (abs m) s0' = x) by (apply (loop_nx_wrap (p := s :: ts) (proj1 H)); auto).
    assert (NX : nx (abs m) x = s) by (apply (loop_nx (proj1 H))).
    assert (PS : pv (abs m) s0' = y).
    { apply (loop_pv_at (l := x :: s :: ts ++ [s0']) (p := x :: s :: ts') (q := []) W (proj1 H)).
      rewrite ET, <- app_assoc. auto. }
    rewrite (get_prev Wm LS0'), PS. cbn [bind]. rewrite (get_gnext Wm LS0'), N0. cbn [bind].
    rewrite (get_next Wm Lx), NX. cbn [bind].
    assert (EH : hd 0 L = x) by (rewrite EL; auto).
    assert (T0 : target (abs m) s0' = og (abs m0) x).
    { unfold target, s0'. rewrite (wf_twtw W) by auto. rewrite <- EH. apply (ts_s0 A). }
    assert (OXL : lvv (abs m0) (og (abs m0) x) = true) by (apply (wf_og W0 _ Lx0)).
    assert (H' : hole (abs m) (s :: ts ++ s0' :: [x])).
    { apply (@hole_rot _ _ _ _ [x] (s :: ts ++ [s0'])) in H. cbn [app] in H. rewrite <- !app_assoc in H. exact H. }
    assert (FW : forall z, In z (w0 :: w1 :: ws1) -> lvv (abs m0) z = false) by (intros z I; apply (gr_new_v G0 I)).
    assert (SS : target (abs m) s = w1) by apply (ts_ss A).
    assert (F1 : lvv (abs m0) w1 = false) by (apply FW; inl).
    assert (NL : forall e, leads (abs m) e (target (abs m) s) (target (abs m) s0') -> False).
    { rewrite SS, T0. apply (nbp_no (ts_nb A)). intros [Q|Q]; [apply (NS x Ix Q)|clash]. }
    assert (FF : fits c m (2 + (2 + a)) b (S (S d))) by exact F.
    destruct (do_cface dE dF Wm FF H' NL) as (m1 & f & x1 & x2 & E1 & Wm1 & F2 & G1 & FI1 & H1 & T1 & T2 & O1 & O2).
    rewrite E1. cbn [bind]. pose proof (wfW Wm1) as W1.
    assert (LS1' : lv (abs m1) s0' = true) by (apply (gr_live_e G1 LS0')).
    assert (LS1 : lv (abs m1) s0 = true) by (apply (gr_live_e G1 LS0)).
    assert (Lx2 : lv (abs m1) x2 = true) by (apply (gr_new_e G1); right; left; auto).
    rewrite (get_next Wm1 LS1'), (loop_nx (proj1 H1)). cbn [bind].
    assert (RM : leads_through (abs m) (ts' ++ [y]) ((w1 :: ws') ++ [wl; w0])).
    { pose proof (ts_rim A) as R. rewrite ET, EW in R. cbn [app] in *. rewrite <- app_assoc in R. exact R. }
    assert (OY : og (abs m) y = wl) by (apply (lt_og RM)).
    assert (Ly : lv (abs m) y = true) by (apply LTS; rewrite ET; inl).
    assert (TY : target (abs m) y = w0).
    { apply (@lt_last _ _ _ _ ts' y ((w1 :: ws') ++ [wl])). rewrite <- app_assoc. exact RM. }
    assert (TY1 : target (abs m1) y = w0) by (rewrite (gr_target W G1 Ly); auto).
    assert (TX2 : target (abs m1) x2 = w1) by (unfold target; rewrite T2, O1; auto).
    assert (H1' : hole (abs m1) (x2 :: ts' ++ y :: [s0'])).
    { apply (@hole_rot _ _ _ _ [s0'] (x2 :: ts)) in H1. rewrite ET in H1. cbn [app] in H1. rewrite <- !app_assoc in H1. exact H1. }
    assert (D1 : w0 <> w1).
    { intros Q. pose proof (proj1 (gr_v G0)) as ND. apply NoDup_cons_iff in ND. apply (proj1 ND). left. auto. }
    assert (D2 : wl <> w1).
    { intros Q. pose proof (proj1 (gr_v G0)) as ND. apply NoDup_cons_iff, proj2, NoDup_cons_iff, proj1 in ND. apply ND.
      rewrite EW, <- Q. inl. }
    assert (FW0 : lvv (abs m0) w0 = false) by (apply FW; inl).
    assert (NL2 : forall e, leads (abs m1) e (target (abs m1) x2) (target (abs m1) y) -> False).
    { rewrite TY1, TX2.
      assert (NB : nbp (abs m1) w0 (fun u => lvv (abs m0) u = true \/ u = wl)).
      { eapply (nbp_pair W G1 T1 T2 (ts_nb0 A)).
        - intros Q. exfalso. rewrite O1, SS in Q. auto.
        - intros Q. exfalso. rewrite O2, T0 in Q. clash.
        - intros u [Q|Q]; auto. right. rewrite ET, rev_app_distr in Q. cbn in Q. destruct Q as [Q|[]]. rewrite <- Q. exact OY. }
      apply (nbp_no' W1 NB). intros [Q|Q]; [clash|]. auto. }
    assert (F3 : fits c m1 (2 + a) b (S d)) by exact F2.
    destruct (do_cface dE dF Wm1 F3 H1' NL2) as (m2 & h & z1 & z2 & E2 & Wm2 & F4 & G2 & FI2 & H2 & T3 & T4 & O3 & O4).
    rewrite E2. cbn [bind].
    assert (G12 : grown (abs m) (abs m2) (s :: ts ++ s0' :: [x]) ([x1; x2] ++ [z1; z2]) ([] ++ []) ([f] ++ [h])).
    { apply (grown_trans G1 G2). intros z I.
      assert (J : In z [x1; x2] \/ In z (s :: ts ++ s0' :: [x])) by (rewrite ET; revert I; inl).
      destruct J as [J|J]; auto. right. apply (gr_new_e G1 J). }
    cbn [app] in G12.
    exists m2, x2, z2, f, h. split; [rewrite (gr_tw G12 LS0); auto|]. split; auto. split; auto.
    assert (FN : forall z, In z (s :: ts ++ s0' :: [x]) -> fc (abs m) z = None) by (apply (proj2 H')).
    assert (Lz2 : lv (abs m2) z2 = true) by (apply (gr_new_e G2); right; left; auto).
    assert (TW2 : tw (abs m2) x2 = x1) by (rewrite (gr_tw G2 Lx2); auto).
    assert (OZ2 : og (abs m2) z2 = w0) by (rewrite O4; auto).
    assert (TZ2 : target (abs m2) z2 = w1) by (unfold target; rewrite T4, O3; auto).
    split.
    - assert (GT : grown (abs m0) (abs m2) L ((((s0 :: sp) ++ ds ++ ts) ++ map (tw (abs m)) ((s0 :: sp) ++ ds ++ ts)) ++ [x1; x2; z1; z2])
                   ((w0 :: w1 :: ws1) ++ []) ((fs ++ hs) ++ [f; h])).
      { apply (grown_trans G0 G12). intros z I. apply (ts_fresh A). fold s0'. revert I. inl. }
      rewrite app_nil_r in GT. eapply grown_perm; [exact GT|..|].
      + replace (map (tw (abs m2)) ((s0 :: sp) ++ (x2 :: ds) ++ z2 :: ts)) with
          (tw (abs m) s0 :: map (tw (abs m)) sp ++ x1 :: map (tw (abs m)) ds ++ z1 :: map (tw (abs m)) ts).
        * perm.
        * rewrite !map_app. cbn [map app]. rewrite TW2, T4, (gr_tw G12 LS0).
          f_equal. f_equal; [|f_equal; f_equal; [|f_equal]];
            symmetry; apply (map_tw_grown G12); intros e I; apply LA; inl.
      + apply Permutation_refl.
      + perm.
    - assert (B : tband (abs m2) true dF dn (sp ++ [s0]) ds ts fs hs).
      { eapply tband_keep; [exact W|exact G12|exact FN|apply (ts_band A)|exact LTS]. }
      assert (K1 : leads (abs m2) s0 (og (abs m2) x) (og (abs m2) z2)).
      { rewrite OZ2, (gr_og G12 Lx), (gr_og G0 Lx0). pose proof (gr_leads W G12 (ts_s0 A)) as K. rewrite EL in K. exact K. }
      assert (K2 : leads (abs m2) x2 (og (abs m2) x) (target (abs m2) z2)).
      { split; [apply (gr_live_e G2 Lx2)|]. split.
        - rewrite (gr_og G2 Lx2), O2, T0, (gr_og G12 Lx), (gr_og G0 Lx0). auto.
        - rewrite (gr_target W1 G2 Lx2), TX2. auto. }
      assert (K3 : face_is (abs m2) f [x; s; tw (abs m2) x2] dF false).
      { rewrite TW2. apply (@face_is_rot _ _ _ _ _ [s; x1] [x]). eapply gr_face_keep; [exact G2|apply (proj2 H1')|exact FI1]. }
      assert (K4 : face_is (abs m2) h [x2; tw (abs m2) z2; tw (abs m2) s0] dF false).
      { rewrite T4, (gr_tw G12 LS0). exact FI2. }
      rewrite (ts_s A) in K3. rewrite EL. cbn [app firstn tband]. destruct sp as [|q sp]; cbn [app hd] in *; auto 10.
    - pose proof (lt_grown W G12 (ts_rim A)) as R. cbn [app firstn] in *. split; auto. split; auto.
    - rewrite ET. apply (@hole_rot _ _ _ _ [y] (z2 :: ts')). exact H2.
    - rewrite <- (ts_pay A). apply (map_vp_grown G12). intros v I. apply (gr_new_v G0 I).
  Qed.

  (** [loft_tri_back_closed] once around the hole: the first payload belongs to the target of
      [start], the others follow backwards. The returned half-edge is the twin of the first upright;
      it belongs to a face. *)
  Lemma loft_tri_back_total c m start t y ys a b d : wf m -> let n := length (start :: t) in
    hole (abs m) (start :: t) -> (forall e, In e (start :: t) -> og (abs m) e <> target (abs m) e) ->
    3 <= n -> length (y :: ys) = n -> fits c m (6 * n + a) (n + b) (2 * n + d) ->
    exists m' ps ds ts vs fs hs, loft_tri_back_closed dE dF c m start (y :: ys) = Ok (m', tw (abs m') (hd 0 ps)) /\
      wf m' /\ fits c m' a b d /\ length ts = n /\
      tband_built (abs m) (abs m') true (t ++ [start]) (y :: rev ys) dF ps ds ts vs fs hs.
  Proof.
    intros Wm n H NS N LY F. pose proof (wfW Wm) as W.
    assert (Ls : lv (abs m) start = true) by (apply (hole_live H); left; auto).
    cbn [length] in LY. assert (Et : exists e1 t1, t = e1 :: t1) by (destruct t as [|e1 t1]; [cbn in *; lia|eauto]).
    destruct Et as (e1 & t1 & Et).
    assert (F0 : fits c m (2 + (6 * length ys + (4 + a))) (S (length ys + b)) (2 * length ys + (2 + d))).
    { eapply fits_le; eauto; lia. }
    destruct (do_via dE y Wm F0 H eq_refl) as (m1 & v & u & u' & E & Wm1 & F1 & G & H1 & T1 & T2 & O1 & O2 & Y).
    pose proof (wfW Wm1) as W1.
    assert (NS1 : nx (abs m) start = e1) by (rewrite Et in H; apply (loop_nx (proj1 H))).
    assert (O : target (abs m) start = og (abs m) e1) by (rewrite <- NS1; symmetry; apply (wf_ognx W _ Ls)).
    assert (Le1 : lv (abs m) e1 = true) by (rewrite <- NS1; apply (wf_nx W _ Ls)).
    assert (K : leads (abs m1) u (og (abs m) e1) v).
    { split; [apply (gr_new_e G); left; auto|]. split; [rewrite O1; exact O|]. unfold target. rewrite T1; auto. }
    pose proof (nbrs_via Wm G Ls T1 T2 O1 O2) as NB.
    assert (A : tb_state m m1 (t ++ [start]) v t start [] u u [] [] [] [] [] [] [y]).
    { split; auto.
      - rewrite T1. exact H1.
      - cbn [app map]. rewrite T1. eapply grown_weaken; [exact G|]. intros z. inl.
      - cbn. auto.
      - cbn. auto.
      - rewrite Et. exact K.
      - apply K.
      - eapply (nbrs_nbp NB). intros x [<-|[]]. left. rewrite O. apply (wf_og W _ Le1).
      - eapply (nbrs_nbp NB). intros x [<-|[]]. left. auto.
      - cbn [map]. rewrite Y. auto. }
    assert (HL : loop (abs m) (t ++ [start])) by (apply (@loop_rot _ _ _ _ [start] t); apply H).
    assert (NS' : forall e, In e (t ++ [start]) -> og (abs m) e <> target (abs m) e).
    { intros e I. apply NS. revert I. inl. }
    assert (LN : length ys <= length t) by (cbn in *; lia).
    destruct (tb_rounds u' Wm HL NS' A LN F1)
      as (m2 & pre & x & q & s & sp & ds & ts & ws & fs & hs & E2 & A2 & F2 & Q1 & Q2 & TWU).
    assert (pre = []).
    { pose proof (f_equal (@length _) Q1) as Q. rewrite !app_length in Q. cbn in *. destruct pre; auto. cbn in *; lia. }
    subst pre. rewrite app_nil_r in A2. cbn [firstn tl app] in A2. rewrite app_nil_r in A2.
    assert (LQ : 2 <= length q) by (cbn in *; lia).
    destruct (tb_close Wm HL NS' A2 LQ F2) as (m3 & x2 & z2 & f & h & E3 & Wm3 & F3 & B).
    exists m3, (u :: sp), (x2 :: ds), (z2 :: ts), (v :: ws), (f :: fs), (h :: hs).
    assert (LT : length ts = length q) by apply (tband_length (ts_band A2)).
    split; [|split; auto; split; auto; split; auto; cbn in *; lia].
    unfold loft_tri_back_closed, loft_tri_back. cbn [tri_back_loop]. rewrite (get_next Wm Ls). cbn [bind]. rewrite E. cbn [bind].
    assert (Ls1 : lv (abs m1) start = true) by (apply (gr_live_e G Ls)).
    assert (Lo1 : lv (abs m1) (nx (abs m) start) = true) by (rewrite NS1; apply (gr_live_e G Le1)).
    rewrite (get_next Wm1 Ls1), (loop_nx (proj1 H1)). cbn [bind]. rewrite (get_prev Wm1 Ls1). cbn [bind].
    rewrite (get_prev Wm1 Lo1). cbn [bind]. rewrite NS1.
    rewrite (loop_pv_at (a := u') (b := e1) (p := [start; u]) (q := t1) W1 (proj1 H1)) by (rewrite Et; reflexivity).
    change (let* m5 := if match ys with [] => false | _ :: _ => true end then cface dE dF c m1 u (pv (abs m1) start) else Ok m1 in
            tri_back_loop dE dF c m5 false ys false (pv (abs m1) start) u') with (tb_rest c m1 u (pv (abs m1) start) u' ys).
    rewrite E2. cbn [bind].
    assert (TU : u' = tw (abs m2) u).
    { rewrite TWU; auto. }
    rewrite TU. cbn [hd]. exact E3.
  Qed.

  (** * Forwards *)
  Record tf_state m0 m L w0 dn x pre s0 s sp ds ts vs w fs hs xs : Prop := {
    us_wf : wf m;
    us_L : L = dn ++ x :: pre;
    us_s : hd 0 (sp ++ [s]) = s0;
    us_hole : hole (abs m) (s0 :: ts ++ tw (abs m) s :: x :: pre);
    us_grown : grown (abs m0) (abs m) L (((sp ++ [s]) ++ ds ++ ts) ++ map (tw (abs m)) ((sp ++ [s]) ++ ds ++ ts)) (vs ++ [w]) (fs ++ hs);
    us_band : tband (abs m) false dF dn (sp ++ [s]) ds ts fs hs;
    us_w0 : hd 0 (vs ++ [w]) = w0;
    us_rim : leads_through (abs m) ts (vs ++ [w]);
    us_s0 : leads (abs m) s0 (og (abs m0) (hd 0 L)) w0;
    us_x : leads (abs m) s (og (abs m0) x) w;
    us_ll : target (abs m) (last ts s0) = w;
    us_nb0 : nbp (abs m) w0 (fun u => lvv (abs m0) u = true \/ In u (map (target (abs m)) (firstn 1 ts)));
    us_nb : nbp (abs m) w (fun u => u = og (abs m0) x \/ lvv (abs m0) u = false);
    us_pay : map (vp (abs m)) (vs ++ [w]) = map Some xs
  }.

  Lemma us_fresh m0 m L w0 dn x pre s0 s sp ds ts vs w fs hs xs : tf_state m0 m L w0 dn x pre s0 s sp ds ts vs w fs hs xs ->
    forall z, In z (s0 :: ts ++ tw (abs m) s :: x :: pre) -> In z L \/ lv (abs m0) z = false.
  Proof.
    intros A z I. pose proof (us_grown A) as G.
    assert (J : In z L \/ In z (((sp ++ [s]) ++ ds ++ ts) ++ map (tw (abs m)) ((sp ++ [s]) ++ ds ++ ts))).
    { rewrite (us_L A). destruct I as [<-|I].
      - right. rewrite <- (us_s A). destruct sp; cbn; auto.
      - apply in_app_iff in I as [I|[<-|[<-|I]]].
        + right. inl.
        + right. apply in_app_iff. right. apply in_map. inl.
        + left. inl.
        + left. inl. }
    destruct J as [J|J]; auto. right. apply (gr_new_e G J).
  Qed.

  (** What is left to do after the first face of a round. *)
  Definition tf_rest c m x ret (rest : list VP) : res (mesh * nat) :=
    let* new_output := next_id m x in
    let* m3 := if (match rest with [] => false | _ => true end)
               then
                 let* q := g_prev m x in
                 let* qq := prev_id m q in
                 cface dE dF c m x qq
               else Ok m in
    tri_loop dE dF c m3 false rest false new_output ret.

  Lemma tf_round c m0 m L w0 dn x y pre s0 s sp ds ts vs w fs hs xs ret xv rest a b d : wf m0 -> loop (abs m0) L ->
    (forall e, In e L -> og (abs m0) e <> target (abs m0) e) ->
    tf_state m0 m L w0 dn x (y :: pre) s0 s sp ds ts vs w fs hs xs -> fits c m (6 + a) (S b) (2 + d) ->
    exists m' u ds' ts' fs' hs' w',
      tf_rest c m x ret (xv :: rest) = tf_rest c m' y ret rest /\
      tf_state m0 m' L w0 (dn ++ [x]) y pre s0 u (sp ++ [s]) ds' ts' (vs ++ [w]) w' fs' hs' (xs ++ [xv]) /\ fits c m' a b d /\
      tw (abs m') s0 = tw (abs m) s0.
  Proof.
    intros Wm0 HL NS A F. pose proof (wfW Wm0) as W0. pose proof (us_wf A) as Wm. pose proof (wfW Wm) as W.
    pose proof (us_hole A) as H. pose proof (us_grown A) as G0.
    set (s' := tw (abs m) s) in *.
    assert (Lx : lv (abs m) x = true) by (apply (hole_live H); inl).
    assert (Ly : lv (abs m) y = true) by (apply (hole_live H); inl).
    assert (Ls' : lv (abs m) s' = true) by (apply (hole_live H); inl).
    assert (Ls : lv (abs m) s = true) by apply (us_x A).
    destruct (app_cons_last ts s0) as (pt & l & EL & EL').
    assert (Ll : lv (abs m) l = true).
    { apply (hole_live H). rewrite app_comm_cons, EL. inl. }
    assert (NX : nx (abs m) x = y) by (apply (loop_nx_at (p := s0 :: ts ++ [s']) (q := pre) (proj1 H)); cbn; rewrite <- app_assoc; auto).
    assert (PX : pv (abs m) x = s') by (apply (loop_pv_at (p := s0 :: ts) (q := y :: pre) W (proj1 H)); auto).
    assert (PS : pv (abs m) s' = l).
    { apply (loop_pv_at (p := pt) (q := x :: y :: pre) W (proj1 H)). rewrite app_comm_cons, EL, <- app_assoc. auto. }
    assert (Ix : In x L) by (rewrite (us_L A); inl).
    assert (Ix0 : lv (abs m0) x = true) by (apply (loop_live' HL); auto).
    assert (Iy0 : lv (abs m0) y = true) by (apply (loop_live' HL); rewrite (us_L A); inl).
    assert (OY : og (abs m) y = og (abs m0) y) by (apply (gr_og G0 Iy0)).
    assert (TX : target (abs m) x = og (abs m0) y).
    { rewrite <- OY, <- NX. symmetry. apply (wf_ognx W _ Lx). }
    assert (TX0 : target (abs m0) x = og (abs m0) y) by (rewrite <- TX; symmetry; apply (gr_target W0 G0 Ix0)).
    assert (OYL : lvv (abs m0) (og (abs m0) y) = true) by (apply (wf_og W0 _ Iy0)).
    assert (FW : forall z, In z (vs ++ [w]) -> lvv (abs m0) z = false) by (intros z I; apply (gr_new_v G0 I)).
    assert (IW0 : In w0 (vs ++ [w])) by (rewrite <- (us_w0 A); destruct vs; cbn; auto).
    assert (FW0 : lvv (abs m0) w0 = false) by (apply FW; auto).
    assert (FWw : lvv (abs m0) w = false) by (apply FW; inl).
    assert (Lw0 : lvv (abs m) w0 = true) by (apply (gr_new_v G0); auto).
    assert (Lw : lvv (abs m) w = true) by (apply (gr_new_v G0); inl).
    assert (TL : target (abs m) l = w) by (rewrite EL'; apply (us_ll A)).
    unfold tf_rest at 1. rewrite (get_next Wm Lx), NX. cbn [bind]. rewrite (get_gprev Wm Lx), PX. cbn [bind].
    rewrite (get_prev Wm Ls'), PS. cbn [bind].
    assert (H' : hole (abs m) (x :: (y :: pre ++ pt) ++ l :: [s'])).
    { apply (@hole_rot _ _ _ _ (pt ++ [l; s']) (x :: y :: pre)) in H || idtac.
      assert (Q : s0 :: ts ++ s' :: x :: y :: pre = (pt ++ [l; s']) ++ x :: y :: pre).
      { rewrite app_comm_cons, EL, <- !app_assoc. auto. }
      rewrite Q in H. apply hole_rot in H. cbn [app] in H |- *. rewrite <- app_assoc. exact H. }
    assert (NL : forall e, leads (abs m) e (target (abs m) x) (target (abs m) l) -> False).
    { rewrite TL, TX. apply (nbp_no' W (us_nb A)). intros [Q|Q]; [apply (NS x Ix); rewrite TX0; auto|clash]. }
    assert (F1 : fits c m (2 + (4 + a)) (S b) (S (S d))) by exact F.
    destruct (do_cface dE dF Wm F1 H' NL) as (m1 & f & x1 & x2 & E1 & Wm1 & F2 & G1 & FI1 & H1 & T1 & T2 & O1 & O2).
    rewrite E1. cbn [bind]. pose proof (wfW Wm1) as W1.
    assert (Ly1 : lv (abs m1) y = true) by (apply (gr_live_e G1 Ly)).
    assert (Ll1 : lv (abs m1) l = true) by (apply (gr_live_e G1 Ll)).
    assert (Lx1 : lv (abs m1) x1 = true) by (apply (gr_new_e G1); left; auto).
    assert (Lx2 : lv (abs m1) x2 = true) by (apply (gr_new_e G1); right; left; auto).
    assert (PY : pv (abs m1) y = x2) by (apply (loop_pv_at (p := [l]) (q := pre ++ pt) W1 (proj1 H1)); auto).
    assert (NX2 : nx (abs m1) x2 = y) by (apply (loop_nx_at (p := [l]) (q := pre ++ pt) (proj1 H1)); auto).
    cbn [tri_loop]. rewrite (get_prev Wm1 Ly1), PY. cbn [bind].
    assert (H1' : hole (abs m1) (x2 :: y :: pre ++ pt ++ [l])).
    { apply (@hole_rot _ _ _ _ [l] (x2 :: y :: pre ++ pt)) in H1. cbn [app] in H1. rewrite <- app_assoc in H1. exact H1. }
    assert (F3 : fits c m1 (2 + (2 + a)) (S b) (S d)) by exact F2.
    destruct (do_via dE xv Wm1 F3 H1' (eq_sym NX2)) as (m2 & w' & u & u' & E2 & Wm2 & F4 & G2 & H2 & T3 & T4 & O3 & O4 & Y).
    rewrite E2. cbn [bind]. pose proof (wfW Wm2) as W2.
    assert (Ly2 : lv (abs m2) y = true) by (apply (gr_live_e G2 Ly1)).
    assert (Ll2 : lv (abs m2) l = true) by (apply (gr_live_e G2 Ll1)).
    assert (Lx22 : lv (abs m2) x2 = true) by (apply (gr_live_e G2 Lx2)).
    assert (Lu : lv (abs m2) u = true) by (apply (gr_new_e G2); left; auto).
    assert (Lu' : lv (abs m2) u' = true) by (apply (gr_new_e G2); right; left; auto).
    rewrite (get_next Wm2 Lx22), (loop_nx (proj1 H2)). cbn [bind]. rewrite (get_prev Wm2 Lx22).
    rewrite (loop_pv_wrap (a := l) (p := u :: u' :: y :: pre ++ pt) W2 (proj1 H2)) by (cbn; rewrite <- app_assoc; reflexivity).
    cbn [bind].
    assert (H2' : hole (abs m2) (u :: (u' :: y :: pre ++ pt) ++ l :: [x2])).
    { apply (@hole_rot _ _ _ _ [x2] (u :: u' :: y :: pre ++ pt ++ [l])) in H2.
      cbn [app] in H2 |- *. rewrite <- !app_assoc in *. exact H2. }
    assert (TX2 : target (abs m1) x2 = og (abs m0) y) by (unfold target; rewrite T2, O1; exact TX).
    assert (TU : target (abs m2) u = w') by (unfold target; rewrite T3; auto).
    assert (TL2 : target (abs m2) l = w) by (rewrite (gr_target W1 G2 Ll1), (gr_target W G1 Ll); auto).
    assert (NW : nbrs (abs m2) w' [og (abs m0) y]) by (rewrite <- TX2; apply (nbrs_via Wm1 G2 Lx2 T3 T4 O3 O4)).
    assert (VW1 : lvv (abs m1) w' = false) by (apply (gr_new_v G2); left; auto).
    assert (VW : lvv (abs m) w' = false).
    { destruct (lvv (abs m) w') eqn:Q; auto. assert (lvv (abs m1) w' = true) by (apply (gr_live_v G1 Q)). clash. }
    assert (VW0 : lvv (abs m0) w' = false).
    { destruct (lvv (abs m0) w') eqn:Q; auto. assert (lvv (abs m) w' = true) by (apply (gr_live_v G0 Q)). clash. }
    assert (NL2 : forall e, leads (abs m2) e (target (abs m2) u) (target (abs m2) l) -> False).
    { rewrite TU, TL2. apply (nbrs_no NW). intros [Q|[]]. clash. }
    assert (F5 : fits c m2 (2 + a) b (S d)) by exact F4.
    destruct (do_cface dE dF Wm2 F5 H2' NL2) as (m3 & h & z1 & z2 & E3 & Wm3 & F6 & G3 & FI3 & H3 & T5 & T6 & O5 & O6).
    rewrite E3. cbn [bind]. pose proof (wfW Wm3) as W3.
    assert (G23 : grown (abs m1) (abs m3) (x2 :: y :: pre ++ pt ++ [l]) ([u; u'] ++ [z1; z2]) ([w'] ++ []) ([] ++ [h])).
    { apply (grown_trans G2 G3). intros z I.
      assert (J : In z [u; u'] \/ In z (x2 :: y :: pre ++ pt ++ [l])) by (revert I; inl).
      destruct J as [J|J]; auto. right. apply (gr_new_e G2 J). }
    assert (G123 : grown (abs m) (abs m3) (s0 :: ts ++ s' :: x :: y :: pre) ([x1; x2] ++ ([u; u'] ++ [z1; z2]))
              ([] ++ ([w'] ++ [])) ([f] ++ ([] ++ [h]))).
    { assert (G1' : grown (abs m) (abs m1) (s0 :: ts ++ s' :: x :: y :: pre) [x1; x2] [] [f]).
      { eapply grown_weaken; [exact G1|]. intros z. rewrite (app_comm_cons ts), EL. inl. }
      apply (grown_trans G1' G23). intros z I.
      assert (J : In z [x1; x2] \/ In z (s0 :: ts ++ s' :: x :: y :: pre)) by (rewrite (app_comm_cons ts), EL; revert I; inl).
      destruct J as [J|J]; auto. right. apply (gr_new_e G1 J). }
    cbn [app] in G23, G123.
    assert (GT : grown (abs m0) (abs m3) L ((((sp ++ [s]) ++ ds ++ ts) ++ map (tw (abs m)) ((sp ++ [s]) ++ ds ++ ts)) ++ [x1; x2; u; u'; z1; z2])
                   ((vs ++ [w]) ++ [w']) ((fs ++ hs) ++ [f; h])).
    { apply (grown_trans G0 G123). intros z I. apply (us_fresh A). exact I. }
    assert (LA : forall e, In e ((sp ++ [s]) ++ ds ++ ts) -> lv (abs m) e = true).
    { intros e I. apply (gr_e G0). right. apply in_app_iff. auto. }
    assert (LT : forall t, In t ts -> lv (abs m) t = true) by (intros t I; apply LA; inl).
    assert (IS0 : In s0 (sp ++ [s])) by (rewrite <- (us_s A); destruct sp; cbn; auto).
    assert (LS0 : lv (abs m) s0 = true) by (apply LA, in_app_iff; left; exact IS0).
    assert (TW1 : tw (abs m3) x1 = x2) by (rewrite (gr_tw G23 Lx1); auto).
    assert (TW3 : tw (abs m3) u = u') by (rewrite (gr_tw G3 Lu); auto).
    assert (Lz2 : lv (abs m3) z2 = true) by (apply (gr_new_e G3); right; left; auto).
    assert (OZ2 : og (abs m3) z2 = w) by (rewrite O6; exact TL2).
    assert (TZ2 : target (abs m3) z2 = w') by (unfold target; rewrite T6, O5; exact TU).
    assert (FN : forall z, In z (s0 :: ts ++ s' :: x :: y :: pre) -> fc (abs m) z = None) by (apply (proj2 H)).
    assert (HF : hole (abs m3) (s0 :: (ts ++ [z2]) ++ u' :: y :: pre)).
    { apply (@hole_rot _ _ _ _ (l :: z2 :: u' :: y :: pre) pt) in H3.
      assert (Q : s0 :: (ts ++ [z2]) ++ u' :: y :: pre = pt ++ l :: z2 :: u' :: y :: pre).
      { rewrite <- app_assoc. cbn [app]. change (s0 :: ts ++ z2 :: u' :: y :: pre) with ((s0 :: ts) ++ z2 :: u' :: y :: pre).
        rewrite EL, <- app_assoc. auto. }
      rewrite Q. exact H3. }
    assert (EN : forall v (P : nat -> Prop), lvv (abs m) v = true -> lvv (abs m0) v = false -> nbp (abs m) v P ->
      (v = w -> P (og (abs m0) y) /\ P w') -> nbp (abs m3) v P).
    { intros v P Lv Fv NB PW e Le Oe. destruct (proj1 (proj2 (proj2 (gr_e G123)) e) Le) as [K|K].
      { rewrite (gr_target W G123 K). apply NB; auto. rewrite <- Oe. symmetry. apply (gr_og G123 K). }
      cbn [In] in K. destruct K as [<-|[<-|[<-|[<-|[<-|[<-|[]]]]]]].
      - exfalso. rewrite (gr_og G23 Lx1), O1, TX in Oe. clash.
      - rewrite (gr_og G23 Lx2), O2, TL in Oe. rewrite (gr_target W1 G23 Lx2), TX2. apply PW. auto.
      - exfalso. rewrite (gr_og G3 Lu), O3, TX2 in Oe. clash.
      - exfalso. rewrite (gr_og G3 Lu'), O4 in Oe. clash.
      - exfalso. rewrite O5, TU in Oe. clash.
      - rewrite TZ2. apply PW. rewrite <- Oe. auto. }
    exists m3, u, (ds ++ [x1]), (ts ++ [z2]), (fs ++ [f]), (hs ++ [h]), w'.
    split; [reflexivity|]. split; [|split; [exact F6|apply (gr_tw G123 LS0)]].
    split; auto.
    - rewrite (us_L A), <- app_assoc. auto.
    - rewrite <- (us_s A). destruct sp; auto.
    - rewrite TW3. exact HF.
    - eapply grown_perm; [exact GT|..|].
      + replace (map (tw (abs m3)) (((sp ++ [s]) ++ [u]) ++ (ds ++ [x1]) ++ ts ++ [z2])) with
          (map (tw (abs m)) (sp ++ [s]) ++ u' :: (map (tw (abs m)) ds ++ [x2]) ++ map (tw (abs m)) ts ++ [z1]).
        * perm.
        * rewrite (map_app (tw (abs m3)) ((sp ++ [s]) ++ [u])), (map_app (tw (abs m3)) (sp ++ [s])),
            (map_app (tw (abs m3)) (ds ++ [x1])), (map_app (tw (abs m3)) ds), (map_app (tw (abs m3)) ts).
          cbn [map]. rewrite TW1, TW3, T6.
          rewrite (map_tw_grown (es := sp ++ [s]) G123), (map_tw_grown (es := ds) G123), (map_tw_grown (es := ts) G123); auto.
          2: intros e I; apply LA; inl. 2: intros e I; apply LA, in_app_iff; auto.
          rewrite <- !app_assoc. reflexivity.
      + apply Permutation_refl.
      + perm.
    - assert (B : tband (abs m3) false dF dn (sp ++ [s]) ds ts fs hs).
      { eapply tband_keep; [exact W|exact G123|exact FN|apply (us_band A)|exact LT]. }
      apply tband_snoc; auto.
      + rewrite OZ2, (gr_og G123 Lx), (gr_og G0 Ix0). eapply gr_leads; [exact W|exact G123|apply (us_x A)].
      + rewrite OZ2, (gr_target W G123 Lx), TX. split; [apply (gr_live_e G23 Lx1)|]. split.
        * rewrite (gr_og G23 Lx1), O1. exact TX.
        * rewrite (gr_target W1 G23 Lx1). unfold target. rewrite T1, O2. exact TL.
      + rewrite (gr_tw G123 Ls). eapply gr_face_keep; [exact G23|apply (proj2 H1')|exact FI1].
      + rewrite T6, TW1. exact FI3.
    - rewrite <- (us_w0 A). destruct vs; auto.
    - apply lt_snoc; [eapply lt_grown; [exact W|exact G123|apply (us_rim A)]|]. split; auto.
    - eapply gr_leads; [exact W|exact G123|apply (us_s0 A)].
    - split; [apply (gr_live_e G3 Lu)|]. split; [rewrite (gr_og G3 Lu), O3; exact TX2|rewrite (gr_target W2 G3 Lu); auto].
    - rewrite last_last. auto.
    - apply EN; auto.
      + eapply nbp_weak; [apply (us_nb0 A)|]. cbn beta. intros v [Q|Q]; auto. right.
        destruct ts as [|t ts']; [destruct Q|]. cbn [firstn app map] in *. destruct Q as [<-|[]]. left.
        apply (gr_target W G123). apply LT; left; auto.
      + intros Q. split; [left; auto|]. right. destruct ts as [|t ts'].
        * left. exact TZ2.
        * exfalso.
          pose proof (lt_length (us_rim A)) as LN. rewrite app_length in LN. cbn in LN.
          destruct vs as [|v0 vs]; [cbn in LN; lia|]. pose proof (us_w0 A) as Q0. cbn [app hd] in Q0.
          pose proof (proj1 (gr_v G0)) as ND. apply NoDup_cons_iff in ND. apply (proj1 ND). rewrite Q0, Q. inl.
    - intros e Le Oe. destruct (proj1 (proj2 (proj2 (gr_e G123)) e) Le) as [K|K].
      { exfalso. rewrite (gr_og G123 K) in Oe. assert (lvv (abs m) (og (abs m) e) = true) by (apply (wf_og W _ K)). clash. }
      cbn [In] in K. destruct K as [<-|[<-|[<-|[<-|[<-|[<-|[]]]]]]].
      + exfalso. rewrite (gr_og G23 Lx1), O1, TX in Oe. clash.
      + exfalso. rewrite (gr_og G23 Lx2), O2, TL in Oe. clash.
      + exfalso. rewrite (gr_og G3 Lu), O3, TX2 in Oe. clash.
      + left. rewrite (gr_target W2 G3 Lu'). unfold target. rewrite T4, O3. exact TX2.
      + right. unfold target. rewrite T5, OZ2. auto.
      + exfalso. rewrite OZ2 in Oe. clash.
    - rewrite (map_app _ (vs ++ [w])), (map_app _ xs), <- (us_pay A). f_equal.
      + apply (map_vp_grown G123). intros v I. apply (gr_new_v G0 I).
      + cbn [map]. rewrite (gr_vp G3), Y; auto. apply (gr_new_v G2). left; auto.
  Qed.

  Lemma tf_rounds c m0 L w0 s0 ret : wf m0 -> loop (abs m0) L ->
    (forall e, In e L -> og (abs m0) e <> target (abs m0) e) ->
    forall rest m dn x pre s sp ds ts vs w fs hs xs a b d,
    tf_state m0 m L w0 dn x pre s0 s sp ds ts vs w fs hs xs -> length rest <= length pre ->
    fits c m (6 * length rest + a) (length rest + b) (2 * length rest + d) ->
    exists m' dn' x' pre' s' sp' ds' ts' vs' w' fs' hs',
      tf_rest c m x ret rest = Ok (m', ret) /\
      tf_state m0 m' L w0 dn' x' pre' s0 s' sp' ds' ts' vs' w' fs' hs' (xs ++ rest) /\ fits c m' a b d /\
      length dn' = length dn + length rest /\ tw (abs m') s0 = tw (abs m) s0.
  Proof.
    intros Wm0 HL NS. induction rest as [|xv rest IH]; intros m dn x pre s sp ds ts vs w fs hs xs a b d A LN F.
    - exists m, dn, x, pre, s, sp, ds, ts, vs, w, fs, hs. rewrite app_nil_r. cbn [length] in *.
      unfold tf_rest. pose proof (us_wf A) as Wm.
      assert (Lx : lv (abs m) x = true) by (apply (hole_live (us_hole A)); inl).
      rewrite (get_next Wm Lx). cbn [bind tri_loop]. auto.
    - destruct pre as [|y pre]; [cbn in LN; lia|]. cbn [length] in *.
      assert (F1 : fits c m (6 + (6 * length rest + a)) (S (length rest + b)) (2 + (2 * length rest + d))).
      { eapply fits_le; eauto; try apply A; lia. }
      destruct (tf_round ret xv rest Wm0 HL NS A F1) as (m1 & u & ds1 & ts1 & fs1 & hs1 & w1 & E & A1 & F2 & TW1).
      destruct (IH m1 (dn ++ [x]) y pre u (sp ++ [s]) ds1 ts1 (vs ++ [w]) w1 fs1 hs1 _ a b d A1)
        as (m' & dn' & x' & pre' & s' & sp' & ds' & ts' & vs' & w' & fs' & hs' & E' & A' & F' & Q1 & TW2); auto.
      { lia. }
      exists m', dn', x', pre', s', sp', ds', ts', vs', w', fs', hs'. split; [rewrite E; exact E'|].
      rewrite <- app_assoc in A'. split; [exact A'|]. split; auto. rewrite app_length in Q1. cbn in Q1. split; [lia|].
      rewrite TW2; auto.
  Qed.

  Lemma tf_close c m0 m L w0 dn x s0 s sp ds ts vs w fs hs xs a b d : wf m0 -> loop (abs m0) L ->
    (forall e, In e L -> og (abs m0) e <> target (abs m0) e) ->
    tf_state m0 m L w0 dn x [] s0 s sp ds ts vs w fs hs xs -> 2 <= length dn -> fits c m (4 + a) b (2 + d) ->
    let e := tw (abs m) s0 in
    exists m' x1 z2 f h, (let* t := g_twin m e in
        let* inside := prev_id m t in
        let* q := g_prev m inside in
        let* outside := prev_id m q in
        let* m2 := cface dE dF c m inside outside in
        let* t2 := twin_id m2 e in
        let* m3 := cface dE dF c m2 t2 outside in
        let* n := g_next m3 outside in
        let* r := next_id m3 n in
        Ok (m3, r)) = Ok (m', hd 0 ts) /\
      wf m' /\ fits c m' a b d /\
      tband_built (abs m0) (abs m') false L xs dF (sp ++ [s]) (ds ++ [x1]) (ts ++ [z2]) (vs ++ [w]) (fs ++ [f]) (hs ++ [h]).
  Proof.
    intros Wm0 HL NS A N F s0'. pose proof (wfW Wm0) as W0. pose proof (us_wf A) as Wm. pose proof (wfW Wm) as W.
    pose proof (us_hole A) as H. pose proof (us_grown A) as G0.
    destruct (tband_length (us_band A)) as (_ & _ & LT & _).
    destruct ts as [|t1 [|t2 ts2]]; [cbn in LT; lia|cbn in LT; lia|].
    remember (t1 :: t2 :: ts2) as ts eqn:ETS.
    destruct (@exists_last _ (t2 :: ts2)) as (ts3 & l & ET3); [discriminate|].
    assert (ET : ts = (t1 :: ts3) ++ [l]) by (rewrite ETS, ET3; auto).
    pose proof (lt_length (us_rim A)) as LW. rewrite app_length, ETS in LW. cbn in LW.
    destruct vs as [|v0 [|v1 vs]]; [cbn in LW; lia|cbn in LW; lia|].
    pose proof (us_w0 A) as Q0. cbn [app hd] in Q0. subst w0.
    set (s' := tw (abs m) s) in *. pose proof (us_L A) as EL.
    assert (LA : forall e, In e ((sp ++ [s]) ++ ds ++ ts) -> lv (abs m) e = true).
    { intros e I. apply (gr_e G0). right. apply in_app_iff. auto. }
    assert (LTS : forall t, In t ts -> lv (abs m) t = true) by (intros t I; apply LA; inl).
    assert (IS0 : In s0 (sp ++ [s])) by (rewrite <- (us_s A); destruct sp; cbn; auto).
    assert (LS0 : lv (abs m) s0 = true) by (apply LA, in_app_iff; left; exact IS0).
    assert (LS0' : lv (abs m) s0' = true) by (apply (wf_tw W _ LS0)).
    assert (Ls : lv (abs m) s = true) by (apply LA; inl).
    assert (Ls' : lv (abs m) s' = true) by (apply (wf_tw W _ Ls)).
    assert (Ll : lv (abs m) l = true) by (apply LTS; rewrite ET; inl).
    assert (Lx : lv (abs m) x = true) by (apply (hole_live H); inl).
    assert (Ix : In x L) by (rewrite EL; inl).
    assert (Lx0 : lv (abs m0) x = true) by (apply (loop_live' HL); auto).
    assert (EQ : s0 :: ts ++ [s'; x] = s0 :: (ts ++ [s']) ++ [x]) by (rewrite <- app_assoc; auto).
    assert (PS0 : pv (abs m) s0 = x) by (apply (loop_pv_wrap (p := ts ++ [s']) W (proj1 H)); auto).
    assert (NX : nx (abs m) x = s0) by (apply (loop_nx_wrap (p := ts ++ [s']) (proj1 H)); auto).
    assert (PX : pv (abs m) x = s') by (apply (loop_pv_at (p := s0 :: ts) (q := []) W (proj1 H)); auto).
    assert (PS : pv (abs m) s' = l).
    { apply (loop_pv_at (l := s0 :: ts ++ [s'; x]) (p := s0 :: t1 :: ts3) (q := [x]) W (proj1 H)).
      rewrite ET, <- app_assoc. auto. }
    rewrite (get_gtwin Wm LS0'). unfold s0' at 1. rewrite (wf_twtw W _ LS0). cbn [bind].
    rewrite (get_prev Wm LS0), PS0. cbn [bind]. rewrite (get_gprev Wm Lx), PX. cbn [bind]. rewrite (get_prev Wm Ls'), PS. cbn [bind].
    assert (H' : hole (abs m) (x :: (s0 :: t1 :: ts3) ++ l :: [s'])).
    { rewrite ET in H. apply (@hole_rot _ _ _ _ (s0 :: (t1 :: ts3) ++ [l; s']) [x]).
      cbn [app] in *. rewrite <- !app_assoc in *. exact H. }
    assert (FW : forall z, In z (v0 :: v1 :: vs ++ [w]) -> lvv (abs m0) z = false) by (intros z I; apply (gr_new_v G0 I)).
    assert (TL : target (abs m) l = w).
    { rewrite <- (us_ll A). f_equal. rewrite ET, last_last. auto. }
    assert (Lt1 : lv (abs m) t1 = true) by (apply LTS; rewrite ETS; left; auto).
    assert (TT : target (abs m) t1 = v1) by (pose proof (us_rim A) as R; rewrite ETS in R; destruct R as [(_ & _ & Q) _]; exact Q).
    assert (TS0 : target (abs m) s0 = v0) by (apply (us_s0 A)).
    assert (EH : exists e0, hd 0 L = e0 /\ lv (abs m0) e0 = true).
    { exists (hd 0 L). split; auto. apply (loop_live' HL). rewrite EL. destruct dn; cbn; auto. }
    destruct EH as (e0 & EH & Le0).
    assert (OS0 : og (abs m) s0 = og (abs m0) e0) by (rewrite <- EH; apply (us_s0 A)).
    assert (OE0 : lvv (abs m0) (og (abs m0) e0) = true) by (apply (wf_og W0 _ Le0)).
    assert (TX : target (abs m) x = og (abs m0) e0).
    { rewrite <- OS0, <- NX. symmetry. apply (wf_ognx W _ Lx). }
    assert (TX0 : target (abs m0) x = og (abs m0) e0) by (rewrite <- TX; symmetry; apply (gr_target W0 G0 Lx0)).
    assert (FWw : lvv (abs m0) w = false) by (apply FW; inl).
    assert (FW0 : lvv (abs m0) v0 = false) by (apply FW; inl).
    assert (NL : forall e, leads (abs m) e (target (abs m) x) (target (abs m) l) -> False).
    { rewrite TL, TX. apply (nbp_no' W (us_nb A)). intros [Q|Q]; [apply (NS x Ix); rewrite TX0; auto|clash]. }
    assert (FF : fits c m (2 + (2 + a)) b (S (S d))) by exact F.
    destruct (do_cface dE dF Wm FF H' NL) as (m1 & f & x1 & x2 & E1 & Wm1 & F2 & G1 & FI1 & H1 & T1 & T2 & O1 & O2).
    rewrite E1. cbn [bind]. pose proof (wfW Wm1) as W1.
    assert (LS1' : lv (abs m1) s0' = true) by (apply (gr_live_e G1 LS0')).
    rewrite (get_twin Wm1 LS1'), (gr_tw G1 LS0'). unfold s0' at 1. rewrite (wf_twtw W _ LS0). cbn [bind].
    assert (Lx1 : lv (abs m1) x1 = true) by (apply (gr_new_e G1); left; auto).
    assert (Lx2 : lv (abs m1) x2 = true) by (apply (gr_new_e G1); right; left; auto).
    assert (H1' : hole (abs m1) (s0 :: (t1 :: ts3) ++ l :: [x2])).
    { apply (@hole_rot _ _ _ _ [l; x2] (s0 :: t1 :: ts3)) in H1. exact H1. }
    assert (TS1 : target (abs m1) s0 = v0) by (rewrite (gr_target W G1 LS0); auto).
    assert (TL1 : target (abs m1) l = w) by (rewrite (gr_target W G1 Ll); auto).
    assert (D0 : v0 <> w).
    { intros Q. pose proof (proj1 (gr_v G0)) as ND. apply NoDup_cons_iff, proj1 in ND. apply ND. rewrite Q. inl. }
    assert (D1 : v1 <> w).
    { intros Q. pose proof (proj1 (gr_v G0)) as ND. apply NoDup_cons_iff, proj2, NoDup_cons_iff, proj1 in ND. apply ND. rewrite Q. inl. }
    assert (NL2 : forall e, leads (abs m1) e (target (abs m1) s0) (target (abs m1) l) -> False).
    { rewrite TL1, TS1.
      assert (NB : nbp (abs m1) v0 (fun u => lvv (abs m0) u = true \/ u = v1)).
      { eapply (nbp_pair W G1 T1 T2 (us_nb0 A)).
        - intros Q. exfalso. rewrite O1, TX in Q. clash.
        - intros Q. exfalso. rewrite O2, TL in Q. auto.
        - intros u [Q|Q]; auto. right. rewrite ETS in Q. cbn in Q. destruct Q as [Q|[]]. rewrite <- Q. exact TT. }
      apply (nbp_no NB). intros [Q|Q]; [clash|]. auto. }
    assert (F3 : fits c m1 (2 + a) b (S d)) by exact F2.
    destruct (do_cface dE dF Wm1 F3 H1' NL2) as (m2 & h & z1 & z2 & E2 & Wm2 & F4 & G2 & FI2 & H2 & T3 & T4 & O3 & O4).
    rewrite E2. cbn [bind]. pose proof (wfW Wm2) as W2.
    assert (Ll2 : lv (abs m2) l = true) by (apply (gr_live_e G2), (gr_live_e G1); auto).
    assert (Lz2 : lv (abs m2) z2 = true) by (apply (gr_new_e G2); right; left; auto).
    rewrite (get_gnext Wm2 Ll2), (loop_nx (proj1 H2)). cbn [bind].
    rewrite (get_next Wm2 Lz2), (loop_nx_at (b := t1) (p := [l]) (q := ts3) (proj1 H2) eq_refl). cbn [bind].
    assert (G12 : grown (abs m) (abs m2) (s0 :: ts ++ [s'; x]) ([x1; x2] ++ [z1; z2]) ([] ++ []) ([f] ++ [h])).
    { assert (G1' : grown (abs m) (abs m1) (s0 :: ts ++ [s'; x]) [x1; x2] [] [f]).
      { eapply grown_weaken; [exact G1|]. intros z. rewrite ET. inl. }
      apply (grown_trans G1' G2). intros z I.
      assert (J : In z [x1; x2] \/ In z (s0 :: ts ++ [s'; x])) by (rewrite ET; revert I; inl).
      destruct J as [J|J]; auto. right. apply (gr_new_e G1 J). }
    cbn [app] in G12.
    exists m2, x1, z2, f, h. split; [rewrite ETS; auto|]. split; auto. split; auto.
    assert (FN : forall z, In z (s0 :: ts ++ [s'; x]) -> fc (abs m) z = None) by (apply (proj2 H)).
    assert (TW1 : tw (abs m2) x1 = x2) by (rewrite (gr_tw G2 Lx1); auto).
    assert (OZ2 : og (abs m2) z2 = w) by (rewrite O4; auto).
    assert (TZ2 : target (abs m2) z2 = v0) by (unfold target; rewrite T4, O3; auto).
    clear ETS.
    split.
    - assert (GT : grown (abs m0) (abs m2) L ((((sp ++ [s]) ++ ds ++ ts) ++ map (tw (abs m)) ((sp ++ [s]) ++ ds ++ ts)) ++ [x1; x2; z1; z2])
                   ((v0 :: v1 :: vs ++ [w]) ++ []) ((fs ++ hs) ++ [f; h])).
      { apply (grown_trans G0 G12). intros z I. apply (us_fresh A). fold s'. revert I. inl. }
      rewrite app_nil_r in GT. eapply grown_perm; [exact GT|..|].
      + replace (map (tw (abs m2)) ((sp ++ [s]) ++ (ds ++ [x1]) ++ ts ++ [z2])) with
          (map (tw (abs m)) (sp ++ [s]) ++ (map (tw (abs m)) ds ++ [x2]) ++ map (tw (abs m)) ts ++ [z1]).
        * perm.
        * rewrite (map_app (tw (abs m2)) (sp ++ [s])), (map_app (tw (abs m2)) (ds ++ [x1])), (map_app (tw (abs m2)) ds), (map_app (tw (abs m2)) ts).
          cbn [map]. rewrite TW1, T4.
          rewrite (map_tw_grown (es := sp ++ [s]) G12), (map_tw_grown (es := ds) G12), (map_tw_grown (es := ts) G12); auto;
            intros e I; apply LA; [inl|apply in_app_iff; auto].
      + apply Permutation_refl.
      + perm.
    - assert (B : tband (abs m2) false dF dn (sp ++ [s]) ds ts fs hs).
      { eapply tband_keep; [exact W|exact G12|exact FN|apply (us_band A)|exact LTS]. }
      assert (Q : firstn 1 (sp ++ [s]) = [s0]) by (pose proof (us_s A) as Q; destruct sp; cbn in *; congruence).
      rewrite Q, EL. apply tband_snoc; auto.
      + rewrite OZ2, (gr_og G12 Lx), (gr_og G0 Lx0). eapply gr_leads; [exact W|exact G12|apply (us_x A)].
      + rewrite OZ2, (gr_target W G12 Lx), TX. split; [apply (gr_live_e G2 Lx1)|]. split.
        * rewrite (gr_og G2 Lx1), O1. exact TX.
        * rewrite (gr_target W1 G2 Lx1). unfold target. rewrite T1, O2. exact TL.
      + rewrite (gr_tw G12 Ls). eapply gr_face_keep; [exact G2|apply (proj2 H1')|exact FI1].
      + rewrite T4, TW1. exact FI2.
    - cbn [app firstn]. change (v0 :: v1 :: (vs ++ [w]) ++ [v0]) with ((v0 :: v1 :: vs ++ [w]) ++ [v0]).
      apply (@lt_snoc _ _ _ _ ts (v0 :: v1 :: vs) w z2 v0).
      + eapply lt_grown; [exact W|exact G12|apply (us_rim A)].
      + split; auto.
    - apply (@hole_rot _ _ _ _ [l; z2] (t1 :: ts3)) in H2. rewrite ET, <- app_assoc. exact H2.
    - rewrite <- (us_pay A). apply (map_vp_grown G12). intros v I. apply (gr_new_v G0 I).
  Qed.

  (** [loft_tri_closed] once around the hole: the payloads belong to the origins of the loop
      beginning with [start]. *)
  Lemma loft_tri_total c m start t y ys a b d : wf m -> let n := length (start :: t) in
    hole (abs m) (start :: t) -> (forall e, In e (start :: t) -> og (abs m) e <> target (abs m) e) ->
    3 <= n -> length (y :: ys) = n -> fits c m (6 * n + a) (n + b) (2 * n + d) ->
    exists m' ps ds ts vs fs hs, loft_tri_closed dE dF c m start (y :: ys) = Ok (m', hd 0 ts) /\
      wf m' /\ fits c m' a b d /\ length ts = n /\
      tband_built (abs m) (abs m') false (start :: t) (y :: ys) dF ps ds ts vs fs hs.
  Proof.
    intros Wm n H NS N LY F. pose proof (wfW Wm) as W.
    assert (Ls : lv (abs m) start = true) by (apply (hole_live H); left; auto).
    cbn [length] in LY.
    assert (F0 : fits c m (2 + (6 * length ys + (4 + a))) (S (length ys + b)) (2 * length ys + (2 + d))).
    { eapply fits_le; eauto; lia. }
    destruct (@exists_last _ t) as (t' & l & ET); [intros ->; cbn in *; lia|].
    assert (PS : pv (abs m) start = l) by (apply (loop_pv_wrap (p := t') W (proj1 H)); rewrite ET; reflexivity).
    assert (NL : nx (abs m) l = start) by (apply (loop_nx_wrap (p := t') (proj1 H)); rewrite ET; reflexivity).
    assert (H' : hole (abs m) (l :: start :: t')).
    { apply (@hole_rot _ _ _ _ (start :: t') [l]). cbn [app]. rewrite <- ET. exact H. }
    destruct (do_via dE y Wm F0 H' (eq_sym NL)) as (m1 & v & u & u' & E & Wm1 & F1 & G & H1 & T1 & T2 & O1 & O2 & Y).
    pose proof (wfW Wm1) as W1.
    assert (Ll : lv (abs m) l = true) by (apply (hole_live H'); left; auto).
    assert (OL : target (abs m) l = og (abs m) start) by (rewrite <- NL; symmetry; apply (wf_ognx W _ Ll)).
    assert (K : leads (abs m1) u (og (abs m) start) v).
    { split; [apply (gr_new_e G); left; auto|]. split; [rewrite O1; exact OL|]. unfold target. rewrite T1; auto. }
    pose proof (nbrs_via Wm G Ll T1 T2 O1 O2) as NB.
    assert (A : tf_state m m1 (start :: t) v [] start t u u [] [] [] [] v [] [] [y]).
    { split; auto.
      - rewrite T1, ET. cbn [app]. apply (@hole_rot _ _ _ _ [l] (u :: u' :: start :: t')) in H1. exact H1.
      - cbn [app map]. rewrite T1. eapply grown_weaken; [exact G|]. intros z. rewrite ET. inl.
      - cbn. auto.
      - cbn. auto.
      - apply K.
      - eapply (nbrs_nbp NB). intros x [<-|[]]. left. rewrite OL. apply (wf_og W _ Ls).
      - eapply (nbrs_nbp NB). intros x [<-|[]]. left. exact OL.
      - cbn [map app]. rewrite Y. auto. }
    assert (LN : length ys <= length t) by (cbn in *; lia).
    destruct (tf_rounds u' Wm (proj1 H) NS A LN F1)
      as (m2 & dn & x & pre & s & sp & ds & ts & vs & w & fs & hs & E2 & A2 & F2 & Q & TWU).
    cbn [length Nat.add] in Q.
    assert (pre = []).
    { pose proof (f_equal (@length _) (us_L A2)) as Q1. rewrite !app_length in Q1. cbn in *. destruct pre; auto. cbn in *; lia. }
    subst pre.
    assert (LQ : 2 <= length dn) by (cbn in *; lia).
    destruct (tf_close Wm (proj1 H) NS A2 LQ F2) as (m3 & x1 & z2 & f & h & E3 & Wm3 & F3 & B).
    exists m3, (sp ++ [s]), (ds ++ [x1]), (ts ++ [z2]), (vs ++ [w]), (fs ++ [f]), (hs ++ [h]).
    assert (LT : length ts = length dn) by apply (tband_length (us_band A2)).
    split; [|split; auto; split; auto; split; auto; rewrite app_length; cbn in *; lia].
    unfold loft_tri_closed, loft_tri. cbn [tri_loop]. rewrite (get_prev Wm Ls), PS. cbn [bind]. rewrite E. cbn [bind].
    assert (Ls1 : lv (abs m1) start = true) by (apply (gr_live_e G Ls)).
    rewrite (get_prev Wm1 Ls1), (loop_pv_at (a := u') (b := start) (p := [l; u]) (q := t') W1 (proj1 H1) eq_refl). cbn [bind].
    match goal with |- bind ?X _ = _ => change X with (tf_rest c m1 start u' ys) end.
    rewrite E2. cbn [bind].
    assert (TU : u' = tw (abs m2) u).
    { rewrite TWU; auto. }
    rewrite TU. rewrite E3. destruct ts; [cbn in LT; lia|auto].
  Qed.
End Tri.
