(** Closing a hole of any length with an apex. *)
From Coq Require Import List Arith Lia Bool Permutation.
From Verif Require Import Base DVec DVecFacts Mesh Spec Rep Splice Cycle Traverse Room Ops MeshSpec MeshProofs
  MeshMore MeshTotal MeshFacts NetProofs BuildSpec Solid BuildStep PathProofs.
Import ListNotations.
Set Implicit Arguments.
Unset Strict Implicit.

Local Arguments abs : simpl never.
Section Apex.
  Context {VP EP FP : Type}.
  Notation graph := (graph VP EP FP).
  Notation mesh := (mesh VP EP FP).
  Implicit Types (g : graph) (m : mesh).
  Variable (dE : EP) (dF : FP).

  Lemma gr_face_keep g g' L E V F f l y cu : grown g g' L E V F -> (forall x, In x L -> fc g x = None) ->
    face_is g f l y cu -> face_is g' f l y cu.
  Proof.
    intros G H K. eapply gr_face_is; eauto. intros x I J. apply H in J. destruct K as (_ & _ & _ & K).
    rewrite K in J; auto. discriminate.
  Qed.

  Lemma fan_length g v y es : forall ps fs, fan g v y es ps fs -> length ps = S (length es) /\ length fs = length es.
  Proof.
    induction es as [|e es IH]; intros ps fs H; destruct ps as [|p [|q ps]]; destruct fs as [|f fs]; cbn in *; try tauto.
    destruct H as (_ & _ & H). apply IH in H. cbn in *. lia.
  Qed.

  Lemma fan_live g v y es : forall ps fs, fan g v y es ps fs -> forall e, In e es -> lv g e = true.
  Proof.
    induction es as [|e0 es IH]; intros ps fs H e I; [destruct I|].
    destruct ps as [|p [|q ps]]; destruct fs as [|f fs]; cbn in H; try tauto.
    destruct H as (_ & (_ & _ & H & _) & K). destruct I as [<-|I]; [apply H; left; auto|eauto].
  Qed.

  Lemma fan_keep g g' L E V F v y es : WF g -> grown g g' L E V F -> (forall x, In x L -> fc g x = None) ->
    forall ps fs, fan g v y es ps fs -> fan g' v y es ps fs.
  Proof.
    intros W G H. induction es as [|e es IH]; intros ps fs K; destruct ps as [|p [|q ps]]; destruct fs as [|f fs]; cbn in *; try tauto.
    destruct K as (K1 & K2 & K3).
    assert (Le : lv g e = true) by (destruct K2 as (_ & _ & K2 & _); apply K2; left; auto).
    split; [rewrite (gr_og G Le); eapply gr_leads; eauto|]. split; [|apply IH; auto].
    rewrite (gr_tw G (proj1 K1)). eapply gr_face_keep; eauto.
  Qed.

  (** The state of the loop: [pre ++ x :: dn] is the boundary loop, the half-edges [dn] have their
      faces, [s0] is the first spoke. *)
  Record apex_state m0 m L v y pre x dn s s0 sp fs : Prop := {
    as_wf : wf m;
    as_L : L = pre ++ x :: dn;
    as_s : s = hd s0 sp;
    as_hole : hole (abs m) (x :: s :: tw (abs m) s0 :: pre);
    as_grown : grown (abs m0) (abs m) L ((sp ++ [s0]) ++ map (tw (abs m)) (sp ++ [s0])) [v] fs;
    as_fan : fan (abs m) v y dn (sp ++ [s0]) fs;
    as_s0 : leads (abs m) s0 (og (abs m0) (hd 0 L)) v;
    as_ss : target (abs m) s = v;
    as_nbrs : nbrs (abs m) v (og (abs m0) (hd 0 L) :: map (og (abs m0)) dn)
  }.

  Lemma apex_loop_total c m0 L v : wf m0 -> loop (abs m0) L -> NoDup (map (og (abs m0)) L) ->
    lvv (abs m0) v = false ->
    forall pre m x dn s s0 sp fs a b d fl, apex_state m0 m L v dF pre x dn s s0 sp fs ->
    fits c m (2 * length pre + a) b (S (length pre) + d) -> length pre < fl ->
    exists m' m'' i sp' fs', apex_loop dE dF c m (og (abs m0) (hd 0 L)) x fl = Ok (m', i) /\
      chole dF c m' i = Ok m'' /\
      wf m'' /\ fits c m'' a b d /\ length sp' = length L /\
      grown (abs m0) (abs m'') L (sp' ++ map (tw (abs m'')) sp') [v] fs' /\
      fan (abs m'') v dF L (sp' ++ firstn 1 sp') fs' /\ vp (abs m'') v = vp (abs m) v.
  Proof.
    intros Wm0 HL ND FV pre. pose proof (wfW Wm0) as W0.
    induction pre as [|y pre IH] using rev_ind; intros m x dn s s0 sp fs a b d fl A F FL.
    - destruct fl as [|fl]; [cbn in FL; lia|]. pose proof (as_wf A) as Wm. pose proof (wfW Wm) as W.
      pose proof (as_hole A) as H. pose proof (as_L A) as EL. cbn [app] in EL. subst L.
      assert (Lx0 : lv (abs m0) x = true) by (apply (loop_live' HL); left; auto).
      assert (Lx : lv (abs m) x = true) by (apply (gr_live_e (as_grown A) Lx0)).
      cbn [apex_loop hd]. rewrite (get_origin Wm Lx). cbn [bind]. rewrite (gr_og (as_grown A) Lx0), Nat.eqb_refl.
      cbn [length] in F. destruct (do_chole dF Wm F H) as (m'' & f & _ & E2 & Wm2 & F2 & G & FI).
      pose proof (as_fan A) as FA. pose proof (as_s0 A) as L0. cbn [hd] in L0.
      assert (LS : lv (abs m) s0 = true) by apply L0.
      assert (HN : forall z, In z [x; s; tw (abs m) s0] -> fc (abs m) z = None) by (apply (proj2 H)).
      exists m, m'', x, (s0 :: sp), (f :: fs). split; auto. split; auto. split; auto. split; auto.
      destruct (fan_length FA) as [LN1 LN2]. rewrite app_length in LN1. cbn in LN1.
      assert (LV : lvv (abs m) v = true) by (apply (gr_new_v (as_grown A)); left; auto).
      split; [cbn; lia|]. split; [|split; [|apply (gr_vp G LV)]].
      + assert (LA : forall e, In e (sp ++ [s0]) -> lv (abs m) e = true).
        { intros e I. apply (gr_e (as_grown A)). right. apply in_app_iff. auto. }
        rewrite (map_tw_grown (es := s0 :: sp) G); [|intros e I; apply LA, in_app_iff; cbn in *; tauto].
        assert (GT : grown (abs m0) (abs m'') (x :: dn) (((sp ++ [s0]) ++ map (tw (abs m)) (sp ++ [s0])) ++ []) ([v] ++ []) (fs ++ [f])).
        { apply (grown_trans (as_grown A) G). intros z [<-|[<-|[<-|[]]]]; [left; left; auto|right..].
          - apply (gr_e (as_grown A)). apply in_app_iff. left. rewrite (as_s A). destruct sp; cbn; auto.
          - apply (gr_e (as_grown A)). apply in_app_iff. right. apply in_map. apply in_app_iff. right; left; auto. }
        rewrite !app_nil_r in GT. eapply grown_perm; [exact GT|..|apply Permutation_refl|].
        * apply Permutation_app; [|apply Permutation_map]; symmetry; apply Permutation_cons_append.
        * symmetry. apply Permutation_cons_append.
      + assert (Fx : fan (abs m'') v dF dn (sp ++ [s0]) fs) by (eapply fan_keep; eauto).
        assert (K : leads (abs m'') s0 (og (abs m'') x) v).
        { rewrite (gr_og G Lx), (gr_og (as_grown A) Lx0). eapply gr_leads; eauto. }
        assert (K2 : face_is (abs m'') f [x; s; tw (abs m'') s0] dF false) by (rewrite (gr_tw G LS); exact FI).
        rewrite (as_s A) in K2. cbn [app firstn].
        destruct sp as [|q sp]; cbn [app hd] in *; cbn [fan]; auto.
    - destruct fl as [|fl]; [lia|]. pose proof (as_wf A) as Wm. pose proof (wfW Wm) as W.
      pose proof (as_hole A) as H. pose proof (as_L A) as EL.
      rewrite app_length in F, FL. cbn [length] in F, FL.
      set (v0 := og (abs m0) (hd 0 L)) in *.
      assert (Ix : In x L) by (rewrite EL; apply in_app_iff; right; left; auto).
      assert (Iy : In y L) by (rewrite EL; apply in_app_iff; left; apply in_app_iff; right; left; auto).
      assert (Lx0 : lv (abs m0) x = true) by (apply (loop_live' HL); auto).
      assert (Ly0 : lv (abs m0) y = true) by (apply (loop_live' HL); auto).
      assert (Lx : lv (abs m) x = true) by (apply (gr_live_e (as_grown A) Lx0)).
      assert (Ly : lv (abs m) y = true) by (apply (gr_live_e (as_grown A) Ly0)).
      assert (Ls : lv (abs m) s = true) by (apply (hole_live H); right; left; auto).
      assert (Ox : ~ In (og (abs m0) x) (v0 :: map (og (abs m0)) dn)).
      { unfold v0. rewrite EL in ND |- *. rewrite map_app in ND. cbn [map] in ND. apply NoDup_remove_2 in ND.
        intros [Q|Q]; apply ND, in_app_iff; [left|right; auto].
        rewrite <- Q. apply in_map_iff. destruct pre; cbn; eauto. }
      assert (Oxv : og (abs m0) x =? v0 = false) by (apply Nat.eqb_neq; intros Q; apply Ox; left; auto).
      assert (PX : pv (abs m) x = y).
      { apply (loop_pv_wrap (p := s :: tw (abs m) s0 :: pre) W (proj1 H)). auto. }
      assert (NY : nx (abs m) y = x).
      { apply (loop_nx_wrap (p := s :: tw (abs m) s0 :: pre) (proj1 H)). auto. }
      assert (NX : nx (abs m) x = s) by (apply (loop_nx (proj1 H))).
      cbn [apex_loop]. rewrite (get_origin Wm Lx). cbn [bind]. rewrite (gr_og (as_grown A) Lx0), Oxv.
      rewrite (get_prev Wm Lx), PX. cbn [bind]. rewrite (get_gnext Wm Ly), NY. cbn [bind].
      rewrite (get_next Wm Lx), NX. cbn [bind].
      assert (H' : hole (abs m) (s :: (tw (abs m) s0 :: pre) ++ y :: [x])).
      { apply (@hole_rot _ _ _ _ [x] (s :: tw (abs m) s0 :: pre ++ [y])) in H. cbn [app] in H |- *.
        rewrite <- app_assoc in H. exact H. }
      assert (TY : target (abs m) y = og (abs m0) x).
      { rewrite <- (gr_og (as_grown A) Lx0), <- NY. symmetry. apply (wf_ognx W _ Ly). }
      assert (NL : forall e, leads (abs m) e (target (abs m) s) (target (abs m) y) -> False).
      { rewrite (as_ss A), TY. apply (nbrs_no (as_nbrs A)). exact Ox. }
      assert (F' : fits c m (2 + (2 * length pre + a)) b (S (S (length pre) + d))).
      { eapply fits_le; eauto; lia. }
      destruct (do_cface dE dF Wm F' H' NL) as (m1 & f & e1 & e2 & E & Wm1 & F1 & G & FI & H1 & T1 & T2 & O1 & O2).
      rewrite E. cbn [bind].
      assert (LA : forall e, In e (sp ++ [s0]) -> lv (abs m) e = true).
      { intros e I. apply (gr_e (as_grown A)). right. apply in_app_iff. auto. }
      assert (LS : lv (abs m) s0 = true) by apply (as_s0 A).
      assert (A' : apex_state m0 m1 L v dF pre y (x :: dn) e2 s0 (e2 :: sp) (f :: fs)).
      { split; auto.
        - rewrite EL, <- app_assoc. auto.
        - rewrite (gr_tw G LS). exact H1.
        - cbn [app map]. rewrite T2, (map_tw_grown G LA).
          assert (GT : grown (abs m0) (abs m1) L (((sp ++ [s0]) ++ map (tw (abs m)) (sp ++ [s0])) ++ [e1; e2]) ([v] ++ []) (fs ++ [f])).
          { apply (grown_trans (as_grown A) G). intros z I.
            assert (J : In z (s :: tw (abs m) s0 :: L)).
            { rewrite EL. destruct I as [<-|[<-|I]]; [left; auto|right; left; auto|right; right].
              rewrite !in_app_iff in *. cbn in *. tauto. }
            destruct J as [<-|[<-|J]]; [right|right|left; auto].
            - apply (gr_e (as_grown A)). apply in_app_iff. left. rewrite (as_s A). destruct sp; cbn; auto.
            - apply (gr_e (as_grown A)). apply in_app_iff. right. apply in_map. apply in_app_iff. right; left; auto. }
          rewrite app_nil_r in GT. eapply grown_perm; [exact GT|..|apply Permutation_refl|].
          + set (p := sp ++ [s0]). set (q := map (tw (abs m)) p).
            etransitivity; [apply Permutation_app_comm|]. cbn [app].
            etransitivity; [apply perm_swap|]. apply perm_skip. apply Permutation_middle.
          + symmetry. apply Permutation_cons_append.
        - assert (FA : fan (abs m1) v dF dn (sp ++ [s0]) fs) by (eapply fan_keep; [exact W|exact G|apply (proj2 H')|apply (as_fan A)]).
          assert (K : leads (abs m1) e2 (og (abs m1) x) v).
          { split; [apply (gr_new_e G); right; left; auto|]. split.
            - rewrite O2, TY, (gr_og G Lx), (gr_og (as_grown A) Lx0). auto.
            - unfold target. rewrite T2, O1. apply (as_ss A). }
          assert (K2 : face_is (abs m1) f [x; s; tw (abs m1) e2] dF false).
          { rewrite T2. apply (@face_is_rot _ _ _ _ _ [s; e1] [x]). exact FI. }
          rewrite (as_s A) in K2. cbn [app fan]. destruct sp as [|q sp]; cbn [app hd] in *; auto.
        - eapply gr_leads; eauto. apply A.
        - unfold target. rewrite T2, O1. apply (as_ss A).
        - eapply nbrs_pair; [exact W|exact G|exact T1|exact T2|apply (as_nbrs A)|..].
          + intros _. rewrite O2, TY. right; left; auto.
          + intros Q. exfalso. rewrite O2, TY in Q.
            assert (lvv (abs m0) (og (abs m0) x) = true) by (apply (wf_og W0 _ Lx0)). congruence.
          + intros z [<-|I]; [left; auto|right; right; auto]. }
      destruct (IH m1 y (x :: dn) e2 s0 (e2 :: sp) (f :: fs) a b d fl A') as (m' & m'' & i & sp' & fs' & R & R2 & R3 & R4 & R5 & R6 & R7 & R8).
      { eapply fits_le; eauto; lia. }
      { lia. }
      exists m', m'', i, sp', fs'. do 7 (split; auto).
      rewrite R8. apply (gr_vp G). apply (gr_new_v (as_grown A)); left; auto.
  Qed.

  Lemma fill_hole_apex_total c m start t y a b d : wf m -> let L := start :: t in
    hole (abs m) L -> NoDup (map (og (abs m)) L) -> fits c m (2 * length L + a) (S b) (length L + d) ->
    exists m' v ps fs, fill_hole_apex dE dF c m start y = Ok (m', v) /\ wf m' /\ fits c m' a b d /\
      length ps = length L /\ apex_built (abs m) (abs m') L v y dF ps fs.
  Proof.
    intros Wm L H ND F. pose proof (wfW Wm) as W.
    destruct (@exists_last _ L) as (pre & x & EL); [discriminate|].
    assert (Ls : lv (abs m) start = true) by (apply (hole_live H); left; auto).
    assert (PV : pv (abs m) start = x /\ nx (abs m) x = start).
    { destruct pre as [|z pre]; cbn [app] in EL.
      - injection EL as E1 E2. assert (HH : hole (abs m) [start]) by (rewrite <- E2 at 1; exact H).
        subst x. split; [|apply (loop_nx_one (proj1 HH))].
        rewrite <- (loop_nx_one (proj1 HH)) at 1. apply (wf_pvnx W _ Ls).
      - injection EL as E1 E2. subst z. split.
        + apply (loop_pv_wrap (p := pre) W (proj1 H)). unfold L; f_equal; auto.
        + apply (loop_nx_wrap (p := pre) (proj1 H)). unfold L; f_equal; auto. }
    destruct PV as [PV NX].
    unfold fill_hole_apex. rewrite (get_origin Wm Ls). cbn [bind]. rewrite (get_prev Wm Ls), PV. cbn [bind].
    assert (H' : hole (abs m) (x :: pre)).
    { apply (@hole_rot _ _ _ _ pre [x]). rewrite <- EL. exact H. }
    assert (LN : length L = S (length pre)) by (rewrite EL, app_length; cbn; lia).
    assert (F' : fits c m (2 + (2 * length pre + a)) (S b) (S (length pre) + d)).
    { eapply fits_le; eauto; lia. }
    destruct (do_via dE y Wm F' H' (eq_sym NX)) as (m1 & v & e1 & e2 & E & Wm1 & F1 & G & H1 & T1 & T2 & O1 & O2 & Y).
    rewrite E. cbn [bind].
    assert (TX : target (abs m) x = og (abs m) start).
    { rewrite <- NX. symmetry. apply (wf_ognx W). apply (hole_live H'); left; auto. }
    assert (VF : lvv (abs m) v = false) by (apply (gr_new_v G); left; auto).
    assert (A : apex_state m m1 L v dF pre x [] e1 e1 [] []).
    { split; auto.
      - rewrite T1. exact H1.
      - cbn [app map]. rewrite T1. eapply grown_weaken; [exact G|].
        intros z I. rewrite EL. apply in_app_iff. destruct I as [<-|I]; [right; left; auto|left; auto].
      - cbn. auto.
      - cbn [hd L]. split; [apply (gr_new_e G); left; auto|]. split; [congruence|]. unfold target. rewrite T1; auto.
      - unfold target. rewrite T1; auto.
      - eapply nbrs_pair with (l := []); [exact W|exact G|exact T1|exact T2|apply nbrs_fresh; auto|..].
        + intros Q. exfalso. rewrite O1 in Q. assert (lvv (abs m) v = true); [|congruence].
          rewrite <- Q. rewrite TX. apply (wf_og W _ Ls).
        + intros _. left. rewrite O1. auto.
        + intros z []. }
    destruct (@apex_loop_total c m L v Wm (proj1 H) ND VF pre m1 x [] e1 e1 [] [] a b d (S (capF c)) A)
      as (m' & m'' & i & sp & fs & E1 & E2 & Wm' & F2 & LS & G' & FA & VV).
    { exact F1. }
    { unfold fits in F. lia. }
    cbn [hd L] in E1. rewrite E1. cbn [bind]. rewrite E2. cbn [bind].
    exists m'', v, sp, fs. do 4 (split; auto). split; auto. congruence.
  Qed.
End Apex.
