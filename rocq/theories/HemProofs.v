(** Rings of polygons around a hole of any length: [loft_polygon_back] for every [n] and [m]. *)
From Coq Require Import List Arith Lia Bool Permutation.
From Verif Require Import Base DVec DVecFacts Mesh Spec Rep Splice Cycle Traverse Room Ops MeshSpec MeshProofs
  MeshMore MeshTotal MeshFacts NetProofs BuildSpec Solid BuildStep PathProofs ApexProofs LoftProofs HemSpec.
Import ListNotations.
Set Implicit Arguments.
Unset Strict Implicit.

Lemma last_app_cons {A} (l : list A) x r d : last (l ++ x :: r) d = last (x :: r) d.
Proof. induction l as [|a l IH]; auto. cbn [app]. rewrite <- IH. destruct (l ++ x :: r) eqn:Q; auto. destruct l; discriminate. Qed.
Lemma last_dft {A} (l : list A) x d e : last (x :: l) d = last (x :: l) e.
Proof. revert x. induction l as [|a l IH]; intros x; auto. cbn [last] in *. apply (IH a). Qed.
Lemma last_in {A} (l : list A) d : l <> [] -> In (last l d) l.
Proof. intros H. destruct (exists_last H) as (p & q & ->). rewrite last_last. apply in_app_iff. right; left; auto. Qed.
Lemma hd_app {A} (l r : list A) d : l <> [] -> hd d (l ++ r) = hd d l.
Proof. destruct l; auto. congruence. Qed.

Local Arguments abs : simpl never.
Section Hem.
  Context {VP EP FP : Type}.
  Notation graph := (graph VP EP FP).
  Notation mesh := (mesh VP EP FP).
  Implicit Types (g : graph) (m : mesh).
  Variable (dE : EP) (dF : FP).

  Lemma hem_length g y Bs : forall ps Ts fs, hem_band g y Bs ps Ts fs ->
    length ps = S (length Bs) /\ length Ts = length Bs /\ length fs = length Bs.
  Proof.
    induction Bs as [|B Bs IH]; intros ps Ts fs H; destruct ps as [|p [|q ps]]; destruct Ts as [|T Ts]; destruct fs as [|f fs];
      cbn in *; try tauto.
    destruct H as (_ & _ & H). apply IH in H. cbn in *. lia.
  Qed.

  Lemma hem_keep g g' L E V F y Bs : WF g -> grown g g' L E V F -> (forall x, In x L -> fc g x = None) ->
    forall ps Ts fs, hem_band g y Bs ps Ts fs -> (forall B, In B Bs -> B <> []) -> (forall T, In T Ts -> T <> []) ->
    (forall t, In t (concat Ts) -> lv g t = true) -> hem_band g' y Bs ps Ts fs.
  Proof.
    intros W G H. induction Bs as [|B Bs IH]; intros ps Ts fs K NB NT LT; destruct ps as [|p [|q ps]]; destruct Ts as [|T Ts];
      destruct fs as [|f fs]; cbn [hem_band] in K |- *; try tauto.
    destruct K as (K1 & K2 & K3).
    assert (B <> []) by (apply NB; left; auto). assert (T <> []) by (apply NT; left; auto).
    assert (LB : lv g (hd 0 B) = true).
    { destruct B as [|b B]; [congruence|]. destruct K2 as (_ & _ & K2 & _). apply K2. left; auto. }
    assert (LTT : forall t, In t T -> lv g t = true) by (intros t I; apply LT; cbn; apply in_app_iff; auto).
    assert (Lt : lv g (hd 0 T) = true) by (destruct T as [|t T]; [congruence|]; apply LTT; left; auto).
    split; [rewrite (gr_og G LB), (gr_og G Lt); eapply gr_leads; eauto|]. split.
    - rewrite (gr_tw G (proj1 K1)), (map_tw_grown G LTT). eapply gr_face_keep; eauto.
    - apply IH; auto; intros x I; [apply NB|apply NT|apply LT]; cbn; auto. apply in_app_iff. auto.
  Qed.

  (** The state between the steps of [loft_polygon_back]. *)
  Record hem_state m0 m n k L w0 pre Bs s0 sp cs Ts ws fs xs : Prop := {
    hs_wf : wf m;
    hs_open : hem_open (abs m0) (abs m) n k L xs dF pre Bs s0 sp cs Ts w0 ws fs;
    hs_end : target (abs m) (last (hd s0 sp :: cs) 0) = hd w0 ws;
    hs_nbrs : nbrs (abs m) w0 (og (abs m0) (hd 0 L) :: map (og (abs m)) (firstn 1 (rev (rev (map (tw (abs m)) cs) ++ concat Ts))))
  }.

  Lemma rev_first {A} (x : A) l : l <> [] -> firstn 1 (rev (x :: l)) = firstn 1 (rev l).
  Proof. intros N. destruct (exists_last N) as (p & q & ->). cbn [rev]. rewrite !rev_app_distr. cbn. auto. Qed.
  Lemma rev_first1 {A} (l : list A) x : In x (firstn 1 (rev l)) -> In x l.
  Proof. intros I. apply in_rev. rewrite <- (firstn_skipn 1). apply in_app_iff. auto. Qed.

  Section Step.
    Variables (c : cfg) (m0 : mesh) (n k : nat) (L : list nat) (w0 s0 start : nat).
    Hypotheses (Wm0 : wf m0) (HL : loop (abs m0) L) (NL : L <> []) (LST : lv (abs m0) start = true).

    Lemma hem_live m pre Bs sp cs Ts ws fs xs : hem_state m0 m n k L w0 pre Bs s0 sp cs Ts ws fs xs ->
      forall e, In e ((s0 :: sp) ++ rev (map (tw (abs m)) cs) ++ concat Ts) -> lv (abs m) e = true /\ lv (abs m0) e = false.
    Proof. intros A e I. pose proof (ho_grown (hs_open A)) as G. split; apply (gr_new_e G); apply in_app_iff; auto. Qed.

    Lemma hem_fresh m pre Bs sp cs Ts ws fs xs : hem_state m0 m n k L w0 pre Bs s0 sp cs Ts ws fs xs ->
      forall z, In z (hd s0 sp :: cs ++ (rev (map (tw (abs m)) cs) ++ concat Ts) ++ tw (abs m) s0 :: pre) ->
      In z L \/ lv (abs m0) z = false.
    Proof.
      intros A z I. pose proof (hs_open A) as O. pose proof (ho_grown O) as G. pose proof (wfW (hs_wf A)) as W.
      assert (J : In z L \/ In z (((s0 :: sp) ++ rev (map (tw (abs m)) cs) ++ concat Ts) ++
                  map (tw (abs m)) ((s0 :: sp) ++ rev (map (tw (abs m)) cs) ++ concat Ts))).
      { rewrite (ho_L O). destruct I as [<-|I].
        - right. destruct sp; cbn; auto.
        - apply in_app_iff in I as [I|I].
          + right. apply in_app_iff. right. apply in_map_iff. exists (tw (abs m) z). split.
            * apply (wf_twtw W). apply (hole_live (ho_hole O)). right. inl.
            * apply in_app_iff. right. apply in_app_iff. left. rewrite <- in_rev. apply in_map. auto.
          + apply in_app_iff in I as [I|[<-|I]].
            * right. apply in_app_iff. left. apply in_app_iff. auto.
            * right. apply in_app_iff. right. cbn. auto.
            * left. inl. }
      destruct J as [J|J]; auto. right. apply (gr_new_e G J).
    Qed.

    Lemma hem_verts m pre Bs sp cs Ts ws fs xs : hem_state m0 m n k L w0 pre Bs s0 sp cs Ts ws fs xs ->
      forall v, In v (w0 :: ws) -> lvv (abs m) v = true /\ lvv (abs m0) v = false.
    Proof. intros A v I. pose proof (ho_grown (hs_open A)) as G. split; apply (gr_new_v G I). Qed.

    Lemma hem_B m pre Bs sp cs Ts ws fs xs : 2 <= n -> 2 <= k -> hem_state m0 m n k L w0 pre Bs s0 sp cs Ts ws fs xs ->
      (forall B, In B Bs -> B <> []) /\ (forall T, In T Ts -> T <> []).
    Proof.
      intros N K A. split; intros B I ->; [pose proof (ho_B (hs_open A) I)|pose proof (ho_T (hs_open A) I)]; cbn in *; lia.
    Qed.

    (** the value [ret] *)
    Definition rim m cs Ts := rev (map (tw (abs m)) cs) ++ concat Ts.

    (** one step of the chain *)
    Lemma hem_via m pre Bs sp cs Ts ws fs xs x a b d : 2 <= n -> 2 <= k -> hem_state m0 m n k L w0 pre Bs s0 sp cs Ts ws fs xs ->
      fits c m (2 + a) (S b) d ->
      let i := last (hd s0 sp :: cs) 0 in
      exists m1 v e1 e2, via dE c m i (nx (abs m) i) x = Ok (m1, v, e1, e2) /\ fits c m1 a b d /\ tw (abs m1) e1 = e2 /\
        lv (abs m1) e1 = true /\ lv (abs m0) e2 = false /\
        map (tw (abs m1)) cs = map (tw (abs m)) cs /\ tw (abs m1) s0 = tw (abs m) s0 /\
        hem_state m0 m1 n k L w0 pre Bs s0 sp (cs ++ [e1]) Ts (v :: ws) fs (hd x xs :: x :: tl xs).
    Proof.
      intros N K A F i. pose proof (hs_wf A) as Wm. pose proof (wfW Wm) as W. pose proof (wfW Wm0) as W0. pose proof (hs_open A) as O.
      pose proof (ho_hole O) as H. pose proof (ho_grown O) as G0.
      destruct (@exists_last _ (hd s0 sp :: cs)) as (is & i' & EI); [discriminate|].
      assert (QI : i = i') by (unfold i; rewrite EI, last_last; auto). clearbody i. subst i'.
      set (R := rim m cs Ts). fold (rim m cs Ts) in H, G0. fold R in H, G0.
      assert (H' : hole (abs m) (i :: (R ++ tw (abs m) s0 :: pre) ++ is)).
      { change (hd s0 sp :: cs ++ R ++ tw (abs m) s0 :: pre) with ((hd s0 sp :: cs) ++ R ++ tw (abs m) s0 :: pre) in H.
        rewrite EI, <- app_assoc in H. cbn [app] in H. apply (@hole_rot _ _ _ _ is) in H. exact H. }
      destruct (do_via dE x Wm F H' eq_refl) as (m1 & v & e1 & e2 & E & Wm1 & F1 & G & H1 & T1 & T2 & O1 & O2 & Y).
      pose proof (wfW Wm1) as W1.
      assert (Li : lv (abs m) i = true) by (apply (hole_live H'); left; auto).
      assert (Lcs : forall z, In z cs -> lv (abs m) z = true) by (intros z I; apply (hole_live H); right; inl).
      assert (MT : map (tw (abs m1)) cs = map (tw (abs m)) cs) by apply (map_tw_grown G Lcs).
      exists m1, v, e1, e2. split; auto. split; auto. split; auto.
      assert (L1 : lv (abs m1) e1 = true) by (apply (gr_new_e G); left; auto).
      assert (L2 : lv (abs m1) e2 = true) by (apply (gr_new_e G); right; left; auto).
      assert (N2 : lv (abs m) e2 = false) by (apply (gr_new_e G); right; left; auto).
      split; auto. split.
      { destruct (lv (abs m0) e2) eqn:Q; auto. rewrite (gr_live_e G0 Q) in N2. discriminate. }
      split; auto.
      split; [apply (gr_tw G); apply (hem_live A); left; auto|].
      assert (TI : target (abs m) i = hd w0 ws).
      { rewrite <- (hs_end A), EI, last_last. auto. }
      assert (RM : rim m1 (cs ++ [e1]) Ts = e2 :: R).
      { unfold rim, R, rim. rewrite map_app, rev_app_distr, MT. cbn. rewrite T1. auto. }
      assert (LR : forall e, In e ((s0 :: sp) ++ R) -> lv (abs m) e = true) by (intros e I; apply (hem_live A I)).
      assert (LS0 : lv (abs m) s0 = true) by (apply LR; left; auto).
      assert (LVW : forall v, In v (w0 :: ws) -> lvv (abs m) v = true) by (intros z I; apply (hem_verts A I)).
      assert (NV : lvv (abs m) v = false) by (apply (gr_new_v G); left; auto).
      split; auto.
      - fold (rim m1 (cs ++ [e1]) Ts).
        assert (GT : grown (abs m0) (abs m1) L ((((s0 :: sp) ++ R) ++ map (tw (abs m)) ((s0 :: sp) ++ R)) ++ [e1; e2]) ((w0 :: ws) ++ [v]) (fs ++ [])).
        { apply (grown_trans G0 G). intros z I. apply (hem_fresh A). fold (rim m cs Ts). fold R.
          change (hd s0 sp :: cs ++ R ++ tw (abs m) s0 :: pre) with ((hd s0 sp :: cs) ++ R ++ tw (abs m) s0 :: pre).
          rewrite EI. revert I. inl. }
        split; fold (rim m1 (cs ++ [e1]) Ts); rewrite ?RM.
        + apply (ho_L O).
        + apply (ho_B O).
        + apply (ho_T O).
        + eapply grown_perm; [exact GT|..|].
          * replace (map (tw (abs m1)) ((s0 :: sp) ++ e2 :: R)) with (map (tw (abs m)) (s0 :: sp) ++ e1 :: map (tw (abs m)) R).
            { perm. }
            rewrite (map_app (tw (abs m1))). change (map (tw (abs m1)) (e2 :: R)) with (tw (abs m1) e2 :: map (tw (abs m1)) R). rewrite T2. f_equal; [|f_equal]; symmetry; apply (map_tw_grown G); intros e I; apply LR; inl.
          * perm.
          * rewrite app_nil_r. apply Permutation_refl.
        + destruct (hem_B N K A) as [NB NT]. eapply hem_keep; [exact W|exact G|apply (proj2 H')|apply (ho_band O)|auto|auto|].
          intros t I. apply LR. unfold R, rim. inl.
        + pose proof (lt_grown W G (ho_rim O)) as RR. fold (rim m cs Ts) in RR. fold R in RR. cbn [app].
          assert (K1 : leads (abs m1) e2 v (hd w0 ws)).
          { split; auto. split; auto. unfold target. rewrite T2, O1. auto. }
          destruct ws as [|w1 ws]; cbn [app hd] in *; cbn [leads_through]; auto.
        + eapply gr_leads; [exact W|exact G|apply (ho_s0 O)].
        + rewrite (gr_tw G LS0).
          assert (Q : hd s0 sp :: (cs ++ [e1]) ++ (e2 :: R) ++ tw (abs m) s0 :: pre = is ++ (i :: e1 :: e2 :: R ++ tw (abs m) s0 :: pre)).
          { transitivity ((hd s0 sp :: cs) ++ [e1] ++ (e2 :: R) ++ tw (abs m) s0 :: pre); [cbn; rewrite <- app_assoc; auto|].
            rewrite EI, <- app_assoc. auto. }
          rewrite Q. apply (@hole_rot _ _ _ _ (i :: e1 :: e2 :: R ++ tw (abs m) s0 :: pre) is). exact H1.
        + cbn [map]. pose proof (ho_pay O) as P. cbn [map] in P. destruct xs as [|x0 xs]; [discriminate|]. cbn [map] in P.
          assert (P1 : vp (abs m) w0 = Some x0) by exact (f_equal (hd None) P).
          assert (P2 : map (vp (abs m)) ws = map Some xs) by exact (f_equal (@tl _) P).
          cbn [hd tl map]. rewrite (gr_vp G), P1; [|apply LVW; left; auto]. f_equal. f_equal; auto.
          rewrite <- P2. apply (map_vp_grown G). intros z I. apply LVW. right; auto.
      - change (hd s0 sp :: cs ++ [e1]) with ((hd s0 sp :: cs) ++ [e1]). rewrite last_last. cbn [hd]. unfold target. rewrite T1; auto.
      - fold (rim m1 (cs ++ [e1]) Ts). rewrite RM.
        eapply nbrs_pair; [exact W|exact G|exact T1|exact T2|apply (hs_nbrs A)|..]; fold (rim m cs Ts); fold R.
        + intros Q. (* origin of e1 is w0: the rim is empty *)
          rewrite O1, TI in Q.
          assert (EW : ws = []).
          { destruct ws as [|w1 ws]; auto. cbn [hd] in Q. subst w1. pose proof (proj1 (gr_v G0)) as ND.
            apply NoDup_cons_iff in ND. exfalso. apply (proj1 ND). left; auto. }
          assert (ER : R = []).
          { pose proof (lt_length (ho_rim O)) as LN. fold (rim m cs Ts) in LN. fold R in LN. rewrite EW in LN. destruct R; auto. cbn in LN. lia. }
          rewrite ER. right. cbn. left. auto.
        + intros Q. exfalso. rewrite O2 in Q. rewrite Q in NV. rewrite LVW in NV; [discriminate|left; auto].
        + intros z [<-|I]; [left; auto|]. right.
          assert (NR : R <> []) by (intros Q; rewrite Q in I; destruct I).
          rewrite rev_first by auto. apply in_map_iff in I as (q & Q1 & Q2). apply in_map_iff. exists q. split; auto.
          rewrite <- Q1. apply (gr_og G). apply LR. apply in_app_iff. right. apply rev_first1; auto.
    Qed.

    Lemma ret_new m pre Bs sp cs Ts ws fs xs : hem_state m0 m n k L w0 pre Bs s0 sp cs Ts ws fs xs ->
      rim m cs Ts <> [] -> (last (rim m cs Ts) start =? start) = false.
    Proof.
      intros A NR. apply Nat.eqb_neq. intros Q. pose proof (last_in start NR) as I. rewrite Q in I.
      assert (J : lv (abs m0) start = false) by (apply (hem_live A); apply in_app_iff; right; exact I). congruence.
    Qed.

    Lemma hem_chain i rest : 2 <= n -> 2 <= k -> forall q m pre Bs sp cs Ts ws fs xs a b d,
      hem_state m0 m n k L w0 pre Bs s0 sp cs Ts ws fs xs -> fits c m (2 * length q + a) (length q + b) d ->
      exists m' cs' ws',
        pb_chain dE c m (length q + i) start (last (hd s0 sp :: cs) 0) (last (rim m cs Ts) start) (q ++ rest) =
          pb_chain dE c m' i start (last (hd s0 sp :: cs') 0) (last (rim m' cs' Ts) start) rest /\
        hem_state m0 m' n k L w0 pre Bs s0 sp cs' Ts ws' fs (firstn 1 xs ++ rev q ++ tl xs) /\ fits c m' a b d /\
        length cs' = length cs + length q /\ tw (abs m') s0 = tw (abs m) s0.
    Proof.
      intros N K. induction q as [|x q IH]; intros m pre Bs sp cs Ts ws fs xs a b d A F.
      - exists m, cs, ws. cbn [rev app length Nat.add] in *. split; auto. split; [|split; auto].
        destruct xs; auto.
      - cbn [length] in F.
        assert (F1 : fits c m (2 + (2 * length q + a)) (S (length q + b)) d) by (eapply fits_le; eauto; try apply A; lia).
        destruct (@hem_via _ _ _ _ _ _ _ _ _ x _ _ _ N K A F1) as (m1 & v & e1 & e2 & E & F2 & T1 & L1 & N2 & MT & TS & A1).
        destruct (IH m1 _ _ _ _ _ _ _ _ _ _ _ A1 F2) as (m' & cs' & ws' & E' & A' & F' & LC & TS').
        exists m', cs', ws'. split.
        + cbn [length Nat.add app pb_chain].
          assert (LI : lv (abs m) (last (hd s0 sp :: cs) 0) = true).
          { apply (hole_live (ho_hole (hs_open A))). change (hd s0 sp :: cs ++ (rev (map (tw (abs m)) cs) ++ concat Ts) ++ tw (abs m) s0 :: pre)
              with ((hd s0 sp :: cs) ++ (rev (map (tw (abs m)) cs) ++ concat Ts) ++ tw (abs m) s0 :: pre).
            apply in_app_iff. left. apply last_in. discriminate. }
          rewrite (get_next (hs_wf A) LI). cbn [bind]. rewrite E. cbn [bind].
          assert (Q1 : last (hd s0 sp :: cs ++ [e1]) 0 = e1).
          { change (hd s0 sp :: cs ++ [e1]) with ((hd s0 sp :: cs) ++ [e1]). apply last_last. }
          rewrite Q1 in E'.
          assert (RM : rim m1 (cs ++ [e1]) Ts = e2 :: rim m cs Ts).
          { unfold rim. rewrite map_app, rev_app_distr, MT. cbn. rewrite T1. auto. }
          rewrite RM in E'.
          assert (RQ : (if last (rim m cs Ts) start =? start then twin_id m1 e1 else Ok (last (rim m cs Ts) start)) = Ok (last (e2 :: rim m cs Ts) start)).
          { destruct (rim m cs Ts) as [|r0 r] eqn:ER.
            - cbn [last]. rewrite Nat.eqb_refl, (get_twin (hs_wf A1) L1), T1. auto.
            - rewrite <- ER, (ret_new A); [|rewrite ER; discriminate]. rewrite ER. auto. }
          rewrite RQ. cbn [bind]. exact E'.
        + split; [|split; auto; split; [rewrite LC, app_length; cbn; lia|congruence]].
          pose proof (ho_pay (hs_open A)) as P. destruct xs as [|x0 xs]; [discriminate|]. cbn [hd tl firstn app rev] in *.
          rewrite <- app_assoc. exact A'.
    Qed.

    Definition round_code m sv inside input ret (vps : list VP) fl : res (mesh * nat) :=
      match vps with
      | [] =>
          let* t := target_id m input in
          if sv =? t then let* q := prev_id m input in let* m1 := cface dE dF c m inside q in Ok (m1, ret) else Ok (m, ret)
      | p :: rest =>
          let* o := next_id m input in
          let* (m1, _, _, _) := via dE c m input o p in
          let* o1 := next_id m1 input in
          let* m2 := cface dE dF c m1 inside o1 in
          let* ret := if ret =? start then let* q := g_next m2 inside in twin_id m2 q else Ok ret in
          pb_loop dE dF c m2 n k start sv input ret rest fl
      end.

    Lemma hem_round m p1 y1 B Bs sp cs Ts ws fs xs sv fl x rest a b d : 2 <= n -> 2 <= k ->
      hem_state m0 m n k L w0 (p1 ++ y1 :: B) Bs s0 sp cs Ts ws fs xs -> fits c m (4 + a) (S b) (S d) ->
      S (length B) = k -> length cs + 2 = n ->
      exists m2 u z2 w f,
        round_code m sv (last (hd s0 sp :: cs) 0) y1 (last (rim m cs Ts) start) (x :: rest) fl =
          pb_loop dE dF c m2 n k start sv y1 (last (rim m2 [] ((z2 :: rev (map (tw (abs m)) cs)) :: Ts)) start) rest fl /\
        hem_state m0 m2 n k L w0 (p1 ++ [y1]) (B :: Bs) s0 (u :: sp) [] ((z2 :: rev (map (tw (abs m)) cs)) :: Ts) (w :: ws) (f :: fs)
          (hd x xs :: x :: tl xs) /\ fits c m2 a b d.
    Proof.
      intros N K A F LB LC. pose proof (wfW Wm0) as W0. pose proof (hs_wf A) as Wm. pose proof (wfW Wm) as W.
      pose proof (hs_open A) as O. pose proof (ho_hole O) as H. pose proof (ho_grown O) as G0.
      destruct B as [|b0 B']; [cbn in LB; lia|]. set (B := b0 :: B') in *.
      destruct (@exists_last _ (hd s0 sp :: cs)) as (is & i & EI); [discriminate|].
      rewrite EI, last_last. fold (rim m cs Ts) in H, G0. set (R := rim m cs Ts) in *. set (s0' := tw (abs m) s0) in *.
      assert (HS : hole (abs m) ((is ++ [i]) ++ R ++ s0' :: p1 ++ y1 :: B)) by (rewrite <- EI; exact H).
      assert (H' : hole (abs m) (y1 :: B ++ (is ++ [i]) ++ R ++ s0' :: p1)).
      { assert (Q : (is ++ [i]) ++ R ++ s0' :: p1 ++ y1 :: B = ((is ++ [i]) ++ R ++ s0' :: p1) ++ y1 :: B).
        { rewrite <- !app_assoc. auto. }
        rewrite Q in HS. apply hole_rot in HS. exact HS. }
      assert (Ly : lv (abs m) y1 = true) by (apply (hole_live H'); left; auto).
      assert (Lb : lv (abs m) b0 = true) by (apply (hole_live H'); right; left; auto).
      assert (NY : nx (abs m) y1 = b0) by (apply (loop_nx (proj1 H'))).
      assert (Li : lv (abs m) i = true) by (apply (hole_live HS); inl).
      unfold round_code. rewrite (get_next Wm Ly). cbn [bind].
      assert (F1 : fits c m (2 + (2 + a)) (S b) (S d)) by exact F.
      destruct (do_via dE x Wm F1 H' eq_refl) as (m1 & w & u & u' & E1 & Wm1 & F2 & G1 & H1 & T1 & T2 & O1 & O2 & Y).
      rewrite E1. cbn [bind]. pose proof (wfW Wm1) as W1.
      assert (Ly1 : lv (abs m1) y1 = true) by (apply (gr_live_e G1 Ly)).
      rewrite (get_next Wm1 Ly1), (loop_nx (proj1 H1)). cbn [bind].
      assert (H1' : hole (abs m1) (i :: (R ++ s0' :: p1 ++ [y1]) ++ u :: (u' :: B ++ is))).
      { assert (Q : y1 :: u :: u' :: B ++ (is ++ [i]) ++ R ++ s0' :: p1 = (y1 :: u :: u' :: B ++ is) ++ (i :: R ++ s0' :: p1)).
        { cbn. rewrite <- !app_assoc. auto. }
        rewrite Q in H1. apply hole_rot in H1.
        assert (Q2 : i :: (R ++ s0' :: p1 ++ [y1]) ++ u :: u' :: B ++ is = (i :: R ++ s0' :: p1) ++ y1 :: u :: u' :: B ++ is).
        { cbn. rewrite <- !app_assoc. cbn. rewrite <- !app_assoc. auto. }
        rewrite Q2. exact H1. }
      assert (TY : target (abs m) y1 = og (abs m) b0) by (rewrite <- NY; symmetry; apply (wf_ognx W _ Ly)).
      assert (Lb0 : lv (abs m0) b0 = true) by (apply (loop_live' HL); rewrite (ho_L O); unfold B; inl).
      assert (OB : og (abs m) b0 = og (abs m0) b0) by (apply (gr_og G0 Lb0)).
      assert (VB : lvv (abs m0) (og (abs m0) b0) = true) by (apply (wf_og W0 _ Lb0)).
      assert (NW : nbrs (abs m1) w [target (abs m) y1]) by (apply (nbrs_via Wm G1 Ly T1 T2 O1 O2)).
      assert (TI : target (abs m) i = hd w0 ws) by (rewrite <- (hs_end A), EI, last_last; auto).
      assert (TI1 : target (abs m1) i = hd w0 ws) by (rewrite (gr_target W G1 Li); auto).
      assert (FW : forall z, In z (w0 :: ws) -> lvv (abs m0) z = false) by (intros z I; apply (hem_verts A I)).
      assert (LVW : forall z, In z (w0 :: ws) -> lvv (abs m) z = true) by (intros z I; apply (hem_verts A I)).
      assert (VW : lvv (abs m) w = false) by (apply (gr_new_v G1); left; auto).
      assert (TU : target (abs m1) u = w) by (unfold target; rewrite T1; auto).
      assert (NLD : forall e, leads (abs m1) e (target (abs m1) i) (target (abs m1) u) -> False).
      { rewrite TU, TI1. apply (nbrs_no' W1 NW). intros [Q|[]]. rewrite TY, OB in Q.
        assert (lvv (abs m0) (hd w0 ws) = false) by (apply FW; destruct ws; cbn; auto). clash. }
      assert (F3 : fits c m1 (2 + a) b (S d)) by exact F2.
      destruct (do_cface dE dF Wm1 F3 H1' NLD) as (m2 & f & z1 & z2 & E2 & Wm2 & F4 & G2 & FI & H2 & T3 & T4 & O3 & O4).
      rewrite E2. cbn [bind]. pose proof (wfW Wm2) as W2.
      assert (G12 : grown (abs m) (abs m2) (y1 :: B ++ (is ++ [i]) ++ R ++ s0' :: p1) ([u; u'] ++ [z1; z2]) ([w] ++ []) ([] ++ [f])).
      { apply (grown_trans G1 G2). intros z I.
        assert (J : In z [u; u'] \/ In z (y1 :: B ++ (is ++ [i]) ++ R ++ s0' :: p1)).
        { cbn in I |- *. rewrite !in_app_iff in *. cbn in *. rewrite !in_app_iff in *. cbn in *. tauto. }
        destruct J as [J|J]; auto. right. apply (gr_new_e G1 J). }
      cbn [app] in G12.
      assert (LR : forall e, In e ((s0 :: sp) ++ R) -> lv (abs m) e = true) by (intros e I; apply (hem_live A I)).
      assert (LS0 : lv (abs m) s0 = true) by (apply LR; left; auto).
      assert (GT : grown (abs m0) (abs m2) L ((((s0 :: sp) ++ R) ++ map (tw (abs m)) ((s0 :: sp) ++ R)) ++ [u; u'; z1; z2])
                   ((w0 :: ws) ++ [w]) (fs ++ [f])).
      { apply (grown_trans G0 G12). intros z I. apply (hem_fresh A). fold (rim m cs Ts). fold R. fold s0'.
        change (hd s0 sp :: cs ++ R ++ s0' :: p1 ++ y1 :: B) with ((hd s0 sp :: cs) ++ R ++ s0' :: p1 ++ y1 :: B).
        rewrite EI. revert I. clear. rewrite !in_app_iff. cbn. rewrite !in_app_iff. cbn. tauto. }
      assert (Lcs : forall z, In z cs -> lv (abs m) z = true) by (intros z I; apply (hole_live H); right; inl).
      assert (Lu : lv (abs m1) u = true) by (apply (gr_new_e G1); left; auto).
      assert (Lu2 : lv (abs m2) u = true) by (apply (gr_live_e G2 Lu)).
      assert (T1' : tw (abs m2) u = u') by (rewrite (gr_tw G2 Lu); auto).
      assert (Lz1 : lv (abs m2) z1 = true) by (apply (gr_new_e G2); left; auto).
      assert (Lz2 : lv (abs m2) z2 = true) by (apply (gr_new_e G2); right; left; auto).
      assert (OZ2 : og (abs m2) z2 = w) by (rewrite O4; exact TU).
      set (T := z2 :: rev (map (tw (abs m)) cs)).
      assert (RM : rim m2 [] (T :: Ts) = z2 :: R) by (unfold rim, T, R, rim; cbn; auto).
      exists m2, u, z2, w, f. split; [|split; auto].
      - fold T. rewrite RM.
        assert (Li2 : lv (abs m2) i = true) by (apply (gr_live_e G12 Li)).
        destruct R as [|r0 r] eqn:ER.
        + cbn [last]. rewrite Nat.eqb_refl, (get_gnext Wm2 Li2). destruct FI as (_ & _ & FI & _). rewrite (loop_nx FI).
          cbn [bind]. rewrite (get_twin Wm2 Lz1), T3. auto.
        + pose proof (ret_new A) as RN. unfold R in ER. rewrite ER in RN. rewrite RN; [|discriminate]. cbn [bind]. auto.
      - fold T. split; auto.
        + split.
          * rewrite (ho_L O). cbn [concat]. rewrite <- !app_assoc. auto.
          * intros B0 [<-|I]; auto. apply (ho_B O I).
          * intros T0 [<-|I]; [|apply (ho_T O I)]. unfold T. cbn [length]. rewrite rev_length, map_length. lia.
          * fold (rim m2 [] (T :: Ts)). rewrite RM. eapply grown_perm; [exact GT|..|].
            -- replace (map (tw (abs m2)) ((s0 :: u :: sp) ++ z2 :: R)) with
                 ((tw (abs m) s0) :: u' :: map (tw (abs m)) sp ++ z1 :: map (tw (abs m)) R).
               ++ perm.
               ++ rewrite map_app. cbn [app]. change (map (tw (abs m2)) (s0 :: u :: sp)) with (tw (abs m2) s0 :: tw (abs m2) u :: map (tw (abs m2)) sp).
                  change (map (tw (abs m2)) (z2 :: R)) with (tw (abs m2) z2 :: map (tw (abs m2)) R). cbn [app].
                  rewrite T1', T4, (gr_tw G12 LS0). f_equal. f_equal. f_equal; [|f_equal];
                    symmetry; apply (map_tw_grown G12); intros e I; apply LR; inl.
            -- perm.
            -- perm.
          * assert (HB : hem_band (abs m2) dF Bs (sp ++ [s0]) Ts fs).
            { destruct (hem_B N K A) as [NB NT]. eapply hem_keep; [exact W|exact G12|apply (proj2 H')|apply (ho_band O)|auto|auto|].
              intros t I. apply LR. unfold R, rim. inl. }
            assert (K1 : leads (abs m2) u (og (abs m2) (hd 0 B)) (og (abs m2) (hd 0 T))).
            { cbn [B T hd]. split; auto. split.
              - rewrite (gr_og G2 Lu), O1, TY, (gr_og G12 Lb). auto.
              - rewrite (gr_target W1 G2 Lu), TU, OZ2. auto. }
            assert (RT : rev (map (tw (abs m2)) T) = cs ++ [z1]).
            { unfold T. cbn [map]. rewrite T4, map_rev. cbn [rev]. rewrite rev_involutive. f_equal.
              rewrite map_map. transitivity (map (fun z => z) cs); [|apply map_id]. apply map_ext_in. intros z I. rewrite (gr_tw G12); [apply (wf_twtw W); auto|].
              apply (wf_tw W). auto. }
            assert (K2 : face_is (abs m2) f (B ++ hd s0 sp :: rev (map (tw (abs m2)) T) ++ [tw (abs m2) u]) dF false).
            { rewrite RT, T1'.
              assert (Q : B ++ hd s0 sp :: (cs ++ [z1]) ++ [u'] = (B ++ is) ++ [i; z1; u']).
              { transitivity (B ++ (hd s0 sp :: cs) ++ [z1; u']); [cbn; rewrite <- app_assoc; auto|]. rewrite EI, <- !app_assoc. auto. }
              rewrite Q. apply (@face_is_rot _ _ _ _ _ [i; z1; u']). exact FI. }
            cbn [app hem_band]. destruct sp as [|q sp']; cbn [app hd] in *; auto.
          * fold (rim m2 [] (T :: Ts)). rewrite RM. pose proof (lt_grown W G12 (ho_rim O)) as RR. fold (rim m cs Ts) in RR. fold R in RR.
            assert (K1 : leads (abs m2) z2 w (hd w0 ws)).
            { split; auto. split; auto. unfold target. rewrite T4, O3. auto. }
            destruct ws as [|w1 ws]; cbn [app hd] in *; cbn [leads_through]; auto.
          * eapply gr_leads; [exact W|exact G12|apply (ho_s0 O)].
          * fold (rim m2 [] (T :: Ts)). rewrite RM, (gr_tw G12 LS0). fold s0'. cbn [hd app]. exact H2.
          * cbn [map]. pose proof (ho_pay O) as P. cbn [map] in P. destruct xs as [|x0 xs]; [discriminate|]. cbn [map] in P.
            assert (P1 : vp (abs m) w0 = Some x0) by exact (f_equal (hd None) P).
            assert (P2 : map (vp (abs m)) ws = map Some xs) by exact (f_equal (@tl _) P).
            cbn [hd tl map]. rewrite (gr_vp G12), P1; [|apply LVW; left; auto]. f_equal. f_equal.
            -- rewrite (gr_vp G2), Y; auto. apply (gr_new_v G1). left; auto.
            -- rewrite <- P2. apply (map_vp_grown G12). intros z I. apply LVW. right; auto.
        + cbn [last hd]. rewrite (gr_target W1 G2 Lu). auto.
        + fold (rim m2 [] (T :: Ts)). rewrite RM.
          assert (NE : forall e, In e [u; u'] -> og (abs m1) e <> w0).
          { intros e [<-|[<-|[]]].
            - rewrite O1, TY, OB. intros Q. assert (lvv (abs m0) w0 = false) by (apply FW; left; auto). clash.
            - rewrite O2. intros ->. assert (lvv (abs m) w0 = true) by (apply LVW; left; auto). clash. }
          pose proof (nbrs_old W W1 G1 (hs_nbrs A) NE) as N1. fold (rim m cs Ts) in N1. fold R in N1.
          eapply nbrs_pair; [exact W1|exact G2|exact T3|exact T4|exact N1|..].
          * intros Q. rewrite O3, TI1 in Q.
            assert (EW : ws = []).
            { destruct ws as [|w1 ws]; auto. cbn [hd] in Q. subst w1. pose proof (proj1 (gr_v G0)) as ND.
              apply NoDup_cons_iff in ND. exfalso. apply (proj1 ND). left; auto. }
            assert (ER : R = []).
            { pose proof (lt_length (ho_rim O)) as LN. fold (rim m cs Ts) in LN. fold R in LN. rewrite EW in LN. destruct R; auto. cbn in LN. lia. }
            rewrite ER. right. cbn. left. auto.
          * intros Q. exfalso. rewrite OZ2 in Q. subst w. assert (lvv (abs m) w0 = true) by (apply LVW; left; auto). clash.
          * intros z [<-|I]; [left; auto|]. right.
            assert (NR : R <> []) by (intros Q; rewrite Q in I; destruct I).
            rewrite rev_first by auto. apply in_map_iff in I as (q & Q1 & Q2). apply in_map_iff. exists q. split; auto.
            rewrite <- Q1. apply (gr_og G12). apply LR. apply in_app_iff. right. apply rev_first1; auto.
    Qed.

    Lemma hem_close m B Bs sp cs Ts ws fs xs fl a b d : 2 <= n -> 2 <= k ->
      hem_state m0 m n k L w0 B Bs s0 sp cs Ts ws fs xs -> fits c m (2 + a) b (S d) ->
      S (length B) = k -> length cs + 2 = n -> 2 <= length ws ->
      exists m2 z2 f,
        round_code m (og (abs m0) (hd 0 L)) (last (hd s0 sp :: cs) 0) (tw (abs m) s0) (last (rim m cs Ts) start) [] fl =
          Ok (m2, last (z2 :: rim m cs Ts) 0) /\ wf m2 /\ fits c m2 a b d /\
        hem_built (abs m0) (abs m2) n k L xs dF (B :: Bs) (s0 :: sp) ((z2 :: rev (map (tw (abs m)) cs)) :: Ts) (w0 :: ws) (f :: fs).
    Proof.
      intros N K A F LB LC LW. pose proof (wfW Wm0) as W0. pose proof (hs_wf A) as Wm. pose proof (wfW Wm) as W.
      pose proof (hs_open A) as O. pose proof (ho_hole O) as H. pose proof (ho_grown O) as G0.
      destruct B as [|b0 B']; [cbn in LB; lia|]. set (B := b0 :: B') in *.
      destruct (@exists_last _ (hd s0 sp :: cs)) as (is & i & EI); [discriminate|].
      rewrite EI, last_last. fold (rim m cs Ts) in H, G0. pose proof (lt_length (ho_rim O)) as LN. fold (rim m cs Ts) in LN.
      set (R := rim m cs Ts) in *. set (s0' := tw (abs m) s0) in *.
      rewrite app_length in LN. cbn [length] in LN.
      destruct (@exists_last _ R) as (R' & q & ER); [intros Q; rewrite Q in LN; cbn in LN; lia|].
      destruct ws as [|w1 ws1]; [cbn in LW; lia|].
      destruct (@exists_last _ ws1) as (ws' & wl & EW); [intros ->; cbn in LW; lia|].
      assert (LR : forall e, In e ((s0 :: sp) ++ R) -> lv (abs m) e = true) by (intros e I; apply (hem_live A I)).
      assert (LS0 : lv (abs m) s0 = true) by (apply LR; left; auto).
      assert (LS0' : lv (abs m) s0' = true) by (apply (wf_tw W _ LS0)).
      assert (Lb0 : lv (abs m0) b0 = true) by (apply (loop_live' HL); rewrite (ho_L O); left; auto).
      assert (HS : hole (abs m) ((is ++ [i]) ++ (R' ++ [q]) ++ s0' :: B)) by (rewrite <- EI, <- ER; exact H).
      assert (PS : pv (abs m) s0' = q).
      { apply (loop_pv_at (p := (is ++ [i]) ++ R') (q := B) W (proj1 HS)). rewrite <- !app_assoc. auto. }
      unfold round_code. rewrite (get_target Wm LS0'). cbn [bind].
      assert (T0 : target (abs m) s0' = og (abs m0) (hd 0 L)).
      { unfold target, s0'. rewrite (wf_twtw W) by auto. apply (ho_s0 O). }
      rewrite T0, Nat.eqb_refl, (get_prev Wm LS0'), PS. cbn [bind].
      assert (H' : hole (abs m) (i :: R' ++ q :: (s0' :: B ++ is))).
      { assert (Q : (is ++ [i]) ++ (R' ++ [q]) ++ s0' :: B = is ++ (i :: R' ++ q :: s0' :: B)) by (rewrite <- !app_assoc; auto).
        rewrite Q in HS. apply hole_rot in HS.
        assert (Q2 : i :: R' ++ q :: s0' :: B ++ is = (i :: R' ++ q :: s0' :: B) ++ is) by (cbn; rewrite <- !app_assoc; auto).
        rewrite Q2. exact HS. }
      assert (Li : lv (abs m) i = true) by (apply (hole_live H'); left; auto).
      assert (FW : forall z, In z (w0 :: w1 :: ws1) -> lvv (abs m0) z = false) by (intros z I; apply (hem_verts A I)).
      assert (RR : leads_through (abs m) (R' ++ [q]) ((w1 :: ws') ++ [wl; w0])).
      { pose proof (ho_rim O) as X. fold (rim m cs Ts) in X. fold R in X. rewrite ER, EW in X. cbn [app] in *. rewrite <- app_assoc in X. exact X. }
      assert (OQ : og (abs m) q = wl) by (apply (lt_og RR)).
      assert (TQ : target (abs m) q = w0).
      { apply (@lt_last _ _ _ _ R' q ((w1 :: ws') ++ [wl])). rewrite <- app_assoc. exact RR. }
      assert (TI : target (abs m) i = w1) by (pose proof (hs_end A) as X; rewrite EI, last_last in X; exact X).
      assert (NLD : forall e, leads (abs m) e (target (abs m) i) (target (abs m) q) -> False).
      { rewrite TQ, TI. apply (nbrs_no' W (hs_nbrs A)). fold (rim m cs Ts). fold R.
        rewrite ER, rev_app_distr. cbn [rev app firstn map]. rewrite OQ. intros [Q|[Q|[]]].
        - assert (lvv (abs m0) w1 = false) by (apply FW; right; left; auto).
          assert (lvv (abs m0) (og (abs m0) (hd 0 L)) = true).
          { rewrite (ho_L O). cbn [B app hd]. apply (wf_og W0 _ Lb0). }
          clash.
        - pose proof (proj1 (gr_v G0)) as ND. apply NoDup_cons_iff, proj2, NoDup_cons_iff, proj1 in ND. apply ND.
          rewrite EW. subst wl. inl. }
      destruct (do_cface dE dF Wm F H' NLD) as (m1 & f & z1 & z2 & E2 & Wm2 & F4 & G2 & FI & H2 & T3 & T4 & O3 & O4).
      rewrite E2. cbn [bind].
      exists m1, z2, f. split; [rewrite ER, last_last; rewrite app_comm_cons, last_last; auto|]. split; auto. split; auto.
      assert (Lcs : forall z, In z cs -> lv (abs m) z = true) by (intros z I; apply (hole_live H); right; inl).
      assert (Lz2 : lv (abs m1) z2 = true) by (apply (gr_new_e G2); right; left; auto).
      assert (Lb : lv (abs m) b0 = true) by (apply (gr_live_e G0 Lb0)).
      set (T := z2 :: rev (map (tw (abs m)) cs)).
      assert (CT : concat (T :: Ts) = z2 :: R) by (unfold T, R, rim; cbn; auto).
      split; rewrite ?CT.
      - symmetry. exact (ho_L O).
      - intros B0 [<-|I]; auto. apply (ho_B O I).
      - intros T' [<-|I]; [|apply (ho_T O I)]. unfold T. cbn [length]. rewrite rev_length, map_length. lia.
      - assert (GT : grown (abs m0) (abs m1) L ((((s0 :: sp) ++ R) ++ map (tw (abs m)) ((s0 :: sp) ++ R)) ++ [z1; z2])
                   ((w0 :: w1 :: ws1) ++ []) (fs ++ [f])).
        { apply (grown_trans G0 G2). intros z I. apply (hem_fresh A). fold (rim m cs Ts). fold R. fold s0'.
          change (hd s0 sp :: cs ++ R ++ s0' :: B) with ((hd s0 sp :: cs) ++ R ++ s0' :: B). rewrite EI, ER. cbn [In] in I |- *. rewrite ?in_app_iff in *. cbn [In] in *. rewrite ?in_app_iff in *. cbn [In] in *. tauto. }
        rewrite app_nil_r in GT. eapply grown_perm; [exact GT|..|].
        + replace (map (tw (abs m1)) ((s0 :: sp) ++ z2 :: R)) with (map (tw (abs m)) (s0 :: sp) ++ z1 :: map (tw (abs m)) R).
          * perm.
          * rewrite (map_app (tw (abs m1))). f_equal; [symmetry; apply (map_tw_grown G2); intros e I; apply LR; apply in_app_iff; auto|].
            change (map (tw (abs m1)) (z2 :: R)) with (tw (abs m1) z2 :: map (tw (abs m1)) R). rewrite T4. f_equal.
            symmetry; apply (map_tw_grown G2); intros e I; apply LR; inl.
        + apply Permutation_refl.
        + perm.
      - assert (HB : hem_band (abs m1) dF Bs (sp ++ [s0]) Ts fs).
        { destruct (hem_B N K A) as [NB NT]. eapply hem_keep; [exact W|exact G2|apply (proj2 H')|apply (ho_band O)|auto|auto|].
          intros t I. apply LR. unfold R, rim. inl. }
        assert (K1 : leads (abs m1) s0 (og (abs m1) (hd 0 B)) (og (abs m1) (hd 0 T))).
        { cbn [B T hd]. rewrite O4, TQ, (gr_og G2 Lb), (gr_og G0 Lb0). pose proof (gr_leads W G2 (ho_s0 O)) as X. rewrite (ho_L O) in X. exact X. }
        assert (RT : rev (map (tw (abs m1)) T) = cs ++ [z1]).
        { unfold T. cbn [map]. rewrite T4, map_rev. cbn [rev]. rewrite rev_involutive. f_equal.
          rewrite map_map. transitivity (map (fun z => z) cs); [|apply map_id]. apply map_ext_in. intros z I. rewrite (gr_tw G2); [apply (wf_twtw W); auto|].
          apply (wf_tw W). auto. }
        assert (K2 : face_is (abs m1) f (B ++ hd s0 sp :: rev (map (tw (abs m1)) T) ++ [tw (abs m1) s0]) dF false).
        { rewrite RT, (gr_tw G2 LS0). fold s0'.
          assert (Q : B ++ hd s0 sp :: (cs ++ [z1]) ++ [s0'] = (B ++ is) ++ [i; z1; s0']).
          { transitivity (B ++ (hd s0 sp :: cs) ++ [z1; s0']); [cbn; rewrite <- app_assoc; auto|]. rewrite EI, <- !app_assoc. auto. }
          rewrite Q. apply (@face_is_rot _ _ _ _ _ [i; z1; s0']). exact FI. }
        cbn [app firstn hem_band]. destruct sp as [|q0 sp']; cbn [app hd] in *; auto.
      - pose proof (lt_grown W G2 (ho_rim O)) as X. fold (rim m cs Ts) in X. fold R in X. cbn [app firstn] in *.
        split; auto. split; auto. split; [rewrite O4; exact TQ|]. unfold target. rewrite T4, O3, TI. auto.
      - rewrite ER. apply (@hole_rot _ _ _ _ [q] (z2 :: R')). exact H2.
      - rewrite <- (ho_pay O). apply (map_vp_grown G2). intros v I. apply (hem_verts A I).
    Qed.
  End Step.
End Hem.
