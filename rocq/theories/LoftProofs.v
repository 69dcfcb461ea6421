(** Rings of quads around a hole of any length. *)
From Coq Require Import List Arith Lia Bool Permutation.
From Verif Require Import Base DVec DVecFacts Mesh Spec Rep Splice Cycle Traverse Room Ops MeshSpec MeshProofs
  MeshMore MeshTotal MeshFacts NetProofs BuildSpec Solid BuildStep PathProofs ApexProofs.
Import ListNotations.
Set Implicit Arguments.
Unset Strict Implicit.

Lemma cocc_cons (e : nat) l x :
  count_occ Nat.eq_dec (e :: l) x = (if Nat.eq_dec e x then 1 else 0) + count_occ Nat.eq_dec l x.
Proof. cbn. destruct (Nat.eq_dec e x); auto. Qed.
Lemma cocc_nil x : count_occ Nat.eq_dec [] x = 0.
Proof. reflexivity. Qed.
Lemma cocc_rev l x : count_occ Nat.eq_dec (rev l) x = count_occ Nat.eq_dec l x.
Proof. apply (Permutation_count_occ Nat.eq_dec). symmetry. apply Permutation_rev. Qed.
(** Permutations of lists made from the same parts *)
Ltac perm := apply (Permutation_count_occ Nat.eq_dec); let z := fresh in intros z;
  repeat (rewrite ?map_app, ?count_occ_app, ?cocc_cons, ?cocc_rev, ?cocc_nil; cbn [map app]);
  repeat match goal with |- context [if ?b then 1 else 0] => generalize (if b then 1 else 0); intro end; lia.
Lemma old_new (f : nat -> bool) a b : f a = true -> f b = false -> a = b -> False.
Proof. intros A B ->. rewrite A in B. discriminate. Qed.
(** something alive is not new *)
Ltac clash := match goal with
  | A : ?f ?a = true, B : ?f ?b = false |- _ =>
      exfalso; first [exact (old_new A B eq_refl) | match goal with Q : a = b |- _ => exact (old_new A B Q) | Q : b = a |- _ => exact (old_new A B (eq_sym Q)) end] end.
Ltac inl := rewrite ?in_app_iff; cbn [In app]; rewrite ?in_app_iff; cbn [In app]; rewrite ?in_app_iff; cbn [In app]; tauto.

Local Arguments abs : simpl never.
Section Loft.
  Context {VP EP FP : Type}.
  Notation graph := (graph VP EP FP).
  Notation mesh := (mesh VP EP FP).
  Implicit Types (g : graph) (m : mesh).
  Variable (dE : EP) (dF : FP).

  Lemma nbrs_via m m' i t v e1 e2 : wf m -> grown (abs m) (abs m') (i :: t) [e1; e2] [v] [] ->
    lv (abs m) i = true -> tw (abs m') e1 = e2 -> tw (abs m') e2 = e1 -> og (abs m') e1 = target (abs m) i -> og (abs m') e2 = v ->
    nbrs (abs m') v [target (abs m) i].
  Proof.
    intros Wm G Li T1 T2 O1 O2. pose proof (wfW Wm) as W.
    assert (VF : lvv (abs m) v = false) by (apply (gr_new_v G); left; auto).
    eapply nbrs_pair with (l := []); [exact W|exact G|exact T1|exact T2|apply nbrs_fresh; auto|..].
    - intros Q. exfalso. rewrite O1 in Q. assert (lvv (abs m) (target (abs m) i) = true); [|clash].
      apply (wf_og W). apply (wf_tw W _ Li).
    - intros _. left. rewrite O1. auto.
    - intros z [].
  Qed.

  Lemma nbrs_old g g' L E V F v l : WF g -> WF g' -> grown g g' L E V F -> nbrs g v l ->
    (forall e, In e E -> og g' e <> v) -> nbrs g' v l.
  Proof.
    intros W W' G N A e Le O. apply (gr_e G) in Le as [Le|I]; [|exfalso; apply (A e I O)].
    rewrite (gr_target W G Le). apply N; auto. rewrite <- O. symmetry. apply (gr_og G); auto.
  Qed.

  Lemma band_length g y es : forall ps ts fs, band g y es ps ts fs ->
    length ps = S (length es) /\ length ts = length es /\ length fs = length es.
  Proof.
    induction es as [|e es IH]; intros ps ts fs H; destruct ps as [|p [|q ps]]; destruct ts as [|t ts]; destruct fs as [|f fs];
      cbn in *; try tauto.
    destruct H as (_ & _ & H). apply IH in H. cbn in *. lia.
  Qed.

  Lemma band_keep g g' L E V F y es : WF g -> grown g g' L E V F -> (forall x, In x L -> fc g x = None) ->
    forall ps ts fs, band g y es ps ts fs -> (forall t, In t ts -> lv g t = true) -> band g' y es ps ts fs.
  Proof.
    intros W G H. induction es as [|e es IH]; intros ps ts fs K LT; destruct ps as [|p [|q ps]]; destruct ts as [|t ts];
      destruct fs as [|f fs]; cbn in K |- *; try tauto.
    destruct K as (K1 & K2 & K3).
    assert (Le : lv g e = true) by (destruct K2 as (_ & _ & K2 & _); apply K2; left; auto).
    assert (Lt : lv g t = true) by (apply LT; left; auto).
    split; [rewrite (gr_og G Le), (gr_og G Lt); eapply gr_leads; eauto|]. split; [|apply IH; auto].
    2:{ intros z I. apply LT; right; auto. }
    rewrite (gr_tw G (proj1 K1)), (gr_tw G Lt). eapply gr_face_keep; eauto.
  Qed.

  Lemma band_snoc g y es : forall ps ts fs p e t f q, band g y es (ps ++ [p]) ts fs ->
    leads g p (og g e) (og g t) -> face_is g f [e; q; tw g t; tw g p] y false ->
    band g y (es ++ [e]) ((ps ++ [p]) ++ [q]) (ts ++ [t]) (fs ++ [f]).
  Proof.
    induction es as [|e0 es IH]; intros ps ts fs p e t f q H K1 K2;
      destruct ps as [|p0 ps]; destruct ts as [|t0 ts]; destruct fs as [|f0 fs]; cbn in H; try tauto;
      try (destruct ps; cbn in H; tauto).
    - cbn. auto.
    - destruct (ps ++ [p]) eqn:Q; [destruct ps; discriminate|].
      destruct H as (H1 & H2 & H3). rewrite <- Q in H3. specialize (IH _ _ _ _ _ _ _ q H3 K1 K2).
      cbn [app]. rewrite Q in *. cbn [app band] in *. auto.
  Qed.

  (** * Backwards *)
  (** One round: [L] is [pre ++ x :: dn], the half-edges [dn] have their quads. *)
  Record pb_state m0 m L w0 pre x dn s s0 sp ts ws fs xs : Prop := {
    ps_wf : wf m;
    ps_L : L = pre ++ x :: dn;
    ps_s : s = hd s0 sp;
    ps_hole : hole (abs m) (x :: s :: ts ++ tw (abs m) s0 :: pre);
    ps_grown : grown (abs m0) (abs m) L (((s0 :: sp) ++ ts) ++ map (tw (abs m)) ((s0 :: sp) ++ ts)) (w0 :: ws) fs;
    ps_band : band (abs m) dF dn (sp ++ [s0]) ts fs;
    ps_rim : leads_through (abs m) ts (ws ++ [w0]);
    ps_s0 : leads (abs m) s0 (og (abs m0) (hd 0 L)) w0;
    ps_ss : target (abs m) s = hd w0 ws;
    ps_nbrs : nbrs (abs m) w0 (og (abs m0) (hd 0 L) :: map (og (abs m)) (firstn 1 (rev ts)));
    ps_pay : map (vp (abs m)) (w0 :: ws) = map Some xs
  }.

  Lemma ps_fresh m0 m L w0 pre x dn s s0 sp ts ws fs xs : pb_state m0 m L w0 pre x dn s s0 sp ts ws fs xs ->
    forall z, In z (x :: s :: ts ++ tw (abs m) s0 :: pre) -> In z L \/ lv (abs m0) z = false.
  Proof.
    intros A z I. pose proof (ps_grown A) as G.
    assert (J : In z L \/ In z (((s0 :: sp) ++ ts) ++ map (tw (abs m)) ((s0 :: sp) ++ ts))).
    { rewrite (ps_L A). destruct I as [<-|[<-|I]].
      - left. inl.
      - right. rewrite (ps_s A). destruct sp; cbn; auto.
      - apply in_app_iff in I as [I|[<-|I]].
        + right. inl.
        + right. apply in_app_iff. right. cbn. auto.
        + left. inl. }
    destruct J as [J|J]; auto. right. apply (gr_new_e G J).
  Qed.

  Lemma pb_round c m0 m L w0 pre y x dn s s0 sp ts ws fs xs start sv k ret xv rest a b d : wf m0 -> loop (abs m0) L ->
    pb_state m0 m L w0 (pre ++ [y]) x dn s s0 sp ts ws fs xs -> fits c m (4 + a) (S b) (S d) ->
    lv (abs m0) start = true -> ret = last ts start ->
    exists m' z ws' sp' ts' fs' w,
      pb_loop dE dF c m 2 2 start sv x ret (xv :: rest) (S k) = pb_loop dE dF c m' 2 2 start sv y (last ts' start) rest k /\
      pb_state m0 m' L w0 pre y (x :: dn) z s0 sp' ts' ws' fs' (hd xv xs :: xv :: tl xs) /\ fits c m' a b d /\
      ws' = w :: ws.
  Proof.
    intros Wm0 HL A F LST RET. pose proof (wfW Wm0) as W0. pose proof (ps_wf A) as Wm. pose proof (wfW Wm) as W.
    pose proof (ps_hole A) as H. pose proof (ps_grown A) as G0.
    set (s0' := tw (abs m) s0) in *.
    assert (Lx : lv (abs m) x = true) by (apply (hole_live H); left; auto).
    assert (Ly : lv (abs m) y = true).
    { apply (hole_live H). right; right. inl. }
    assert (Ls : lv (abs m) s = true) by (apply (hole_live H); right; left; auto).
    assert (EQ : x :: s :: ts ++ s0' :: pre ++ [y] = x :: (s :: ts ++ s0' :: pre) ++ [y]).
    { cbn. f_equal. f_equal. rewrite <- app_assoc. auto. }
    assert (PX : pv (abs m) x = y) by (apply (loop_pv_wrap (p := s :: ts ++ s0' :: pre) W (proj1 H)); auto).
    assert (NY : nx (abs m) y = x) by (apply (loop_nx_wrap (p := s :: ts ++ s0' :: pre) (proj1 H)); auto).
    assert (NX : nx (abs m) x = s) by (apply (loop_nx (proj1 H))).
    cbn [pb_loop]. rewrite (get_prev Wm Lx), PX. cbn [bind]. rewrite (get_gnext Wm Ly), NY. cbn [bind].
    rewrite (get_next Wm Lx), NX. cbn [bind Nat.sub pb_chain back_steps]. rewrite (get_next Wm Ly), NY. cbn [bind].
    assert (H' : hole (abs m) (y :: x :: s :: ts ++ s0' :: pre)).
    { rewrite EQ in H. apply (@hole_rot _ _ _ _ (x :: s :: ts ++ s0' :: pre) [y]) in H. exact H. }
    assert (F1 : fits c m (2 + (2 + a)) (S b) (S d)) by exact F.
    destruct (do_via dE xv Wm F1 H' (eq_sym NY)) as (m1 & w & u & u' & E1 & Wm1 & F2 & G1 & H1 & T1 & T2 & O1 & O2 & Y).
    rewrite E1. cbn [bind]. pose proof (wfW Wm1) as W1.
    assert (Ly1 : lv (abs m1) y = true) by (apply (gr_live_e G1 Ly)).
    rewrite (get_next Wm1 Ly1), (loop_nx (proj1 H1)). cbn [bind].
    assert (H1' : hole (abs m1) (s :: (ts ++ s0' :: pre ++ [y]) ++ u :: [u'; x])).
    { apply (@hole_rot _ _ _ _ (y :: u :: u' :: [x])) in H1.
      assert (Q : (s :: (ts ++ s0' :: pre ++ [y]) ++ [u; u'; x]) = (s :: ts ++ s0' :: pre) ++ [y; u; u'; x]).
      { cbn. rewrite <- !app_assoc. cbn. rewrite <- !app_assoc. auto. }
      rewrite Q. exact H1. }
    assert (TY : target (abs m) y = og (abs m) x).
    { rewrite <- NY. symmetry. apply (wf_ognx W _ Ly). }
    assert (Ix0 : lv (abs m0) x = true).
    { apply (loop_live' HL). rewrite (ps_L A). inl. }
    assert (OX : og (abs m) x = og (abs m0) x) by (apply (gr_og G0 Ix0)).
    assert (NW : nbrs (abs m1) w [target (abs m) y]) by (apply (nbrs_via Wm G1 Ly T1 T2 O1 O2)).
    assert (TS : target (abs m1) s = hd w0 ws) by (rewrite (gr_target W G1 Ls); apply (ps_ss A)).
    assert (FW : forall z, In z (w0 :: ws) -> lvv (abs m0) z = false) by (intros z I; apply (gr_new_v G0 I)).
    assert (VW : lvv (abs m) w = false) by (apply (gr_new_v G1); left; auto).
    assert (TU : target (abs m1) u = w) by (unfold target; rewrite T1; auto).
    assert (NL : forall e, leads (abs m1) e (target (abs m1) s) (target (abs m1) u) -> False).
    { rewrite TU, TS. apply (nbrs_no' W1 NW). intros [Q|[]]. rewrite TY, OX in Q.
      assert (lvv (abs m0) (og (abs m0) x) = true) by (apply (wf_og W0 _ Ix0)).
      assert (lvv (abs m0) (hd w0 ws) = false) by (apply FW; destruct ws; cbn; auto). clash. }
    assert (F3 : fits c m1 (2 + a) b (S d)) by exact F2.
    destruct (do_cface dE dF Wm1 F3 H1' NL) as (m2 & f & z1 & z2 & E2 & Wm2 & F4 & G2 & FI & H2 & T3 & T4 & O3 & O4).
    rewrite E2. cbn [bind]. pose proof (wfW Wm2) as W2.
    (* the combined growth *)
    assert (G12 : grown (abs m) (abs m2) (y :: x :: s :: ts ++ s0' :: pre) ([u; u'] ++ [z1; z2]) ([w] ++ []) ([] ++ [f])).
    { apply (grown_trans G1 G2). intros z I.
      assert (J : In z [u; u'] \/ In z (y :: x :: s :: ts ++ s0' :: pre)).
      { cbn in I |- *. rewrite !in_app_iff in *. cbn in *. rewrite in_app_iff in I. cbn in I. tauto. }
      destruct J as [J|J]; auto. right. apply (gr_new_e G1 J). }
    cbn [app] in G12.
    assert (GT : grown (abs m0) (abs m2) L ((((s0 :: sp) ++ ts) ++ map (tw (abs m)) ((s0 :: sp) ++ ts)) ++ [u; u'; z1; z2])
                   ((w0 :: ws) ++ [w]) (fs ++ [f])).
    { apply (grown_trans G0 G12). intros z I. apply (ps_fresh A). fold s0'. cbn in I |- *. rewrite !in_app_iff in *. cbn in *.
      rewrite in_app_iff. cbn. tauto. }
    assert (LA : forall e, In e ((s0 :: sp) ++ ts) -> lv (abs m) e = true).
    { intros e I. apply (gr_e G0). right. apply in_app_iff. auto. }
    assert (LT : forall t, In t ts -> lv (abs m) t = true) by (intros t I; apply LA; inl).
    assert (LS0 : lv (abs m) s0 = true) by (apply LA; left; auto).
    assert (Lu : lv (abs m1) u = true) by (apply (gr_new_e G1); left; auto).
    assert (Lu' : lv (abs m1) u' = true) by (apply (gr_new_e G1); right; left; auto).
    assert (T1' : tw (abs m2) u = u') by (rewrite (gr_tw G2 Lu); auto).
    assert (Lz1 : lv (abs m2) z1 = true) by (apply (gr_new_e G2); left; auto).
    assert (Lz2 : lv (abs m2) z2 = true) by (apply (gr_new_e G2); right; left; auto).
    assert (FN : forall z, In z (y :: x :: s :: ts ++ s0' :: pre) -> fc (abs m) z = None) by (apply (proj2 H')).
    assert (OZ2 : og (abs m2) z2 = w) by (rewrite O4; exact TU).
    assert (RET' : (let* r := if ret =? start then let* q := g_next m2 s in twin_id m2 q else Ok ret in
                    pb_loop dE dF c m2 2 2 start sv y r rest k) =
                   pb_loop dE dF c m2 2 2 start sv y (last (z2 :: ts) start) rest k).
    { assert (Ls2 : lv (abs m2) s = true) by (apply (gr_live_e G12 Ls)).
      destruct ts as [|t ts'].
      - cbn [last] in RET. subst ret. rewrite Nat.eqb_refl. rewrite (get_gnext Wm2 Ls2).
        destruct FI as (_ & _ & FI & _). rewrite (loop_nx FI). cbn [bind]. rewrite (get_twin Wm2 Lz1), T3. auto.
      - assert (Q : ret <> start).
        { intros Q. assert (I : In ret (t :: ts')) by (rewrite RET; destruct (@exists_last _ (t :: ts')) as (p & q & ->);
            [discriminate|rewrite last_last; inl]).
          assert (lv (abs m0) ret = false) by (apply (gr_new_e G0); inl). clash. }
        apply Nat.eqb_neq in Q. rewrite Q. cbn [bind]. rewrite RET. auto. }
    exists m2, u, (w :: ws), (u :: sp), (z2 :: ts), (f :: fs), w. split; [exact RET'|]. split; [|split; auto].
    split; auto.
    - rewrite (ps_L A), <- app_assoc. auto.
    - rewrite (gr_tw G12 LS0). fold s0'.
      apply (@hole_rot _ _ _ _ (u :: z2 :: ts ++ s0' :: pre) [y]).
      assert (Q : (u :: z2 :: ts ++ s0' :: pre) ++ [y] = u :: z2 :: (ts ++ s0' :: pre ++ [y])).
      { cbn. rewrite <- app_assoc. auto. }
      rewrite Q. exact H2.
    - eapply grown_perm; [exact GT|..|].
      + replace (map (tw (abs m2)) ((s0 :: u :: sp) ++ z2 :: ts)) with
          ((tw (abs m) s0) :: u' :: map (tw (abs m)) sp ++ z1 :: map (tw (abs m)) ts).
        * perm.
        * rewrite map_app. cbn [map app]. rewrite T1', T4, (gr_tw G12 LS0). f_equal. f_equal. f_equal; [|f_equal];
            symmetry; apply (map_tw_grown G12); intros e I; apply LA; inl.
      + perm.
      + perm.
    - assert (B : band (abs m2) dF dn (sp ++ [s0]) ts fs).
      { eapply band_keep; [exact W|exact G12|exact FN|apply (ps_band A)|exact LT]. }
      assert (K : leads (abs m2) u (og (abs m2) x) (og (abs m2) z2)).
      { split; [apply (gr_live_e G2 Lu)|]. split.
        - rewrite (gr_og G2 Lu), O1, TY, (gr_og G12 Lx). auto.
        - rewrite (gr_target W1 G2 Lu), TU, OZ2. auto. }
      assert (K2 : face_is (abs m2) f [x; s; tw (abs m2) z2; tw (abs m2) u] dF false).
      { rewrite T4, T1'. apply (@face_is_rot _ _ _ _ _ [s; z1; u'] [x]). exact FI. }
      rewrite (ps_s A) in K2. cbn [app band]. destruct sp as [|q sp]; cbn [app hd] in *; auto.
    - pose proof (lt_grown W G12 (ps_rim A)) as RM. cbn [app]. pose proof (ps_ss A) as SS.
      assert (K : leads (abs m2) z2 w (hd w0 ws)).
      { split; auto. split; auto. unfold target. rewrite T4, O3. auto. }
      destruct ws as [|w1 ws]; cbn [app hd] in *; cbn [leads_through]; auto.
    - eapply gr_leads; [exact W|exact G12|apply (ps_s0 A)].
    - cbn [hd]. rewrite (gr_target W1 G2 Lu). auto.
    - (* neighbours of the first new vertex *)
      assert (NE : forall e, In e [u; u'] -> og (abs m1) e <> w0).
      { intros e [<-|[<-|[]]].
        - rewrite O1, TY, OX. intros Q. assert (lvv (abs m0) w0 = false) by (apply FW; left; auto).
          assert (lvv (abs m0) (og (abs m0) x) = true) by (apply (wf_og W0 _ Ix0)). clash.
        - rewrite O2. intros ->. assert (lvv (abs m) w0 = true) by (apply (gr_new_v G0); left; auto). clash. }
      pose proof (nbrs_old W W1 G1 (ps_nbrs A) NE) as N1.
      eapply nbrs_pair; [exact W1|exact G2|exact T3|exact T4|exact N1|..].
      + intros Q. destruct ts as [|t ts'].
        * right. cbn. left. auto.
        * exfalso. pose proof (lt_length (ps_rim A)) as LN. rewrite app_length in LN. cbn in LN.
          destruct ws as [|w1 ws]; [cbn in LN; lia|]. cbn [hd] in TS. rewrite O3, TS in Q. subst w1.
          pose proof (proj1 (gr_v G0)) as ND. apply NoDup_cons_iff in ND. apply (proj1 ND). left; auto.
      + intros Q. exfalso. rewrite OZ2 in Q. subst w. assert (lvv (abs m) w0 = true) by (apply (gr_new_v G0); left; auto). clash.
      + intros z [<-|I]; [left; auto|]. right. destruct ts as [|t ts']; [destruct I|].
        assert (Q : firstn 1 (rev (z2 :: t :: ts')) = firstn 1 (rev (t :: ts'))).
        { cbn [rev]. rewrite <- app_assoc. destruct (@exists_last _ (rev (t :: ts'))) as (pp & qq & _).
          - cbn. intros Q. apply app_eq_nil in Q as [_ Q]. discriminate.
          - destruct (rev ts'); auto. }
        rewrite Q. apply in_map_iff in I as (q & Q1 & Q2). apply in_map_iff. exists q. split; auto. rewrite <- Q1.
        apply (gr_og G12). apply LT. apply in_rev. rewrite <- (firstn_skipn 1). apply in_app_iff. auto.
    - cbn [map]. pose proof (ps_pay A) as P. cbn [map] in P. destruct xs as [|x0 xs]; [discriminate|]. cbn [map] in P.
      assert (P1 : vp (abs m) w0 = Some x0) by exact (f_equal (hd None) P).
      assert (P2 : map (vp (abs m)) ws = map Some xs) by exact (f_equal (@tl _) P).
      cbn [hd tl map]. rewrite (gr_vp G12), P1; [|apply (gr_new_v G0); left; auto]. f_equal. f_equal.
      + rewrite (gr_vp G2), Y; auto. apply (gr_new_v G1). left; auto.
      + rewrite <- P2. apply (map_vp_grown G12). intros v I. apply (gr_new_v G0). right; auto.
  Qed.

  Lemma pb_rounds c m0 L w0 s0 start sv : wf m0 -> loop (abs m0) L -> lv (abs m0) start = true ->
    forall rest m pre x dn s sp ts ws fs xs a b d,
    pb_state m0 m L w0 pre x dn s s0 sp ts ws fs xs -> length rest <= length pre ->
    fits c m (4 * length rest + a) (length rest + b) (length rest + d) ->
    exists m' pre' x' q s' sp' ts' ws' fs',
      pb_loop dE dF c m 2 2 start sv x (last ts start) rest (S (length rest)) =
        pb_loop dE dF c m' 2 2 start sv x' (last ts' start) [] 1 /\
      pb_state m0 m' L w0 pre' x' (q ++ dn) s' s0 sp' ts' ws' fs' (firstn 1 xs ++ rev rest ++ tl xs) /\ fits c m' a b d /\
      pre ++ [x] = (pre' ++ [x']) ++ q /\ length q = length rest.
  Proof.
    intros Wm0 HL LST. induction rest as [|xv rest IH]; intros m pre x dn s sp ts ws fs xs a b d A LN F.
    - exists m, pre, x, [], s, sp, ts, ws, fs. cbn [rev app length] in *. rewrite app_nil_r. split; auto.
      assert (EX : firstn 1 xs ++ tl xs = xs) by (destruct xs; auto). rewrite EX.
      split; auto.
    - destruct (@exists_last _ pre) as (pre1 & y & ->); [intros ->; cbn in LN; lia|].
      rewrite app_length in LN. cbn [length] in *.
      assert (F1 : fits c m (4 + (4 * length rest + a)) (S (length rest + b)) (S (length rest + d))).
      { eapply fits_le; eauto; try apply A; lia. }
      destruct (pb_round sv (S (length rest)) xv rest Wm0 HL A F1 LST eq_refl)
        as (m1 & z & ws1 & sp1 & ts1 & fs1 & w & E & A1 & F2 & _).
      destruct (IH m1 pre1 y (x :: dn) z sp1 ts1 ws1 fs1 _ a b d A1) as (m' & pre' & x' & q & s' & sp' & ts' & ws' & fs' & E' & A' & F' & Q1 & Q2); auto.
      { lia. }
      exists m', pre', x', (q ++ [x]), s', sp', ts', ws', fs'.
      split; [rewrite E; exact E'|]. split.
      + cbn [firstn tl] in A'. rewrite <- !app_assoc. cbn [rev app].
        pose proof (ps_pay A) as P. destruct xs as [|x0 xs]; [discriminate|]. cbn [hd tl firstn app] in *.
        rewrite <- app_assoc. cbn [app]. exact A'.
      + split; auto. split; [rewrite Q1, <- !app_assoc; auto|]. rewrite app_length. cbn. lia.
  Qed.

  Lemma lt_og g es vs e v w : leads_through g (es ++ [e]) (vs ++ [v; w]) -> og g e = v.
  Proof.
    revert vs. induction es as [|a es IH]; intros vs H.
    - destruct vs as [|x [|y vs]]; cbn in *; [apply H|destruct H as [_ []]|]. destruct H as [_ H]. destruct vs; cbn in H; tauto.
    - destruct vs as [|x vs]; cbn in *; [destruct (es ++ [e]) eqn:Q; [destruct es; discriminate|]; destruct H as [_ []]; destruct l; auto|].
      destruct (vs ++ [v; w]) eqn:Q; [destruct vs; discriminate|]. destruct H as [_ H]. rewrite <- Q in H. apply (IH vs H).
  Qed.

  Lemma pb_close c m0 m L w0 x dn s s0 sp ts ws fs xs start a b d : wf m0 -> loop (abs m0) L ->
    pb_state m0 m L w0 [] x dn s s0 sp ts ws fs xs -> 2 <= length dn -> fits c m (2 + a) b (S d) ->
    exists m' z f, pb_loop dE dF c m 2 2 start (og (abs m0) (hd 0 L)) x (last ts start) [] 1 = Ok (m', last ts 0) /\
      wf m' /\ fits c m' a b d /\
      band_built (abs m0) (abs m') L xs dF (s0 :: sp) (z :: ts) (w0 :: ws) (f :: fs).
  Proof.
    intros Wm0 HL A N F. pose proof (wfW Wm0) as W0. pose proof (ps_wf A) as Wm. pose proof (wfW Wm) as W.
    pose proof (ps_hole A) as H. pose proof (ps_grown A) as G0.
    destruct (band_length (ps_band A)) as (_ & LT & _).
    destruct (@exists_last _ ts) as (ts' & y & ET); [intros ->; cbn in LT; lia|].
    pose proof (lt_length (ps_rim A)) as LW. rewrite app_length in LW. cbn in LW.
    destruct ws as [|w1 ws1]; [cbn in LW; lia|].
    destruct (@exists_last _ ws1) as (ws' & wl & EW); [intros ->; cbn in LW; lia|].
    set (s0' := tw (abs m) s0) in *. pose proof (ps_L A) as EL. cbn [app] in EL.
    assert (LA : forall e, In e ((s0 :: sp) ++ ts) -> lv (abs m) e = true).
    { intros e I. apply (gr_e G0). right. apply in_app_iff. auto. }
    assert (LTS : forall t, In t ts -> lv (abs m) t = true) by (intros t I; apply LA; inl).
    assert (LS0 : lv (abs m) s0 = true) by (apply LA; left; auto).
    assert (LS0' : lv (abs m) s0' = true) by (apply (wf_tw W _ LS0)).
    assert (Lx : lv (abs m) x = true) by (apply (hole_live H); left; auto).
    assert (Lx0 : lv (abs m0) x = true) by (apply (loop_live' HL); rewrite EL; left; auto).
    assert (PX : pv (abs m) x = s0') by (apply (loop_pv_wrap (p := s :: ts) W (proj1 H)); auto).
    assert (N0 : nx (abs m) s0' = x) by (apply (loop_nx_wrap (p := s :: ts) (proj1 H)); auto).
    assert (NX : nx (abs m) x = s) by (apply (loop_nx (proj1 H))).
    assert (PS : pv (abs m) s0' = y).
    { apply (loop_pv_at (l := x :: s :: ts ++ [s0']) (p := x :: s :: ts') (q := []) W (proj1 H)).
      rewrite ET, <- app_assoc. auto. }
    cbn [pb_loop]. rewrite (get_prev Wm Lx), PX. cbn [bind]. rewrite (get_gnext Wm LS0'), N0. cbn [bind].
    rewrite (get_next Wm Lx), NX. cbn [bind Nat.sub pb_chain back_steps]. rewrite (get_target Wm LS0'). cbn [bind].
    assert (T0 : target (abs m) s0' = og (abs m0) (hd 0 L)).
    { unfold target, s0'. rewrite (wf_twtw W) by auto. apply (ps_s0 A). }
    rewrite T0, Nat.eqb_refl. rewrite (get_prev Wm LS0'), PS. cbn [bind].
    assert (H' : hole (abs m) (s :: ts' ++ y :: [s0'; x])).
    { apply (@hole_rot _ _ _ _ [x] (s :: ts ++ [s0'])) in H. rewrite ET in H. cbn [app] in H. rewrite <- !app_assoc in H. exact H. }
    assert (FW : forall z, In z (w0 :: w1 :: ws1) -> lvv (abs m0) z = false) by (intros z I; apply (gr_new_v G0 I)).
    assert (RM : leads_through (abs m) (ts' ++ [y]) ((w1 :: ws') ++ [wl; w0])).
    { pose proof (ps_rim A) as R. rewrite ET, EW in R. cbn [app] in *. rewrite <- app_assoc in R. exact R. }
    assert (OY : og (abs m) y = wl) by (apply (lt_og RM)).
    assert (TY : target (abs m) y = w0).
    { apply (@lt_last _ _ _ _ ts' y ((w1 :: ws') ++ [wl])). rewrite <- app_assoc. exact RM. }
    assert (NL : forall e, leads (abs m) e (target (abs m) s) (target (abs m) y) -> False).
    { rewrite TY, (ps_ss A). cbn [hd]. apply (nbrs_no' W (ps_nbrs A)).
      rewrite ET, rev_app_distr. cbn [rev app firstn map]. rewrite OY. intros [Q|[Q|[]]].
      - assert (lvv (abs m0) w1 = false) by (apply FW; right; left; auto).
        assert (lvv (abs m0) (og (abs m0) (hd 0 L)) = true) by (rewrite EL; apply (wf_og W0 _ Lx0)). clash.
      - pose proof (proj1 (gr_v G0)) as ND. apply NoDup_cons_iff, proj2, NoDup_cons_iff, proj1 in ND. apply ND.
        rewrite EW. subst wl. inl. }
    destruct (do_cface dE dF Wm F H' NL) as (m1 & f & z1 & z2 & E2 & Wm2 & F4 & G2 & FI & H2 & T3 & T4 & O3 & O4).
    rewrite E2. cbn [bind].
    exists m1, z2, f. split; [rewrite ET, !last_last; auto|]. split; auto. split; auto.
    assert (FN : forall z, In z (s :: ts' ++ y :: [s0'; x]) -> fc (abs m) z = None) by (apply (proj2 H')).
    assert (Lz2 : lv (abs m1) z2 = true) by (apply (gr_new_e G2); right; left; auto).
    split.
    - assert (GT : grown (abs m0) (abs m1) L ((((s0 :: sp) ++ ts) ++ map (tw (abs m)) ((s0 :: sp) ++ ts)) ++ [z1; z2])
                   ((w0 :: w1 :: ws1) ++ []) (fs ++ [f])).
      { apply (grown_trans G0 G2). intros z I. apply (ps_fresh A). fold s0'. rewrite ET. revert I. inl. }
      rewrite app_nil_r in GT. eapply grown_perm; [exact GT|..|].
      + replace (map (tw (abs m1)) ((s0 :: sp) ++ z2 :: ts)) with (map (tw (abs m)) (s0 :: sp) ++ z1 :: map (tw (abs m)) ts).
        * perm.
        * rewrite (map_app (tw (abs m1))). f_equal; [symmetry; apply (map_tw_grown G2); intros e I; apply LA; apply in_app_iff; auto|].
          cbn [map]. rewrite T4. f_equal. symmetry; apply (map_tw_grown G2); auto.
      + apply Permutation_refl.
      + perm.
    - assert (B : band (abs m1) dF dn (sp ++ [s0]) ts fs).
      { eapply band_keep; [exact W|exact G2|exact FN|apply (ps_band A)|exact LTS]. }
      assert (K : leads (abs m1) s0 (og (abs m1) x) (og (abs m1) z2)).
      { rewrite O4, TY, (gr_og G2 Lx), (gr_og G0 Lx0). pose proof (gr_leads W G2 (ps_s0 A)) as K. rewrite EL in K. exact K. }
      assert (K2 : face_is (abs m1) f [x; s; tw (abs m1) z2; tw (abs m1) s0] dF false).
      { rewrite T4, (gr_tw G2 LS0). apply (@face_is_rot _ _ _ _ _ [s; z1; s0'] [x]). exact FI. }
      rewrite (ps_s A) in K2. rewrite EL. cbn [app firstn band]. destruct sp as [|q sp]; cbn [app hd] in *; auto.
    - pose proof (lt_grown W G2 (ps_rim A)) as R. cbn [app firstn] in *.
      split; auto. split; auto. split; [rewrite O4; exact TY|]. unfold target. rewrite T4, O3, (ps_ss A). auto.
    - rewrite ET. apply (@hole_rot _ _ _ _ [y] (z2 :: ts')). exact H2.
    - rewrite <- (ps_pay A). apply (map_vp_grown G2). intros v I. apply (gr_new_v G0 I).
  Qed.

  Lemma pb_first c m start t y a b d : wf m -> hole (abs m) (start :: t) -> fits c m (2 + a) (S b) d ->
    exists m1 v e1 e2, via dE c m start (nx (abs m) start) y = Ok (m1, v, e1, e2) /\ fits c m1 a b d /\
      pb_state m m1 (t ++ [start]) v t start [] e1 e1 [] [] [] [] [y].
  Proof.
    intros Wm H F. pose proof (wfW Wm) as W.
    destruct (do_via dE y Wm F H eq_refl) as (m1 & v & e1 & e2 & E & Wm1 & F1 & G & H1 & T1 & T2 & O1 & O2 & Y).
    assert (Ls : lv (abs m) start = true) by (apply (hole_live H); left; auto).
    exists m1, v, e1, e2. split; auto. split; auto.
    assert (O : target (abs m) start = og (abs m) (hd 0 (t ++ [start]))).
    { destruct t as [|e t]; cbn [app hd]; [|symmetry; apply (loop_og W (proj1 H))].
      rewrite <- (loop_nx_one (proj1 H)) at 2. symmetry. apply (wf_ognx W _ Ls). }
    split; auto.
    - rewrite T1. exact H1.
    - cbn [app map]. rewrite T1. eapply grown_weaken; [exact G|]. intros z. inl.
    - cbn. auto.
    - cbn. auto.
    - split; [apply (gr_new_e G); left; auto|]. split; [rewrite O1; exact O|]. unfold target. rewrite T1; auto.
    - unfold target. rewrite T1; auto.
    - rewrite <- O. apply (nbrs_via Wm G Ls T1 T2 O1 O2).
    - cbn [map]. rewrite Y. auto.
  Qed.

  (** [loft_polygon_back] with quads, once around the hole: the first payload belongs to the target
      of [start], the others follow backwards. *)
  Lemma loft_back_total c m start t y ys a b d : wf m -> let n := length (start :: t) in
    hole (abs m) (start :: t) -> 3 <= n -> length (y :: ys) = n ->
    fits c m (4 * n + a) (n + b) (n + d) ->
    exists m' ps ts vs fs, loft_polygon_back dE dF c m start 2 2 (y :: ys) = Ok (m', last ts 0) /\ wf m' /\ fits c m' a b d /\
      length ts = n /\ band_built (abs m) (abs m') (t ++ [start]) (y :: rev ys) dF ps ts vs fs.
  Proof.
    intros Wm n H N LY F. pose proof (wfW Wm) as W.
    assert (Ls : lv (abs m) start = true) by (apply (hole_live H); left; auto).
    cbn [length] in LY.
    assert (F0 : fits c m (2 + (4 * length ys + (2 + a))) (S (length ys + b)) (length ys + S d)).
    { eapply fits_le; eauto; lia. }
    destruct (pb_first y Wm H F0) as (m1 & v & e1 & e2 & E & F1 & A).
    assert (HL : loop (abs m) (t ++ [start])) by (apply (@loop_rot _ _ _ _ [start] t); apply H).
    assert (LN : length ys <= length t) by (cbn in *; lia).
    destruct (pb_rounds (target (abs m) start) Wm HL Ls A LN F1)
      as (m2 & pre & x & q & s & sp & ts & ws & fs & E2 & A2 & F2 & Q1 & Q2).
    assert (pre = []).
    { pose proof (f_equal (@length _) Q1) as Q. rewrite !app_length in Q. cbn in *. destruct pre; auto. cbn in *; lia. }
    subst pre. rewrite app_nil_r in A2. cbn [firstn tl app] in A2. rewrite app_nil_r in A2.
    assert (LQ : 2 <= length q) by (cbn in *; lia).
    destruct (pb_close start Wm HL A2 LQ F2) as (m3 & z & f & E3 & Wm3 & F3 & B).
    assert (O : target (abs m) start = og (abs m) (hd 0 (t ++ [start]))).
    { destruct t as [|e t]; cbn [app hd]; [cbn in *; lia|]. symmetry; apply (loop_og W (proj1 H)). }
    exists m3, (e1 :: sp), (z :: ts), (v :: ws), (f :: fs).
    unfold loft_polygon_back. cbn [Nat.leb assert]. rewrite (get_target Wm Ls). cbn [bind]. rewrite (get_next Wm Ls). cbn [bind].
    rewrite E. cbn [bind]. cbn [last] in E2. rewrite E2, O, E3.
    assert (LT : length ts = length q) by apply (band_length (ps_band A2)).
    split; [destruct ts; [cbn in LT; lia|auto]|]. split; auto. split; auto. split; auto. cbn in *; lia.
  Qed.

  (** * Forwards *)
  Lemma app_cons_last {A} (l : list A) x : exists p q, x :: l = p ++ [q] /\ q = last l x.
  Proof.
    exists (removelast (x :: l)), (last (x :: l) x). split; [apply app_removelast_last; discriminate|].
    destruct l; reflexivity.
  Qed.

  Record pf_state m0 m L w0 dn x pre s0 s sp ts vs w fs xs : Prop := {
    qs_wf : wf m;
    qs_L : L = dn ++ x :: pre;
    qs_s : hd 0 (sp ++ [s]) = s0;
    qs_hole : hole (abs m) (s0 :: ts ++ tw (abs m) s :: x :: pre);
    qs_grown : grown (abs m0) (abs m) L (((sp ++ [s]) ++ ts) ++ map (tw (abs m)) ((sp ++ [s]) ++ ts)) (vs ++ [w]) fs;
    qs_band : band (abs m) dF dn (sp ++ [s]) ts fs;
    qs_w0 : hd 0 (vs ++ [w]) = w0;
    qs_rim : leads_through (abs m) ts (vs ++ [w]);
    qs_s0 : leads (abs m) s0 (og (abs m0) (hd 0 L)) w0;
    qs_x : leads (abs m) s (og (abs m0) x) w;
    qs_ll : target (abs m) (last ts s0) = w;
    qs_nbrs : nbrs (abs m) w0 (og (abs m0) (hd 0 L) :: map (target (abs m)) (firstn 1 ts));
    qs_pay : map (vp (abs m)) (vs ++ [w]) = map Some xs
  }.

  Lemma qs_fresh m0 m L w0 dn x pre s0 s sp ts vs w fs xs : pf_state m0 m L w0 dn x pre s0 s sp ts vs w fs xs ->
    forall z, In z (s0 :: ts ++ tw (abs m) s :: x :: pre) -> In z L \/ lv (abs m0) z = false.
  Proof.
    intros A z I. pose proof (qs_grown A) as G.
    assert (J : In z L \/ In z (((sp ++ [s]) ++ ts) ++ map (tw (abs m)) ((sp ++ [s]) ++ ts))).
    { rewrite (qs_L A). destruct I as [<-|I].
      - right. rewrite <- (qs_s A). destruct sp; cbn; auto.
      - apply in_app_iff in I as [I|[<-|[<-|I]]].
        + right. inl.
        + right. apply in_app_iff. right. apply in_map. inl.
        + left. inl.
        + left. inl. }
    destruct J as [J|J]; auto. right. apply (gr_new_e G J).
  Qed.

  Lemma pf_round c m0 m L w0 dn x y pre s0 s sp ts vs w fs xs start sv ret xv rest a b d : wf m0 -> loop (abs m0) L ->
    pf_state m0 m L w0 dn x (y :: pre) s0 s sp ts vs w fs xs -> fits c m (4 + a) (S b) (S d) ->
    lv (abs m0) start = true -> ret = hd start ts ->
    exists m' u ts' fs' w',
      pf_loop dE dF c m 2 2 start sv x ret (xv :: rest) = pf_loop dE dF c m' 2 2 start sv y (hd start ts') rest /\
      pf_state m0 m' L w0 (dn ++ [x]) y pre s0 u (sp ++ [s]) ts' (vs ++ [w]) w' fs' (xs ++ [xv]) /\ fits c m' a b d.
  Proof.
    intros Wm0 HL A F LST RET. pose proof (wfW Wm0) as W0. pose proof (qs_wf A) as Wm. pose proof (wfW Wm) as W.
    pose proof (qs_hole A) as H. pose proof (qs_grown A) as G0.
    set (s' := tw (abs m) s) in *.
    assert (Lx : lv (abs m) x = true) by (apply (hole_live H); inl).
    assert (Ly : lv (abs m) y = true) by (apply (hole_live H); inl).
    assert (Ls' : lv (abs m) s' = true) by (apply (hole_live H); inl).
    assert (Ls : lv (abs m) s = true) by apply (qs_x A).
    destruct (app_cons_last ts s0) as (pt & l & EL & EL').
    assert (Ll : lv (abs m) l = true).
    { apply (hole_live H). rewrite app_comm_cons, EL. inl. }
    assert (NX : nx (abs m) x = y) by (apply (loop_nx_at (p := s0 :: ts ++ [s']) (q := pre) (proj1 H)); cbn; rewrite <- app_assoc; auto).
    assert (PY : pv (abs m) y = x) by (apply (loop_pv_at (p := s0 :: ts ++ [s']) (q := pre) W (proj1 H)); cbn; rewrite <- app_assoc; auto).
    assert (PX : pv (abs m) x = s') by (apply (loop_pv_at (p := s0 :: ts) (q := y :: pre) W (proj1 H)); auto).
    cbn [pf_loop]. rewrite (get_next Wm Lx), NX. cbn [bind Nat.eqb assert]. rewrite (get_gprev Wm Ly), PY. cbn [bind].
    rewrite (get_prev Wm Lx), PX. cbn [bind]. rewrite (get_prev Wm Ly), PY. cbn [bind].
    assert (H' : hole (abs m) (x :: y :: pre ++ s0 :: ts ++ [s'])).
    { apply (@hole_rot _ _ _ _ (s0 :: ts ++ [s']) (x :: y :: pre)). cbn [app]. rewrite <- app_assoc. exact H. }
    assert (F1 : fits c m (2 + (2 + a)) (S b) (S d)) by exact F.
    destruct (do_via dE xv Wm F1 H' (eq_sym NX)) as (m1 & w' & u & u' & E1 & Wm1 & F2 & G1 & H1 & T1 & T2 & O1 & O2 & Y).
    rewrite E1. cbn [bind]. pose proof (wfW Wm1) as W1.
    assert (Ly1 : lv (abs m1) y = true) by (apply (gr_live_e G1 Ly)).
    assert (Lu : lv (abs m1) u = true) by (apply (gr_new_e G1); left; auto).
    assert (Lu' : lv (abs m1) u' = true) by (apply (gr_new_e G1); right; left; auto).
    assert (Ls1' : lv (abs m1) s' = true) by (apply (gr_live_e G1 Ls')).
    rewrite (get_gprev Wm1 Ly1).
    rewrite (loop_pv_at (a := u') (p := [x; u]) (q := pre ++ s0 :: ts ++ [s']) W1 (proj1 H1) eq_refl). cbn [bind].
    rewrite (get_twin Wm1 Lu'), T2. cbn [bind]. rewrite (get_prev Wm1 Ls1').
    assert (H1' : hole (abs m1) (u :: (u' :: y :: pre ++ pt) ++ l :: [s'; x])).
    { apply (@hole_rot _ _ _ _ [x] (u :: u' :: y :: pre ++ s0 :: ts ++ [s'])) in H1.
      rewrite (app_comm_cons ts), EL in H1. cbn [app] in H1 |- *. rewrite <- !app_assoc in *. exact H1. }
    rewrite (loop_pv_at (a := l) (p := u :: u' :: y :: pre ++ pt) (q := [x]) W1 (proj1 H1')) by (cbn; rewrite <- !app_assoc; auto).
    cbn [bind].
    assert (TX : target (abs m) x = og (abs m) y).
    { rewrite <- NX. symmetry. apply (wf_ognx W _ Lx). }
    assert (Iy0 : lv (abs m0) y = true).
    { apply (loop_live' HL). rewrite (qs_L A). inl. }
    assert (Ix0 : lv (abs m0) x = true).
    { apply (loop_live' HL). rewrite (qs_L A). inl. }
    assert (OY : og (abs m) y = og (abs m0) y) by (apply (gr_og G0 Iy0)).
    assert (NW : nbrs (abs m1) w' [target (abs m) x]) by (apply (nbrs_via Wm G1 Lx T1 T2 O1 O2)).
    assert (TL : target (abs m1) l = w) by (rewrite (gr_target W G1 Ll), EL'; apply (qs_ll A)).
    assert (FW : forall z, In z (vs ++ [w]) -> lvv (abs m0) z = false) by (intros z I; apply (gr_new_v G0 I)).
    assert (IW0 : In w0 (vs ++ [w])) by (rewrite <- (qs_w0 A); destruct vs; cbn; auto).
    assert (VW : lvv (abs m) w' = false) by (apply (gr_new_v G1); left; auto).
    assert (TU : target (abs m1) u = w') by (unfold target; rewrite T1; auto).
    assert (OYL : lvv (abs m0) (og (abs m0) y) = true) by (apply (wf_og W0 _ Iy0)).
    assert (NL : forall e, leads (abs m1) e (target (abs m1) u) (target (abs m1) l) -> False).
    { rewrite TU, TL. apply (nbrs_no NW). intros [Q|[]]. rewrite TX, OY in Q.
      assert (lvv (abs m0) w = false) by (apply FW; inl). clash. }
    assert (F3 : fits c m1 (2 + a) b (S d)) by exact F2.
    destruct (do_cface dE dF Wm1 F3 H1' NL) as (m2 & f & z1 & z2 & E2 & Wm2 & F4 & G2 & FI & H2 & T3 & T4 & O3 & O4).
    rewrite E2. cbn [bind]. pose proof (wfW Wm2) as W2.
    assert (G12 : grown (abs m) (abs m2) (s0 :: ts ++ s' :: x :: y :: pre) ([u; u'] ++ [z1; z2]) ([w'] ++ []) ([] ++ [f])).
    { assert (G1' : grown (abs m) (abs m1) (s0 :: ts ++ s' :: x :: y :: pre) [u; u'] [w'] []) by
        (eapply grown_weaken; [exact G1|intros z; inl]).
      apply (grown_trans G1' G2). intros z I.
      assert (J : In z [u; u'] \/ In z (s0 :: ts ++ s' :: x :: y :: pre)).
      { rewrite (app_comm_cons ts), EL. revert I. inl. }
      destruct J as [J|J]; auto. right. apply (gr_new_e G1 J). }
    cbn [app] in G12.
    assert (GT : grown (abs m0) (abs m2) L ((((sp ++ [s]) ++ ts) ++ map (tw (abs m)) ((sp ++ [s]) ++ ts)) ++ [u; u'; z1; z2])
                   ((vs ++ [w]) ++ [w']) (fs ++ [f])).
    { apply (grown_trans G0 G12). intros z I. apply (qs_fresh A). exact I. }
    assert (LA : forall e, In e ((sp ++ [s]) ++ ts) -> lv (abs m) e = true).
    { intros e I. apply (gr_e G0). right. apply in_app_iff. auto. }
    assert (LT : forall t, In t ts -> lv (abs m) t = true) by (intros t I; apply LA; inl).
    assert (T1' : tw (abs m2) u = u') by (rewrite (gr_tw G2 Lu); auto).
    assert (Lz1 : lv (abs m2) z1 = true) by (apply (gr_new_e G2); left; auto).
    assert (Lz2 : lv (abs m2) z2 = true) by (apply (gr_new_e G2); right; left; auto).
    assert (FN : forall z, In z (s0 :: ts ++ s' :: x :: y :: pre) -> fc (abs m) z = None) by (apply (proj2 H)).
    assert (OZ2 : og (abs m2) z2 = w) by (rewrite O4; exact TL).
    assert (TZ2 : target (abs m2) z2 = w') by (unfold target; rewrite T4, O3; auto).
    assert (RET' : (let* r := if ret =? start then let* q := g_prev m2 s' in twin_id m2 q else Ok ret in
                    pf_loop dE dF c m2 2 2 start sv y r rest) =
                   pf_loop dE dF c m2 2 2 start sv y (hd start (ts ++ [z2])) rest).
    { assert (Ls2 : lv (abs m2) s' = true) by (apply (gr_live_e G12 Ls')).
      destruct ts as [|t ts'].
      - cbn [hd] in RET. subst ret. rewrite Nat.eqb_refl. rewrite (get_gprev Wm2 Ls2).
        destruct FI as (_ & _ & FI & _). rewrite (loop_pv_at (a := z1) (p := [u]) (q := [x]) W2 FI eq_refl).
        cbn [bind]. rewrite (get_twin Wm2 Lz1), T3. auto.
      - assert (Q : ret <> start).
        { intros Q. assert (I : In ret (t :: ts')) by (rewrite RET; cbn; auto).
          assert (lv (abs m0) ret = false) by (apply (gr_new_e G0); inl). clash. }
        apply Nat.eqb_neq in Q. rewrite Q. cbn [bind]. rewrite RET. auto. }
    exists m2, u, (ts ++ [z2]), (fs ++ [f]), w'. split; [exact RET'|]. split; [|auto].
    assert (IS0 : In s0 (sp ++ [s])) by (rewrite <- (qs_s A); destruct sp; cbn; auto).
    split; auto.
    - rewrite (qs_L A), <- app_assoc. auto.
    - rewrite <- (qs_s A). destruct sp; auto.
    - rewrite T1'.
      apply (@hole_rot _ _ _ _ (l :: z2 :: u' :: y :: pre) pt) in H2.
      assert (Q : s0 :: (ts ++ [z2]) ++ u' :: y :: pre = pt ++ l :: z2 :: u' :: y :: pre).
      { rewrite <- app_assoc. cbn [app]. change (s0 :: ts ++ z2 :: u' :: y :: pre) with ((s0 :: ts) ++ z2 :: u' :: y :: pre).
        rewrite EL, <- app_assoc. auto. }
      rewrite Q. exact H2.
    - eapply grown_perm; [exact GT|..|].
      + replace (map (tw (abs m2)) (((sp ++ [s]) ++ [u]) ++ ts ++ [z2])) with
          (map (tw (abs m)) (sp ++ [s]) ++ u' :: map (tw (abs m)) ts ++ [z1]).
        * perm.
        * rewrite (map_app (tw (abs m2)) ((sp ++ [s]) ++ [u])), (map_app (tw (abs m2)) (sp ++ [s])), (map_app (tw (abs m2)) ts).
          cbn [map]. rewrite T1', T4, <- app_assoc. cbn [app]. f_equal; [|f_equal; f_equal];
            symmetry; apply (map_tw_grown G12); intros e I; apply LA; apply in_app_iff; auto.
      + apply Permutation_refl.
      + apply Permutation_refl.
    - assert (B : band (abs m2) dF dn (sp ++ [s]) ts fs).
      { eapply band_keep; [exact W|exact G12|exact FN|apply (qs_band A)|exact LT]. }
      apply band_snoc; auto.
      + rewrite OZ2, (gr_og G12 Lx), (gr_og G0 Ix0). eapply gr_leads; [exact W|exact G12|apply (qs_x A)].
      + rewrite T4, (gr_tw G12 Ls). fold s'. apply (@face_is_rot _ _ _ _ _ [u; z1; s'] [x]). exact FI.
    - rewrite <- (qs_w0 A). destruct vs; auto.
    - apply lt_snoc; [eapply lt_grown; [exact W|exact G12|apply (qs_rim A)]|]. split; auto.
    - eapply gr_leads; [exact W|exact G12|apply (qs_s0 A)].
    - split; [apply (gr_live_e G2 Lu)|]. split; [rewrite (gr_og G2 Lu), O1, TX; exact OY|rewrite (gr_target W1 G2 Lu); auto].
    - rewrite last_last. auto.
    - assert (NE : forall e, In e [u; u'] -> og (abs m1) e <> w0).
      { intros e [<-|[<-|[]]].
        - rewrite O1, TX, OY. intros Q. assert (lvv (abs m0) w0 = false) by (apply FW; auto). clash.
        - rewrite O2. intros ->. assert (lvv (abs m) w0 = true) by (apply (gr_new_v G0); auto). clash. }
      pose proof (nbrs_old W W1 G1 (qs_nbrs A) NE) as N1.
      eapply nbrs_pair; [exact W1|exact G2|exact T3|exact T4|exact N1|..].
      + intros Q. exfalso. rewrite O3, TU in Q. subst w'. assert (lvv (abs m) w0 = true) by (apply (gr_new_v G0); auto). clash.
      + intros Q. destruct ts as [|t ts'].
        * right. cbn. left. rewrite O3, TU. exact TZ2.
        * exfalso. rewrite OZ2 in Q. subst w0.
          pose proof (lt_length (qs_rim A)) as LN. rewrite app_length in LN. cbn in LN.
          destruct vs as [|v0 vs]; [cbn in LN; lia|]. pose proof (qs_w0 A) as Q0. cbn [app hd] in Q0. subst v0.
          pose proof (proj1 (gr_v G0)) as ND. apply NoDup_cons_iff in ND. apply (proj1 ND). inl.
      + intros z [<-|I]; [left; auto|]. right. destruct ts as [|t ts']; [destruct I|].
        cbn [firstn app map] in *. destruct I as [<-|[]]. left. apply (gr_target W G12). apply LT; left; auto.
    - rewrite (map_app _ (vs ++ [w])), (map_app _ xs), <- (qs_pay A). f_equal.
      + apply (map_vp_grown G12). intros v I. apply (gr_new_v G0 I).
      + cbn [map]. rewrite (gr_vp G2), Y; auto. apply (gr_new_v G1). left; auto.
  Qed.

  Lemma pf_rounds c m0 L w0 s0 start sv : wf m0 -> loop (abs m0) L -> lv (abs m0) start = true ->
    forall rest m dn x pre s sp ts vs w fs xs a b d,
    pf_state m0 m L w0 dn x pre s0 s sp ts vs w fs xs -> length rest <= length pre ->
    fits c m (4 * length rest + a) (length rest + b) (length rest + d) ->
    exists m' dn' x' pre' s' sp' ts' vs' w' fs',
      pf_loop dE dF c m 2 2 start sv x (hd start ts) rest = pf_loop dE dF c m' 2 2 start sv x' (hd start ts') [] /\
      pf_state m0 m' L w0 dn' x' pre' s0 s' sp' ts' vs' w' fs' (xs ++ rest) /\ fits c m' a b d /\
      length dn' = length dn + length rest.
  Proof.
    intros Wm0 HL LST. induction rest as [|xv rest IH]; intros m dn x pre s sp ts vs w fs xs a b d A LN F.
    - exists m, dn, x, pre, s, sp, ts, vs, w, fs. rewrite app_nil_r. cbn [length] in *. auto.
    - destruct pre as [|y pre]; [cbn in LN; lia|]. cbn [length] in *.
      assert (F1 : fits c m (4 + (4 * length rest + a)) (S (length rest + b)) (S (length rest + d))).
      { eapply fits_le; eauto; try apply A; lia. }
      destruct (pf_round sv xv rest Wm0 HL A F1 LST eq_refl) as (m1 & u & ts1 & fs1 & w1 & E & A1 & F2).
      destruct (IH m1 (dn ++ [x]) y pre u (sp ++ [s]) ts1 (vs ++ [w]) w1 fs1 _ a b d A1)
        as (m' & dn' & x' & pre' & s' & sp' & ts' & vs' & w' & fs' & E' & A' & F' & Q1); auto.
      { lia. }
      exists m', dn', x', pre', s', sp', ts', vs', w', fs'. split; [rewrite E; exact E'|].
      rewrite <- app_assoc in A'. split; [exact A'|]. split; auto. rewrite app_length in Q1. cbn in Q1. lia.
  Qed.

  Lemma pf_close c m0 m L w0 dn x s0 s sp ts vs w fs xs start a b d : wf m0 -> loop (abs m0) L ->
    pf_state m0 m L w0 dn x [] s0 s sp ts vs w fs xs -> 2 <= length dn -> fits c m (2 + a) b (S d) ->
    exists m' z f, pf_loop dE dF c m 2 2 start (og (abs m0) (hd 0 L)) x (hd start ts) [] = Ok (m', hd 0 ts) /\
      wf m' /\ fits c m' a b d /\
      band_built (abs m0) (abs m') L xs dF (sp ++ [s]) (ts ++ [z]) (vs ++ [w]) (fs ++ [f]).
  Proof.
    intros Wm0 HL A N F. pose proof (wfW Wm0) as W0. pose proof (qs_wf A) as Wm. pose proof (wfW Wm) as W.
    pose proof (qs_hole A) as H. pose proof (qs_grown A) as G0.
    destruct (band_length (qs_band A)) as (_ & LT & _).
    destruct ts as [|t1 [|t2 ts2]]; [cbn in LT; lia|cbn in LT; lia|]. set (ts := t1 :: t2 :: ts2) in *.
    destruct (@exists_last _ ts) as (ts' & l & ET); [discriminate|].
    pose proof (lt_length (qs_rim A)) as LW. rewrite app_length in LW. cbn in LW.
    destruct vs as [|v0 [|v1 vs]]; [cbn in LW; lia|cbn in LW; lia|].
    pose proof (qs_w0 A) as Q0. cbn [app hd] in Q0. subst w0.
    set (s' := tw (abs m) s) in *. pose proof (qs_L A) as EL.
    assert (LA : forall e, In e ((sp ++ [s]) ++ ts) -> lv (abs m) e = true).
    { intros e I. apply (gr_e G0). right. apply in_app_iff. auto. }
    assert (LTS : forall t, In t ts -> lv (abs m) t = true) by (intros t I; apply LA; inl).
    assert (IS0 : In s0 (sp ++ [s])) by (rewrite <- (qs_s A); destruct sp; cbn; auto).
    assert (LS0 : lv (abs m) s0 = true) by (apply LA, in_app_iff; left; exact IS0).
    assert (Ls : lv (abs m) s = true) by (apply LA; inl).
    assert (Ls' : lv (abs m) s' = true) by (apply (wf_tw W _ Ls)).
    assert (Lx : lv (abs m) x = true) by (apply (hole_live H); inl).
    assert (Lx0 : lv (abs m0) x = true) by (apply (loop_live' HL); rewrite EL; inl).
    assert (EQ : s0 :: ts ++ [s'; x] = s0 :: (ts ++ [s']) ++ [x]) by (rewrite <- app_assoc; auto).
    assert (NX : nx (abs m) x = s0) by (apply (loop_nx_wrap (p := ts ++ [s']) (proj1 H)); auto).
    assert (PS0 : pv (abs m) s0 = x) by (apply (loop_pv_wrap (p := ts ++ [s']) W (proj1 H)); auto).
    assert (PX : pv (abs m) x = s') by (apply (loop_pv_at (p := s0 :: ts) (q := []) W (proj1 H)); auto).
    assert (PS : pv (abs m) s' = l).
    { apply (loop_pv_at (l := s0 :: ts ++ [s'; x]) (p := s0 :: ts') (q := [x]) W (proj1 H)).
      rewrite ET, <- app_assoc. auto. }
    cbn [pf_loop]. rewrite (get_next Wm Lx), NX. cbn [bind Nat.eqb assert]. rewrite (get_gprev Wm LS0), PS0. cbn [bind].
    rewrite (get_prev Wm Lx), PX. cbn [bind]. rewrite (get_origin Wm LS0), (proj1 (proj2 (qs_s0 A))). cbn [bind].
    rewrite Nat.eqb_refl. rewrite (get_prev Wm Ls'), PS. cbn [bind].
    assert (H' : hole (abs m) (s0 :: ts' ++ l :: [s'; x])).
    { rewrite ET, <- app_assoc in H. exact H. }
    assert (FW : forall z, In z (v0 :: v1 :: vs ++ [w]) -> lvv (abs m0) z = false) by (intros z I; apply (gr_new_v G0 I)).
    assert (TL : target (abs m) l = w).
    { rewrite <- (qs_ll A). f_equal. rewrite ET, last_last. auto. }
    assert (TT : target (abs m) t1 = v1) by (destruct (qs_rim A) as [(_ & _ & Q) _]; exact Q).
    assert (TS0 : target (abs m) s0 = v0) by (apply (qs_s0 A)).
    assert (NL : forall e, leads (abs m) e (target (abs m) s0) (target (abs m) l) -> False).
    { rewrite TL, TS0. apply (nbrs_no (qs_nbrs A)). cbn [ts firstn map]. rewrite TT. intros [Q|[Q|[]]].
      - assert (lvv (abs m0) w = false) by (apply FW; inl).
        assert (lvv (abs m0) (og (abs m0) (hd 0 L)) = true).
        { apply (wf_og W0). apply (loop_live' HL). rewrite EL. destruct dn; cbn; auto. }
        clash.
      - pose proof (proj1 (gr_v G0)) as ND. apply NoDup_cons_iff, proj2, NoDup_cons_iff, proj1 in ND. apply ND. rewrite Q. inl. }
    destruct (do_cface dE dF Wm F H' NL) as (m1 & f & z1 & z2 & E2 & Wm2 & F4 & G2 & FI & H2 & T3 & T4 & O3 & O4).
    rewrite E2. cbn [bind].
    exists m1, z2, f. split; [auto|]. split; auto. split; auto.
    assert (FN : forall z, In z (s0 :: ts' ++ l :: [s'; x]) -> fc (abs m) z = None) by (apply (proj2 H')).
    assert (Lz2 : lv (abs m1) z2 = true) by (apply (gr_new_e G2); right; left; auto).
    assert (OZ2 : og (abs m1) z2 = w) by (rewrite O4; exact TL).
    split.
    - assert (GT : grown (abs m0) (abs m1) L ((((sp ++ [s]) ++ ts) ++ map (tw (abs m)) ((sp ++ [s]) ++ ts)) ++ [z1; z2])
                   ((v0 :: v1 :: vs ++ [w]) ++ []) (fs ++ [f])).
      { apply (grown_trans G0 G2). intros z I. apply (qs_fresh A). fold s'. rewrite ET. revert I. inl. }
      rewrite app_nil_r in GT. eapply grown_perm; [exact GT|..|].
      + replace (map (tw (abs m1)) ((sp ++ [s]) ++ ts ++ [z2])) with (map (tw (abs m)) (sp ++ [s]) ++ map (tw (abs m)) ts ++ [z1]).
        * generalize dependent ts. intros. perm.
        * rewrite (map_app (tw (abs m1)) (sp ++ [s])), (map_app (tw (abs m1)) ts).
          f_equal; [|f_equal; [|cbn [map]; rewrite T4; auto]];
            symmetry; apply (map_tw_grown G2); intros e I; apply LA; apply in_app_iff; auto.
      + apply Permutation_refl.
      + apply Permutation_refl.
    - assert (B : band (abs m1) dF dn (sp ++ [s]) ts fs).
      { eapply band_keep; [exact W|exact G2|exact FN|apply (qs_band A)|exact LTS]. }
      assert (Q : firstn 1 (sp ++ [s]) = [s0]) by (pose proof (qs_s A) as Q; destruct sp; cbn in *; congruence).
      rewrite Q, EL. apply band_snoc; auto.
      + rewrite OZ2, (gr_og G2 Lx), (gr_og G0 Lx0). eapply gr_leads; [exact W|exact G2|apply (qs_x A)].
      + rewrite T4, (gr_tw G2 Ls). apply (@face_is_rot _ _ _ _ _ [s0; z1; s'] [x]). exact FI.
    - cbn [app firstn]. change (v0 :: v1 :: (vs ++ [w]) ++ [v0]) with ((v0 :: v1 :: vs ++ [w]) ++ [v0]).
      apply (@lt_snoc _ _ _ _ ts (v0 :: v1 :: vs) w z2 v0).
      + eapply lt_grown; [exact W|exact G2|apply (qs_rim A)].
      + split; auto. split; auto. unfold target. rewrite T4, O3. auto.
    - apply (@hole_rot _ _ _ _ [l; z2] ts') in H2. rewrite ET, <- app_assoc. exact H2.
    - rewrite <- (qs_pay A). apply (map_vp_grown G2). intros v I. apply (gr_new_v G0 I).
  Qed.

  (** [loft_polygon] with quads, once around the hole: the payloads belong to the origins of the loop
      beginning with [start]. *)
  Lemma loft_total c m start t y ys a b d : wf m -> let n := length (start :: t) in
    hole (abs m) (start :: t) -> 3 <= n -> length (y :: ys) = n ->
    fits c m (4 * n + a) (n + b) (n + d) ->
    exists m' ps ts vs fs, loft_polygon dE dF c m start 2 2 (y :: ys) = Ok (m', hd 0 ts) /\ wf m' /\ fits c m' a b d /\
      length ts = n /\ band_built (abs m) (abs m') (start :: t) (y :: ys) dF ps ts vs fs.
  Proof.
    intros Wm n H N LY F. pose proof (wfW Wm) as W.
    assert (Ls : lv (abs m) start = true) by (apply (hole_live H); left; auto).
    cbn [length] in LY.
    assert (F0 : fits c m (2 + (4 * length ys + (2 + a))) (S (length ys + b)) (length ys + S d)).
    { eapply fits_le; eauto; lia. }
    destruct (@exists_last _ t) as (t' & l & ET); [intros ->; cbn in *; lia|].
    assert (PS : pv (abs m) start = l) by (apply (loop_pv_wrap (p := t') W (proj1 H)); rewrite ET; reflexivity).
    assert (NL : nx (abs m) l = start) by (apply (loop_nx_wrap (p := t') (proj1 H)); rewrite ET; reflexivity).
    assert (H' : hole (abs m) (l :: start :: t')).
    { apply (@hole_rot _ _ _ _ (start :: t') [l]). cbn [app]. rewrite <- ET. exact H. }
    destruct (do_via dE y Wm F0 H' (eq_sym NL)) as (m1 & v & e1 & e2 & E & Wm1 & F1 & G & H1 & T1 & T2 & O1 & O2 & Y).
    assert (Ll : lv (abs m) l = true) by (apply (hole_live H'); left; auto).
    assert (OL : target (abs m) l = og (abs m) start) by (rewrite <- NL; symmetry; apply (wf_ognx W _ Ll)).
    assert (K : leads (abs m1) e1 (og (abs m) start) v).
    { split; [apply (gr_new_e G); left; auto|]. split; [rewrite O1; exact OL|]. unfold target. rewrite T1; auto. }
    assert (A : pf_state m m1 (start :: t) v [] start t e1 e1 [] [] [] v [] [y]).
    { split; auto.
      - rewrite T1, ET. cbn [app]. apply (@hole_rot _ _ _ _ [l] (e1 :: e2 :: start :: t')) in H1. exact H1.
      - cbn [app map]. rewrite T1. eapply grown_weaken; [exact G|]. intros z. rewrite ET. inl.
      - cbn. auto.
      - cbn. auto.
      - apply K.
      - cbn [hd firstn map]. rewrite <- OL. apply (nbrs_via Wm G Ll T1 T2 O1 O2).
      - cbn [map app]. rewrite Y. auto. }
    assert (LN : length ys <= length t) by (cbn in *; lia).
    destruct (pf_rounds (og (abs m) start) Wm (proj1 H) Ls A LN F1)
      as (m2 & dn & x & pre & s & sp & ts & vs & w & fs & E2 & A2 & F2 & Q).
    cbn [length Nat.add] in Q.
    assert (pre = []).
    { pose proof (f_equal (@length _) (qs_L A2)) as Q1. rewrite !app_length in Q1. cbn in *. destruct pre; auto. cbn in *; lia. }
    subst pre.
    assert (LQ : 2 <= length dn) by (cbn in *; lia).
    destruct (pf_close start Wm (proj1 H) A2 LQ F2) as (m3 & z & f & E3 & Wm3 & F3 & B).
    exists m3, (sp ++ [s]), (ts ++ [z]), (vs ++ [w]), (fs ++ [f]).
    unfold loft_polygon. cbn [Nat.leb assert]. rewrite (get_origin Wm Ls). cbn [bind]. rewrite (get_prev Wm Ls), PS. cbn [bind].
    rewrite E. cbn [bind]. cbn [hd] in E2, E3. rewrite E2, E3.
    assert (LT : length ts = length dn) by apply (band_length (qs_band A2)).
    split; [destruct ts; [cbn in LT; lia|auto]|]. split; auto. split; auto. split; auto.
    rewrite app_length. cbn in *; lia.
  Qed.
End Loft.
