(** The import of SVG paths. *)
From Coq Require Import List Arith Lia Bool Permutation.
From Verif Require Import Base DVec DVecFacts Mesh Spec Rep Splice Cycle Traverse Room Ops MeshSpec MeshProofs
  MeshMore MeshTotal MeshFacts NetProofs BuildSpec Solid BuildStep PathProofs PathBuilder PathBSpec PathBProofs.
Import ListNotations.
Set Implicit Arguments.
Unset Strict Implicit.

Local Arguments abs : simpl never.
Section Svg.
  Context {VP EP FP : Type}.
  Notation graph := (graph VP EP FP).
  Notation mesh := (mesh VP EP FP).
  Implicit Types (g : graph) (m : mesh).
  Variable (dE : EP) (dF : FP) (same : VP -> VP -> bool).

  Notation import_seg := (import_seg dE dF same).
  Notation import_path := (import_path dE dF same).

  Lemma autoclose_new c m b y0 v y : wf m -> p_closed b = false -> p_sv b = Some v -> lvv (abs m) v = true ->
    vp (abs m) v = Some y0 -> same y0 y = false -> p_autoclose same c m b y = add_vertex c m y.
  Proof.
    intros Wm K1 K2 L V S. unfold p_autoclose. rewrite K1, K2. cbn [negb assert unwrap bind].
    destruct (wf_abs Wm) as [R _]. destruct (r_vertex_live R _ L) as (x & -> & _ & Q). cbn [bind].
    rewrite V in Q. injection Q as <-. rewrite S. auto.
  Qed.
  Lemma autoclose_back c m b y0 v y : wf m -> p_closed b = false -> p_sv b = Some v -> lvv (abs m) v = true ->
    vp (abs m) v = Some y0 -> same y0 y = true -> p_autoclose same c m b y = Ok (m, v).
  Proof.
    intros Wm K1 K2 L V S. unfold p_autoclose. rewrite K1, K2. cbn [negb assert unwrap bind].
    destruct (wf_abs Wm) as [R _]. destruct (r_vertex_live R _ L) as (x & -> & _ & Q). cbn [bind].
    rewrite V in Q. injection Q as <-. rewrite S. auto.
  Qed.

  Lemma knows_repaid g g' e y b es vs : repaid g g' e y -> (forall x, In x es -> lv g x = true) -> es <> [] ->
    knows g b es vs -> knows g' b es vs.
  Proof.
    intros P L NE (K1 & K2 & K3 & K4 & K5 & K6). destruct (exists_last NE) as (p & i & ->). rewrite last_last in *.
    unfold knows. rewrite last_last.
    rewrite (rp_tw P (x := i)) by (apply L; apply in_app_iff; right; left; auto).
    rewrite (rp_tw P (x := hd 0 (p ++ [i]))) by (apply L; destruct p; left; auto). auto 10.
  Qed.

  (** What a stroke does beyond a line with default payloads. *)
  Lemma stroke_pay c m0 m b es e1 vs ys p0 p1 (k : EP -> EP) a bb d : wf m0 ->
    drawn m0 m (es ++ [e1]) vs ys (p0 ++ [dE]) p1 -> knows (abs m) b (es ++ [e1]) vs -> fits c m a bb d ->
    exists m', upd_edge m e1 (setpay k) = Ok m' /\ fits c m' a bb d /\
      drawn m0 m' (es ++ [e1]) vs ys (p0 ++ [k dE]) p1 /\ knows (abs m') b (es ++ [e1]) vs.
  Proof.
    intros W0 D K F.
    assert (LE : forall x, In x (es ++ [e1]) -> lv (abs m) x = true) by (intros x I; eapply drawn_live; eauto).
    assert (L1 : lv (abs m) e1 = true) by (apply LE; apply in_app_iff; right; left; auto).
    assert (Y : ep (abs m) e1 = Some dE).
    { pose proof (dr_pay0 D) as Q. unfold pays in Q. rewrite !map_app in Q. cbn [map] in Q. apply app_inj_tail in Q. apply Q. }
    destruct (do_pay k (dr_wf D) F L1 Y) as (m' & E & Wm' & F' & P). exists m'. split; auto. split; auto.
    split; [eapply drawn_pay; eauto|]. eapply knows_repaid; eauto. intros Q. destruct es; discriminate.
  Qed.

  (** [import_seg] on a stroke to a new vertex *)
  Lemma seg_stroke c m m1 m2 b b2 w x es e1 vs ys p0 p1 m0 a bb d f : wf m0 ->
    p_autoclose same c m b (snd x) = Ok (m1, w) -> p_line_to c m1 b w dE dE = Ok (m2, b2) ->
    drawn m0 m2 (es ++ [e1]) vs ys (p0 ++ [dE]) p1 -> knows (abs m2) b2 (es ++ [e1]) vs -> fits c m2 a bb d ->
    exists m3, import_seg c (m, b, f) (s_seg x) = Ok (m3, b2, false) /\ fits c m3 a bb d /\
      drawn m0 m3 (es ++ [e1]) vs ys (p0 ++ [s_pay dE x]) p1 /\ knows (abs m3) b2 (es ++ [e1]) vs.
  Proof.
    intros W0 A E D K F. destruct x as [[k|] y]; cbn [snd] in A; unfold s_seg, s_pay; cbn [fst snd].
    - destruct (stroke_pay k W0 D K F) as (m3 & E3 & F3 & D3 & K3). exists m3. split; auto.
      unfold PathBuilder.import_seg. rewrite A. cbn [bind]. unfold p_curve_to. rewrite E. cbn [bind].
      destruct K as (_ & _ & _ & _ & _ & K6). rewrite last_last in K6. rewrite K6. cbn [unwrap bind].
      unfold setpay in E3. rewrite E3. auto.
    - exists m2. split; auto. unfold PathBuilder.import_seg. rewrite A. cbn [bind]. rewrite E. auto.
  Qed.

  Lemma vp_first m0 m es vs y0 ys p0 p1 : drawn m0 m es vs (y0 :: ys) p0 p1 ->
    lvv (abs m) (hd 0 vs) = true /\ vp (abs m) (hd 0 vs) = Some y0.
  Proof.
    intros D. pose proof (dr_path D) as B. pose proof (pb_pay B) as Q. destruct vs as [|v vs]; [discriminate|].
    cbn in *. injection Q as Q _. split; auto. apply (gr_new_v (pb_grown B)). left; auto.
  Qed.

  Lemma strokes_more c m0 y0 (ss : list (@stroke VP EP)) : forall m b es vs ys p0 a bb d f, wf m0 ->
    drawn m0 m es vs (y0 :: ys) p0 (repeat dE (length es)) -> knows (abs m) b es vs -> es <> [] ->
    Forall (fun x => same y0 (snd x) = false) ss ->
    fits c m (2 * length ss + a) (length ss + bb) d ->
    exists m' b' es' vs' f', foldM (import_seg c) (map s_seg ss) (m, b, f) = Ok (m', b', f') /\ fits c m' a bb d /\
      drawn m0 m' es' vs' (y0 :: ys ++ map snd ss) (p0 ++ map (s_pay dE) ss) (repeat dE (length es')) /\
      knows (abs m') b' es' vs' /\ length es' = length es + length ss.
  Proof.
    induction ss as [|x ss IH]; intros m b es vs ys p0 a bb d f W0 D K NE FA F.
    - exists m, b, es, vs, f. cbn [foldM map length]. rewrite !app_nil_r, Nat.add_0_r. auto.
    - assert (F' : fits c m (2 + (2 * length ss + a)) (S (length ss + bb)) d).
      { eapply fits_le; eauto; [apply (dr_wf D)|cbn; lia..]. }
      inversion FA as [|? ? FA1 FA2]; subst.
      destruct (next_line (snd x) dE dE W0 D K NE F') as (m1 & w & m2 & e1 & b2 & E1 & E2 & F2 & D2 & K2).
      destruct (vp_first D) as [V1 V2].
      assert (A : p_autoclose same c m b (snd x) = Ok (m1, w)).
      { rewrite (@autoclose_new c m b y0 (hd 0 vs)); auto; [apply D|apply K|apply K]. }
      destruct (seg_stroke f W0 A E2 D2 K2 F2) as (m3 & E3 & F3 & D3 & K3).
      assert (RP : repeat dE (length es) ++ [dE] = repeat dE (length (es ++ [e1]))) by (rewrite app_length, repeat_app; auto).
      rewrite RP in D3.
      destruct (IH m3 b2 _ _ (ys ++ [snd x]) _ a bb d false W0 D3 K3) as (m' & b' & es' & vs' & f' & E & F4 & D4 & K4 & LN); auto.
      { intros Q. destruct es; discriminate. }
      exists m', b', es', vs', f'. cbn [foldM map]. rewrite E3. cbn [bind]. split; auto. split; auto.
      rewrite <- !app_assoc in D4. cbn [app] in D4. split; auto. split; auto. rewrite LN, app_length. cbn. lia.
  Qed.

  Lemma move_first c m y0 m1 v0 : add_vertex c m y0 = Ok (m1, v0) ->
    import_seg c (m, p_new, true) (SMove y0) = Ok (m1, fresh_b v0, false).
  Proof. intros E. unfold PathBuilder.import_seg. cbn [assert]. unfold p_move. cbn. rewrite E. auto. Qed.

  Lemma strokes_all c m y0 (ss : list (@stroke VP EP)) a b d : wf m -> ss <> [] -> Forall (fun x => same y0 (snd x) = false) ss ->
    fits c m (2 * length ss + a) (S (length ss) + b) d ->
    exists m' b' es vs f, foldM (import_seg c) (SMove y0 :: map s_seg ss) (m, p_new, true) = Ok (m', b', f) /\ fits c m' a b d /\
      drawn m m' es vs (y0 :: map snd ss) (map (s_pay dE) ss) (repeat dE (length es)) /\ knows (abs m') b' es vs /\
      length es = length ss.
  Proof.
    intros Wm NE FA F. destruct ss as [|x ss]; [congruence|].
    assert (F' : fits c m (2 + (2 * length ss + a)) (2 + (length ss + b)) d) by (eapply fits_le; eauto; cbn; lia).
    destruct (first_line y0 (snd x) dE dE Wm F')
      as (m1 & v0 & m2 & w & m3 & e1 & b3 & A1 & _ & Wm1 & L0 & V0 & A3 & A4 & F3 & D & K).
    inversion FA as [|? ? FA1 FA2]; subst.
    assert (A : p_autoclose same c m1 (fresh_b v0) (snd x) = Ok (m2, w)).
    { rewrite (@autoclose_new c m1 _ y0 v0); auto. }
    destruct (@seg_stroke c m1 m2 m3 (fresh_b v0) b3 w x [] e1 [v0; w] [y0; snd x] [] [dE] m _ _ _ false Wm A A4 D K F3)
      as (m4 & E4 & F4 & D4 & K4).
    destruct (@strokes_more c m y0 ss m4 b3 [e1] [v0; w] [snd x] [s_pay dE x] a b d false Wm D4 K4) as (m' & b' & es & vs & f & E & F5 & D5 & K5 & LN);
      auto; [discriminate|].
    exists m', b', es, vs, f. cbn [foldM map]. rewrite (move_first A1). cbn [bind]. rewrite E4. cbn [bind]. split; auto.
  Qed.

  Lemma foldM_app A B (f : A -> B -> res A) l1 : forall l2 s, foldM f (l1 ++ l2) s = (let* t := foldM f l1 s in foldM f l2 t).
  Proof. induction l1 as [|x l1 IH]; intros l2 s; cbn; auto. destruct (f s x); cbn; auto. Qed.

  (** The closing stroke. *)
  Lemma last_stroke c m0 m b es vs y0 ys p0 x a bb d f : wf m0 ->
    drawn m0 m es vs (y0 :: ys) p0 (repeat dE (length es)) -> knows (abs m) b es vs -> 2 <= length es ->
    same y0 (snd x) = true -> fits c m (2 + a) bb d ->
    exists m' b' e1, import_seg c (m, b, f) (s_seg x) = Ok (m', b', false) /\ fits c m' a bb d /\
      rung m0 m' (es ++ [e1]) vs (y0 :: ys) (p0 ++ [s_pay dE x]) (repeat dE (length (es ++ [e1]))) /\
      p_closed b' = true /\ p_face b' = false /\ p_se b' = Some (tw (abs m') (hd 0 (es ++ [e1])), hd 0 (es ++ [e1])).
  Proof.
    intros W0 D K LN S F. destruct (vp_first D) as [V1 V2].
    assert (A : p_autoclose same c m b (snd x) = Ok (m, hd 0 vs)).
    { apply (@autoclose_back c m b y0 (hd 0 vs)); auto; [apply D|apply K|apply K]. }
    destruct (ring_line dE dE W0 D K LN F) as (m2 & e1 & b2 & E & F2 & L0 & R & Q1 & Q2 & Q3 & e2 & Q4).
    assert (RP : repeat dE (length es) ++ [dE] = repeat dE (length (es ++ [e1]))) by (rewrite app_length, repeat_app; auto).
    rewrite RP in R.
    assert (HD : hd 0 (es ++ [e1]) = hd 0 es) by (destruct es; [cbn in LN; lia|auto]). rewrite <- HD in Q3.
    assert (LE : forall z, In z (es ++ [e1]) -> lv (abs m2) z = true) by (intros z I; apply (hole_live (rg_in R) I)).
    destruct x as [[k|] y]; cbn [snd] in A; unfold s_seg, s_pay; cbn [fst snd].
    - assert (L1 : lv (abs m2) e1 = true) by (apply LE; apply in_app_iff; right; left; auto).
      assert (Y : ep (abs m2) e1 = Some dE).
      { pose proof (rg_pay0 R) as Q. unfold pays in Q. rewrite !map_app in Q. cbn [map] in Q. apply app_inj_tail in Q. apply Q. }
      destruct (do_pay k (rg_wf R) F2 L1 Y) as (m3 & E3 & Wm3 & F3 & P). exists m3, b2, e1.
      split. { unfold PathBuilder.import_seg. rewrite A. cbn [bind]. unfold p_curve_to. rewrite E. cbn [bind].
               rewrite Q4. cbn [unwrap bind]. unfold setpay in E3. rewrite E3. auto. }
      split; auto. split; [|do 2 (split; auto)].
      + eapply rung_pay; eauto. pose proof (dr_pay0 D) as Q. apply (f_equal (@length _)) in Q. rewrite !map_length in Q. auto.
      + rewrite (rp_tw P); auto. apply LE. destruct es; [cbn in LN; lia|left; auto].
    - exists m2, b2, e1. split; auto. unfold PathBuilder.import_seg. rewrite A. cbn [bind]. rewrite E. auto.
  Qed.

  Lemma import_ring c m y0 (ss : list (@stroke VP EP)) (z : @stroke VP EP) tl a b d : wf m -> 2 <= length ss -> Forall (fun x => same y0 (snd x) = false) ss ->
    same y0 (snd z) = true -> tl = [] \/ tl = [SClose] ->
    fits c m (2 * S (length ss) + a) (S (length ss) + b) (S d) ->
    exists m' f es vs, import_path c m (SMove y0 :: map s_seg (ss ++ [z]) ++ tl) = Ok m' /\ wf m' /\ fits c m' a b d /\
      ring_built (abs m) (abs m') es vs (y0 :: map snd ss) [f] /\ hole (abs m') es /\
      face_is (abs m') f (rev (map (tw (abs m')) es)) dF false /\
      pays (abs m') es (map (s_pay dE) (ss ++ [z])) /\
      pays (abs m') (map (tw (abs m')) es) (repeat dE (length es)).
  Proof.
    intros Wm LN FA S TL F. assert (NE : ss <> []) by (intros ->; cbn in LN; lia).
    assert (F0 : fits c m (2 * length ss + (2 + a)) (Datatypes.S (length ss) + b) (Datatypes.S d)) by (eapply fits_le; eauto; lia).
    destruct (strokes_all Wm NE FA F0) as (m1 & b1 & es & vs & f1 & E1 & F1 & D & K & LE).
    assert (LE2 : 2 <= length es) by lia.
    destruct (last_stroke f1 Wm D K LE2 S F1) as (m2 & b2 & e1 & E2 & F2 & R & Q1 & Q2 & Q3).
    assert (NE2 : es ++ [e1] <> []) by (intros Q; destruct es; discriminate).
    destruct (@close_rung _ _ _ dE c m m2 b2 (es ++ [e1]) vs _ _ _ dF a b d Wm R NE2 Q1 Q3 F2)
      as (m' & b' & f & E3 & Z1 & Z2 & Wm' & F3 & Z3 & Z4 & Z5 & Z6 & Z7).
    exists m', f, (es ++ [e1]), vs. rewrite !(map_app _ ss). cbn [map].
    split; [|auto 12]. unfold PathBuilder.import_path.
    rewrite <- app_assoc, app_comm_cons, foldM_app, E1. cbn [bind app foldM]. rewrite E2. cbn [bind].
    destruct TL as [-> | ->]; cbn [foldM].
    - cbn [bind]. rewrite Q2. cbn [negb orb assert]. rewrite E3. auto.
    - unfold PathBuilder.import_seg at 1. rewrite E3. cbn [bind]. rewrite Z1, Z2. auto.
  Qed.

  Lemma import_open c m y0 (ss : list (@stroke VP EP)) tl a b d : wf m -> ss <> [] -> Forall (fun x => same y0 (snd x) = false) ss ->
    tl = [] \/ hd_error tl = Some SClose -> fits c m (2 * length ss + a) (S (length ss) + b) d ->
    import_path c m (SMove y0 :: map s_seg ss ++ tl) = Panic.
  Proof.
    intros Wm NE FA TL F. destruct (strokes_all Wm NE FA F) as (m1 & b1 & es & vs & f1 & E1 & F1 & D & K & LE).
    assert (NE2 : es <> []) by (intros ->; destruct ss; [congruence|discriminate]).
    unfold PathBuilder.import_path. rewrite app_comm_cons, foldM_app, E1. cbn [bind].
    assert (C : p_close dE c m1 b1 dF = Panic) by (eapply close_drawn; eauto).
    destruct tl as [|[| | |] tl]; cbn [hd_error] in TL; try (destruct TL; discriminate); cbn [foldM bind].
    - destruct K as (K1 & K2 & _). rewrite K1, K2. cbn. rewrite C. auto.
    - unfold PathBuilder.import_seg at 1. rewrite C. auto.
  Qed.

  Lemma seg_first c m b f x m1 b1 f1 : import_seg c (m, b, f) x = Ok (m1, b1, f1) -> f1 = false.
  Proof.
    unfold PathBuilder.import_seg. destruct x as [p|p|k p|]; intros E.
    - destruct f; [|discriminate]. cbn [assert] in E. apply bind_ok in E as ([? ?] & _ & E). injection E; auto.
    - apply bind_ok in E as ([? ?] & _ & E). apply bind_ok in E as ([? ?] & _ & E). injection E; auto.
    - apply bind_ok in E as ([? ?] & _ & E). apply bind_ok in E as ([? ?] & _ & E). injection E; auto.
    - apply bind_ok in E as ([[? ?] ?] & _ & E). injection E; auto.
  Qed.
  Lemma fold_move c q : forall segs m b s, In (SMove q) segs -> foldM (import_seg c) segs (m, b, false) <> Ok s.
  Proof.
    induction segs as [|x segs IH]; intros m b s I; [destruct I|]. cbn [foldM].
    destruct I as [->|I]; [discriminate|].
    destruct (import_seg c (m, b, false) x) as [[[m1 b1] f1]| |] eqn:E; try discriminate. cbn [bind].
    assert (f1 = false).
    { eapply seg_first; eauto. }
    subst. apply IH; auto.
  Qed.

  Lemma import_subpaths c m x segs q m' : In (SMove q) segs -> import_path c m (x :: segs) <> Ok m'.
  Proof.
    intros I E. unfold PathBuilder.import_path in E. apply bind_ok in E as (s & E & _). cbn [foldM] in E.
    apply bind_ok in E as ([[m1 b1] f1] & E1 & E).
    assert (f1 = false).
    { eapply seg_first; eauto. }
    subst. apply (fold_move I E).
  Qed.
End Svg.
