(** The solids of any size as indexed face sets. *)
From Coq Require Import List Arith Lia Bool Permutation.
From Verif Require Import Base DVec DVecFacts Mesh Spec Rep Splice Cycle Traverse Room Ops MeshSpec MeshProofs
  MeshMore CheckProofs MeshTotal MeshFacts NetProofs BuildSpec Solid SolidSpec BuildStep PathProofs ApexProofs LoftProofs
  TriProofs PartProofs SolidProofs.
Import ListNotations.
Set Implicit Arguments.
Unset Strict Implicit.

Local Arguments abs : simpl never.

Lemma Forall2_perm {A B} (P : A -> B -> Prop) l l' : Permutation l l' -> forall k, Forall2 P k l ->
  exists k', Permutation k k' /\ Forall2 P k' l'.
Proof.
  induction 1; intros k F.
  - inversion F; subst. exists []. auto.
  - inversion F as [|a ? k0 ? Q1 Q2]; subst. destruct (IHPermutation _ Q2) as (k' & P1 & P2). exists (a :: k'). auto.
  - inversion F as [|a ? k0 ? Q1 Q2]; subst. inversion Q2 as [|b ? k1 ? Q3 Q4]; subst. exists (b :: a :: k1).
    split; [apply perm_swap|]. auto.
  - destruct (IHPermutation1 _ F) as (k1 & P1 & F1). destruct (IHPermutation2 _ F1) as (k2 & P2 & F2).
    exists k2. split; auto. eapply perm_trans; eauto.
Qed.

Lemma F2_length {A B} (P : A -> B -> Prop) l k : Forall2 P l k -> length l = length k.
Proof. induction 1; cbn; auto. Qed.

Lemma cons_ne {A} (a : A) l : a :: l <> [].
Proof. discriminate. Qed.

Section Shape.
  Context {VP EP FP : Type}.
  Notation graph := (graph VP EP FP).
  Notation mesh := (mesh VP EP FP).
  Implicit Types (g : graph) (m : mesh).
  Variable (dE : EP) (dF : FP).
  Notation part := (part dF).
  Notation fits := (@fits VP EP FP).

  Lemma fits_empty c a b d : a <= capE c -> b <= capV c -> d <= capF c -> fits c empty_mesh a b d.
  Proof. intros A B D. repeat split; cbn; lia. Qed.

  Lemma part_vperm g vs vs' ne fs polys hs : Permutation vs vs' -> part g vs ne fs polys hs -> part g vs' ne fs polys hs.
  Proof. intros E P. split; try apply P. eapply exactly_perm; [exact E|apply P]. Qed.
  Lemma part_fperm g vs ne fs polys polys' hs : Permutation polys polys' -> part g vs ne fs polys hs ->
    exists fs', part g vs ne fs' polys' hs.
  Proof.
    intros E P. destruct (Forall2_perm E (pa_polys P)) as (fs' & Q1 & Q2). exists fs'. split; try apply P; auto.
    eapply exactly_perm; [exact Q1|apply P].
  Qed.

  Lemma solid_counts m pts polys ne : wf m -> solid (abs m) dF pts polys ne ->
    num_vertices m = length pts /\ num_edges m = 2 * ne /\ num_faces m = length polys.
  Proof.
    intros Wm (vs & fs & es & EV & PV & EF & PF & EE & LE & _).
    assert (C : forall ids live l, NoDup ids -> (forall x, In x ids <-> live x = true) -> exactly live l -> length ids = length l).
    { intros ids live l ND I [ND' I']. apply Permutation_length, NoDup_Permutation; auto. intros x. rewrite I. apply I'. }
    assert (NE : num_edges m = length (edge_ids m)).
    { unfold num_edges, edge_ids. rewrite map_length. destruct Wm as (A & _). rewrite (len_iter A). cbn. lia. }
    rewrite NE, num_vertices_ids, num_faces_ids by auto. repeat split.
    - rewrite (C _ _ _ (vertex_ids_nodup Wm) (fun x => vertex_ids_live x Wm) EV). apply (f_equal (@length _)) in PV. rewrite !map_length in PV. exact PV.
    - rewrite (C _ _ _ (edge_ids_nodup Wm) (fun x => edge_ids_live x Wm) EE). exact LE.
    - rewrite (C _ _ _ (face_ids_nodup Wm) (fun x => face_ids_live x Wm) EF). apply F2_length in PF. rewrite map_length in PF. exact PF.
  Qed.

  (** * the base *)
  Lemma base_polygon c ys a b d : let n := length ys in 3 <= n ->
    2 * n + a <= capE c -> n + b <= capV c -> S d <= capF c ->
    exists m e es vs f, insert_polygon dE dF c empty_mesh ys = Ok (m, e) /\ wf m /\ fits c m a b d /\
      hole (abs m) (e :: es) /\ part (abs m) vs n [f] [turn vs] (e :: es) /\ map (vp (abs m)) vs = map Some ys /\
      map (og (abs m)) (e :: es) = vs /\ length (e :: es) = n /\ face_is (abs m) f (rev (map (tw (abs m)) (e :: es))) dF false /\
      map (og (abs m)) (rev (map (tw (abs m)) (e :: es))) = turn vs.
  Proof.
    intros n N A B D. destruct ys as [|y0 [|y1 [|y2 ys]]]; try (cbn in N; lia).
    destruct (@insert_polygon_total _ _ _ dE dF c empty_mesh y0 y1 y2 ys a b d empty_wf) as (m & es & vs & f & E & Wm & F & R & H & FI).
    { apply fits_empty; auto. }
    pose proof (wfW Wm) as W. pose proof (lt_length (rb_leads R)) as LN. pose proof (f_equal (@length _) (rb_pay R)) as LP. rewrite !map_length in LP.
    assert (NV : vs <> []) by (intros ->; discriminate).
    assert (LE : length es = n).
    { rewrite app_length, LP in LN. destruct vs; [congruence|]. cbn in LN. unfold n. cbn. lia. }
    destruct es as [|e es]; [cbn in LE; unfold n in LE; cbn in LE; lia|].
    exists m, e, es, vs, f. split; [exact E|]. split; auto. split; auto. split; auto. split.
    - rewrite <- LE. apply (part_polygon W NV R FI).
    - split; [apply R|]. split; [apply (lt_ogs' (rb_leads R) NV)|]. split; auto. split; auto. apply (turn_rev W NV (rb_leads R)).
  Qed.
  Lemma base_loop c ys a b d : let n := length ys in 3 <= n ->
    2 * n + a <= capE c -> n + b <= capV c -> d <= capF c ->
    exists m e es vs, insert_loop dE c empty_mesh ys = Ok (m, tw (abs m) e) /\ wf m /\ fits c m a b d /\
      hole (abs m) (e :: es) /\ hole (abs m) (rev (map (tw (abs m)) (e :: es))) /\
      part (abs m) vs n [] [] ((e :: es) ++ map (tw (abs m)) (e :: es)) /\ map (vp (abs m)) vs = map Some ys /\
      map (og (abs m)) (e :: es) = vs /\ map (og (abs m)) (rev (map (tw (abs m)) (e :: es))) = turn vs /\ length (e :: es) = n /\
      NoDup ((e :: es) ++ map (tw (abs m)) (e :: es)).
  Proof.
    intros n N A B D. destruct ys as [|y0 [|y1 [|y2 ys]]]; try (cbn in N; lia).
    destruct (@insert_loop_total VP EP FP dE c empty_mesh y0 y1 y2 ys a b d empty_wf) as (m & es & vs & E & Wm & F & R & H & H').
    { apply fits_empty; auto. }
    pose proof (wfW Wm) as W. pose proof (lt_length (rb_leads R)) as LN. pose proof (f_equal (@length _) (rb_pay R)) as LP. rewrite !map_length in LP.
    assert (NV : vs <> []) by (intros ->; discriminate).
    assert (LE : length es = n).
    { rewrite app_length, LP in LN. destruct vs; [congruence|]. cbn in LN. unfold n. cbn. lia. }
    destruct es as [|e es]; [cbn in LE; unfold n in LE; cbn in LE; lia|].
    exists m, e, es, vs. split; [exact E|]. split; auto. split; auto. split; auto. split; auto. split.
    - rewrite <- LE. apply (part_ring dF R).
    - split; [apply R|]. split; [apply (lt_ogs' (rb_leads R) NV)|]. split; [apply (turn_rev W NV (rb_leads R))|]. split; auto.
      apply (gr_e (rb_grown R)).
  Qed.

  Lemma pay_app g g' L E V F vs vs' (xs xs' : list VP) : grown g g' L E V F -> (forall v, In v vs -> lvv g v = true) ->
    map (vp g) vs = map Some xs -> map (vp g') vs' = map Some xs' -> map (vp g') (vs ++ vs') = map Some (xs ++ xs').
  Proof. intros G I A B. rewrite !map_app, (map_vp_grown G I), A, B. auto. Qed.

  (** * pyramids *)
  Lemma pyramid_part c ys x a b d : let n := length ys in 3 <= n ->
    4 * n + a <= capE c -> S n + b <= capV c -> S n + d <= capF c ->
    exists m e es vs v f fs, insert_pyramid dE dF c empty_mesh ys x = Ok (m, tw (abs m) e) /\ wf m /\ fits c m a b d /\
      part (abs m) (vs ++ [v]) (2 * n) (f :: fs) (turn vs :: fans vs v) [] /\ map (vp (abs m)) (vs ++ [v]) = map Some (ys ++ [x]) /\
      face_is (abs m) f (rev (map (tw (abs m)) (e :: es))) dF false /\
      map (og (abs m)) (rev (map (tw (abs m)) (e :: es))) = turn vs /\ length vs = n /\ lv (abs m) e = true /\ length (e :: es) = n.
  Proof.
    intros n N A B D.
    assert (A' : 2 * n + (2 * n + a) <= capE c) by lia. assert (B' : n + S b <= capV c) by lia. assert (D' : S (n + d) <= capF c) by lia.
    destruct (base_polygon N A' B' D') as (m & e & es & vs & f & E & Wm & F & H & P & PV & OV & LE & FI & RV).
    pose proof (wfW Wm) as W.
    assert (NV : NoDup vs) by apply (pa_v P).
    assert (F' : fits c m (2 * length (e :: es) + a) (S b) (length (e :: es) + d)) by (rewrite LE; exact F).
    destruct (@fill_hole_apex_total _ _ _ dE dF c m e es x a b d Wm H) as (m' & v & ps & fs & E2 & Wm' & F2 & LPS & AP).
    { rewrite OV. exact NV. } { exact F'. }
    pose proof (ab_grown AP) as G. pose proof (wfW Wm') as W'.
    assert (Le : lv (abs m) e = true) by (apply (hole_live H); left; auto).
    assert (Le' : lv (abs m') e = true) by (apply (gr_live_e G Le)).
    assert (LA : forall z, In z (e :: es) -> lv (abs m) z = true) by (intros z I; apply (hole_live H I)).
    exists m', e, es, vs, v, f, fs. split.
    { unfold insert_pyramid. rewrite E. cbn [bind]. rewrite E2. cbn [bind]. rewrite (get_twin Wm' Le'). reflexivity. }
    split; auto. split; auto. split; [|split; [|split]].
    - assert (P' : part (abs m) vs n [f] [turn vs] ((e :: es) ++ [])) by (rewrite app_nil_r; exact P).
      pose proof (part_apex Wm P' H (@cons_ne _ e es) AP) as Q. rewrite LE, OV in Q.
      replace (2 * n) with (n + n) by lia. exact Q.
    - eapply (pay_app G); eauto; [|cbn; rewrite (ab_pay AP); auto]. intros z I. apply (proj2 (pa_v P)); auto.
    - rewrite (map_tw_grown G LA). eapply gr_face_keep; [exact G|apply H|exact FI].
    - rewrite (map_tw_grown G LA). split; [|split; [|split; auto]].
      + transitivity (map (og (abs m)) (rev (map (tw (abs m)) (e :: es)))).
        { apply map_ext_in. intros z I. apply (gr_og G). apply in_rev in I. apply in_map_iff in I as (z' & <- & I). apply (wf_tw W), LA; auto. }
        exact RV.
      + rewrite <- OV, map_length. exact LE.
  Qed.

  Lemma index_one vs v n : n = length vs -> nth n (vs ++ [v]) 0 = v.
  Proof. intros ->. rewrite app_nth2, Nat.sub_diag by lia. auto. Qed.

  Lemma pyramid_solid_fits c ys x : let n := length ys in 3 <= n ->
    4 * n <= capE c -> S n <= capV c -> S n <= capF c ->
    exists m, pyramid dE dF c ys x = Ok m /\ wf m /\ solid (abs m) dF (ys ++ [x]) (pyramid_polys n) (2 * n) /\ fits c m 0 0 0.
  Proof.
    intros n N A B D.
    assert (A' : 4 * n + 0 <= capE c) by lia. assert (B' : S n + 0 <= capV c) by lia. assert (D' : S n + 0 <= capF c) by lia.
    destruct (pyramid_part x N A' B' D') as (m & e & es & vs & v & f & fs & E & Wm & F & P & PV & _ & _ & LV & _).
    exists m. unfold pyramid, fresh_mesh. rewrite E. split; auto. split; auto. split; auto. eapply part_solid; [exact P|exact PV|].
    unfold pyramid_polys. cbn [map].
    assert (Q : map (fun i => nth i (vs ++ [v]) 0) (seq 0 n) = vs) by (unfold n; rewrite <- LV; apply nth_seq_app).
    rewrite <- turn_map, <- fans_map, Q, index_one; auto.
  Qed.
  Lemma pyramid_solid c ys x : let n := length ys in 3 <= n ->
    4 * n <= capE c -> S n <= capV c -> S n <= capF c ->
    exists m, pyramid dE dF c ys x = Ok m /\ wf m /\ solid (abs m) dF (ys ++ [x]) (pyramid_polys n) (2 * n).
  Proof.
    intros n N A B D. destruct (@pyramid_solid_fits c ys x N A B D) as (m & E & Wm & S & _). exists m. auto.
  Qed.

  (** * prisms and frusta *)
  Lemma index_two (vs ws : list nat) n : length vs = n -> length ws = n ->
    map (fun i => nth i (vs ++ ws) 0) (seq 0 n) = vs /\ map (fun i => nth i (vs ++ ws) 0) (seq n n) = ws.
  Proof.
    intros L1 L2. split; [rewrite <- L1; apply nth_seq_app|].
    pose proof (@nth_seq_mid _ 0 vs ws [] n n (eq_sym L1) (eq_sym L2)) as Q. rewrite app_nil_r in Q. exact Q.
  Qed.

  Lemma frustum_part c ys xs : let n := length ys in 3 <= n -> length xs = n ->
    6 * n <= capE c -> 2 * n <= capV c -> 2 + n <= capF c ->
    exists m e, (let* (m1, first) := insert_polygon dE dF c empty_mesh ys in
        let* (m2, e) := loft_polygon dE dF c m1 first 2 2 xs in
        let* m3 := chole dF c m2 e in Ok (m3, e)) = Ok (m, e) /\ wf m /\
      solid (abs m) dF (ys ++ xs) (frustum_polys n) (3 * n).
  Proof.
    intros n N LX A B D.
    assert (A' : 2 * n + (4 * n + 0) <= capE c) by lia. assert (B' : n + (n + 0) <= capV c) by lia. assert (D' : S (n + 1) <= capF c) by lia.
    destruct (base_polygon N A' B' D') as (m & e & es & vs & f & E & Wm & F & H & P & PV & OV & LE & FI & RV).
    pose proof (wfW Wm) as W. destruct xs as [|x xs]; [cbn in LX; lia|].
    fold n in LE. assert (N' : 3 <= length (e :: es)) by lia. assert (LX' : length (x :: xs) = length (e :: es)) by lia.
    assert (F' : fits c m (4 * length (e :: es) + 0) (length (e :: es) + 0) (length (e :: es) + 1)) by (rewrite LE; exact F).
    destruct (@loft_total _ _ _ dE dF c m e es x xs 0 0 1 Wm H N' LX' F') as (m1 & ps & ts & ws & fs & E1 & Wm1 & F1 & LT & BB).
    pose proof (wfW Wm1) as W1. pose proof (bb_grown BB) as G1. pose proof (bb_hole BB) as HT.
    destruct ts as [|t ts]; [cbn in LT; lia|].
    destruct (do_chole dF Wm1 F1 HT) as (m2 & cap & _ & E2 & Wm2 & F2 & G2 & FC).
    assert (P' : part (abs m) vs n [f] [turn vs] ((e :: es) ++ [])) by (rewrite app_nil_r; exact P).
    pose proof (part_band Wm P' H (@cons_ne _ e es) BB) as Q1. rewrite LE, OV in Q1.
    pose proof (part_cap Wm1 Q1 HT G2 (fun z I => I) FC) as Q2.
    assert (NW : ws <> []).
    { pose proof (f_equal (@length _) (bb_pay BB)) as Q. rewrite !map_length in Q. intros ->. discriminate. }
    rewrite (lt_ogs' (bb_rim BB) NW) in Q2.
    exists m2, t. split; [rewrite E; cbn [bind]; rewrite E1; cbn [bind hd]; rewrite E2; reflexivity|]. split; auto.
    replace (3 * n) with (n + 2 * n) by lia. eapply part_solid; [exact Q2|..].
    - rewrite (map_vp_grown G2); [|intros z I; apply (proj2 (pa_v Q1)); auto].
      eapply (pay_app G1); [|exact PV|apply (bb_pay BB)]. intros z I; apply (proj2 (pa_v P)); auto.
    - assert (LV : length vs = n) by (rewrite <- OV, map_length; auto).
      assert (LW : length ws = n).
      { pose proof (f_equal (@length _) (bb_pay BB)) as Q. rewrite !map_length in Q. rewrite Q; auto. }
      destruct (index_two LV LW) as [I1 I2]. unfold frustum_polys. cbn [map]. rewrite map_app. cbn [map].
      rewrite <- turn_map, <- quads_map, I1, I2. reflexivity.
  Qed.

  Lemma frustum_solid c ys xs : let n := length ys in 3 <= n -> length xs = n ->
    6 * n <= capE c -> 2 * n <= capV c -> 2 + n <= capF c ->
    exists m, frustum dE dF c ys xs false = Ok m /\ wf m /\ solid (abs m) dF (ys ++ xs) (frustum_polys n) (3 * n).
  Proof.
    intros n N LX A B D. destruct (frustum_part N LX A B D) as (m & e & E & Wm & S). exists m. split; auto.
    unfold frustum, fresh_mesh, insert_frustum. revert E.
    destruct (insert_polygon dE dF c empty_mesh ys) as [[m1 e1]| |]; cbn [bind]; try discriminate.
    destruct (loft_polygon dE dF c m1 e1 2 2 xs) as [[m2 e2]| |]; cbn [bind]; try discriminate.
    destruct (chole dF c m2 e2) as [m3| |]; cbn [bind]; try discriminate. intros [= -> ->]. reflexivity.
  Qed.

  Lemma frustum_smooth_panics c (ys xs : list VP) : let n := length ys in 3 <= n -> length xs = n ->
    6 * n <= capE c -> 2 * n <= capV c -> 2 + n <= capF c -> frustum dE dF c ys xs true = Panic.
  Proof.
    intros n N LX A B D. destruct (frustum_part N LX A B D) as (m & e & E & Wm & S).
    unfold frustum, fresh_mesh, insert_frustum. revert E.
    destruct (insert_polygon dE dF c empty_mesh ys) as [[m1 e1]| |]; cbn [bind]; try discriminate.
    destruct (loft_polygon dE dF c m1 e1 2 2 xs) as [[m2 e2]| |]; cbn [bind]; try discriminate.
    destruct (chole dF c m2 e2) as [m3| |]; cbn [bind]; try discriminate. reflexivity.
  Qed.
  Lemma cylinder_panics c (f1 f2 : nat -> VP) n : 3 <= n -> 6 * n <= capE c -> 2 * n <= capV c -> 2 + n <= capF c ->
    cylinder dE dF c f1 f2 n = Panic.
  Proof.
    intros N A B D. unfold cylinder, regular_frustum, circle_iter.
    apply frustum_smooth_panics; rewrite ?map_length, ?seq_length; auto.
  Qed.

  Lemma cuboid_solid c a0 a1 a2 a3 b0 b1 b2 b3 : 24 <= capE c -> 8 <= capV c -> 6 <= capF c ->
    exists m, cuboid dE dF c a0 a1 a2 a3 b0 b1 b2 b3 = Ok m /\ wf m /\
      solid (abs m) dF [a0; a1; a2; a3; b0; b1; b2; b3]
        [[0; 3; 2; 1]; [0; 1; 5; 4]; [1; 2; 6; 5]; [2; 3; 7; 6]; [3; 0; 4; 7]; [4; 5; 6; 7]] 12.
  Proof.
    intros A B D. destruct (@frustum_part c [a0; a1; a2; a3] [b0; b1; b2; b3]) as (m & e & E & Wm & S); cbn [length]; auto; try lia.
    exists m. split; auto. unfold cuboid. revert E.
    destruct (insert_polygon dE dF c empty_mesh [a0; a1; a2; a3]) as [[m1 e1]| |]; cbn [bind]; try discriminate.
    destruct (loft_polygon dE dF c m1 e1 2 2 [b0; b1; b2; b3]) as [[m2 e2]| |]; cbn [bind]; try discriminate.
    destruct (chole dF c m2 e2) as [m3| |]; cbn [bind]; try discriminate. intros [= -> ->]. reflexivity.
  Qed.

  Lemma pay_map_list (tr : VP -> VP) g vs ys : map (vp g) vs = map Some ys ->
    map (fun v => option_map tr (vp g v)) vs = map Some (map tr ys).
  Proof.
    revert ys. induction vs as [|v vs IH]; intros [|y ys] E; cbn in *; try discriminate; auto.
    pose proof (f_equal (hd None) E) as E1. pose proof (f_equal (@tl _) E) as E2. cbn in E1, E2. rewrite E1. cbn. f_equal. auto.
  Qed.


  (** A prism over the polygon [ys]: the top is the base moved by the transformation [tr] that was
      computed from the bottom face. *)
  Lemma prism_solid_at c (ys : list VP) (shift : mesh -> nat -> res (VP -> VP)) : let n := length ys in 3 <= n ->
    (forall m f vs, wf m -> poly (abs m) dF f (turn vs) -> map (vp (abs m)) vs = map Some ys -> exists tr, shift m f = Ok tr) ->
    6 * n <= capE c -> 2 * n <= capV c -> 2 + n <= capF c ->
    exists m m0 e f vs tr, prism dE dF c ys shift = Ok m /\ wf m /\
      insert_polygon dE dF c empty_mesh ys = Ok (m0, e) /\ wf m0 /\ poly (abs m0) dF f (turn vs) /\ map (vp (abs m0)) vs = map Some ys /\
      shift m0 f = Ok tr /\ solid (abs m) dF (ys ++ map tr ys) (frustum_polys n) (3 * n).
  Proof.
    intros n N SH A B D.
    assert (A' : 2 * n + (4 * n + 0) <= capE c) by lia. assert (B' : n + (n + 0) <= capV c) by lia. assert (D' : S (n + 1) <= capF c) by lia.
    destruct (base_polygon N A' B' D') as (m & e & es & vs & f & E & Wm & F & H & P & PV & OV & LE & FI & RV).
    pose proof (wfW Wm) as W. fold n in LE.
    assert (PF : poly (abs m) dF f (turn vs)) by (eexists; split; [exact FI|exact RV]).
    destruct (SH m f vs Wm PF PV) as (tr & ET).
    assert (N' : 3 <= length (e :: es)) by lia.
    assert (F' : fits c m (4 * length (e :: es) + 0) (length (e :: es) + 0) (length (e :: es) + 1)) by (rewrite LE; exact F).
    destruct (@extrude_total _ _ _ dE dF c m e es tr 0 0 0 Wm H N' F') as (m1 & ps & ts & ws & fs & cap & E1 & Wm1 & F1 & LT & X).
    pose proof (wfW Wm1) as W1.
    assert (Le : lv (abs m) e = true) by (apply (hole_live H); left; auto).
    assert (LF : lvf (abs m) f = true) by apply FI.
    exists m1, m, e, f, vs, tr. split.
    { unfold prism, fresh_mesh, insert_prism. rewrite E. cbn [bind]. rewrite (get_gtwin Wm Le). cbn [bind].
      rewrite (get_face Wm (wf_tw W _ Le)).
      assert (FT : fc (abs m) (tw (abs m) e) = Some f) by (apply FI; rewrite <- in_rev; left; auto).
      rewrite FT. cbn [bind unwrap]. destruct (wf_abs Wm) as [R _]. destruct (r_face_live R f LF) as (x & EX & _). rewrite EX. cbn [bind].
      rewrite ET. cbn [bind]. rewrite E1. reflexivity. }
    split; auto. split; auto. split; auto. split; auto. split; auto. split; auto.
    (* the extrusion as a growth step *)
    pose proof (ex_grown X) as G. pose proof (ex_band X) as BA. pose proof (ex_rim X) as RI. pose proof (ex_cap X) as CA.
    assert (LW : length ws = n).
    { pose proof (f_equal (@length _) (ex_pay X)) as Q. rewrite !map_length, app_length in Q. cbn in *. lia. }
    destruct ws as [|w1 ws]; [cbn in LW; lia|].
    assert (OGL : map (og (abs m1)) (es ++ [e]) = map (og (abs m)) (es ++ [e])).
    { apply map_ext_in. intros z I. apply (gr_og G), (hole_live H). apply in_app_iff in I as [I|[<-|[]]]; [right; auto|left; auto]. }
    destruct vs as [|v0 vs]; [discriminate|]. cbn [map] in OV.
    pose proof (f_equal (hd 0) OV) as OV0. pose proof (f_equal (@tl _) OV) as OV1. cbn [hd tl] in OV0, OV1.
    assert (OL : map (og (abs m)) (es ++ [e]) = vs ++ [v0]) by (rewrite map_app, OV1; cbn [map]; rewrite OV0; auto).
    destruct (band_length BA) as (LPS & LTS & LFS). destruct (band_fc BA) as (K1 & K2 & K3 & K4).
    destruct ps as [|p ps]; [cbn in LPS; rewrite app_length in LPS; cbn in LPS; lia|].
    pose proof (ring_all K2 K3) as FR.
    assert (Q0 : part (abs m1) ((v0 :: vs) ++ w1 :: ws) (n + 2 * n) ([f] ++ fs ++ [cap])
               ([turn (v0 :: vs)] ++ quads (vs ++ [v0]) (w1 :: ws) ++ [w1 :: ws]) []).
    { eapply (part_grow Wm P); [|exact G|..].
      - intros z I. apply H. apply in_app_iff in I as [I|[<-|[]]]; [right; auto|left; auto].
      - rewrite app_length, map_length, app_length. rewrite LT, LE. cbn [length firstn] in LPS |- *. rewrite !app_length in LPS. cbn [length] in *. lia.
      - apply Forall2_app.
        + rewrite <- OL, <- OGL.
          destruct es as [|e1 es]; [cbn in LE; lia|]. cbn [app map] in *. unfold quads. rewrite !cyc_closed.
          change (combine (og (abs m1) e1 :: map (og (abs m1)) (es ++ [e])) (map (og (abs m1)) (es ++ [e]) ++ [og (abs m1) e1])) with
            (combine (map (og (abs m1)) (e1 :: es ++ [e])) (tl (map (og (abs m1)) (e1 :: es ++ [e])) ++ [og (abs m1) e1])).
          change (combine (w1 :: ws) (ws ++ [w1])) with (combine (w1 :: ws) (tl (w1 :: ws) ++ [w1])).
          eapply band_polys; [exact BA| |exact RI]. cbn [firstn]. change (p :: ps ++ [p]) with ((p :: ps) ++ [p]). rewrite last_last.
          clear - BA. destruct (ps ++ firstn 1 (p :: ps)) as [|q r] eqn:EQ; [destruct ps; discriminate|].
          destruct ts as [|t' ts], fs as [|f' fs]; cbn [band] in BA; try tauto. apply BA.
        + constructor; auto. exists ts. split; auto. apply (lt_ogs' RI). discriminate.
      - intros z I FN FN'. exfalso. apply (K1 z); auto. apply in_app_iff. destruct I as [<-|I]; [right; left; auto|auto].
      - intros z I FN'. exfalso. apply in_app_iff in I as [I|I].
        + apply in_app_iff in I as [I|I]; [apply (proj1 (FR _ I) FN')|apply (face_fc CA I FN')].
        + apply in_map_iff in I as (z' & <- & I). apply in_app_iff in I as [I|I]; [apply (proj2 (FR _ I) FN')|apply (K4 _ I FN')]. }
    destruct (@exists_last _ (w1 :: ws)) as (us & w0 & EW); [discriminate|].
    assert (LU : length vs = length us).
    { apply (f_equal (@length _)) in EW. rewrite app_length in EW. cbn [length] in EW, LW.
      apply (f_equal (@length _)) in OV1. rewrite map_length in OV1. cbn [length] in LE. lia. }
    rewrite EW in Q0.
    apply part_vperm with (vs' := (v0 :: vs) ++ w0 :: us) in Q0; [|apply Permutation_app_head; apply Permutation_sym, Permutation_cons_append].
    assert (Q1 : exists fs', part (abs m1) ((v0 :: vs) ++ w0 :: us) (n + 2 * n) fs' (turn (v0 :: vs) :: quads (v0 :: vs) (w0 :: us) ++ [w0 :: us]) []).
    { assert (Q2 : part (abs m1) ((v0 :: vs) ++ w0 :: us) (n + 2 * n) ([f] ++ fs ++ [cap])
               ([turn (v0 :: vs)] ++ quads (vs ++ [v0]) (us ++ [w0]) ++ [w0 :: us]) []).
      { split; try apply Q0. pose proof (pa_polys Q0) as Q2.
        change (Forall2 (poly (abs m1) dF) ([f] ++ fs ++ [cap]) (([turn (v0 :: vs)] ++ quads (vs ++ [v0]) (us ++ [w0])) ++ [us ++ [w0]])) in Q2. apply Forall2_app_inv_r in Q2 as (k1 & k2 & Z1 & Z2 & Z3).
        change (([f] ++ fs) ++ [cap] = k1 ++ k2) in Z3.
        assert (Z4 : k2 = [cap] /\ [f] ++ fs = k1).
        { pose proof (F2_length Z2) as LL. destruct k2 as [|c0 [|]]; try discriminate. apply app_inj_tail in Z3 as [-> ->]. auto. }
        destruct Z4 as [-> <-]. rewrite !app_assoc. apply Forall2_app; auto. constructor; auto.
        assert (Y0 : poly (abs m1) dF cap (us ++ [w0])) by (inversion Z2; auto). destruct Y0 as (l & Y1 & Y2).
        destruct l as [|z l] using rev_ind; [destruct us; discriminate|]. rewrite map_app in Y2. cbn [map] in Y2.
        apply app_inj_tail in Y2 as [<- <-]. exists (z :: l). split; auto. apply (@face_is_rot _ _ _ _ _ l [z]). exact Y1. }
      apply (part_fperm (polys' := turn (v0 :: vs) :: quads (v0 :: vs) (w0 :: us) ++ [w0 :: us])) in Q2; auto.
      cbn [app]. apply perm_skip. apply Permutation_app_tail. apply quads_rot; auto. }
    destruct Q1 as (fs' & Q1). replace (3 * n) with (n + 2 * n) by lia. eapply part_solid; [exact Q1|..].
    - eapply (pay_app G); [|exact PV|].
      + intros z I; apply (proj2 (pa_v P)); auto.
      + pose proof (ex_pay X) as XP. rewrite EW in XP.
        assert (Q2 : map (fun z => option_map tr (vp (abs m) (og (abs m) z))) (es ++ [e]) = map (fun v => option_map tr (vp (abs m) v)) (vs ++ [v0])).
        { rewrite <- OL. rewrite map_map. reflexivity. }
        rewrite Q2 in XP. rewrite !map_app in XP. cbn [map] in XP. apply app_inj_tail in XP as [XP1 XP2].
        rewrite <- (pay_map_list tr PV). cbn [map]. rewrite XP1, XP2. reflexivity.
    - assert (LV : length (v0 :: vs) = n) by (rewrite <- OV, <- LE; cbn; rewrite map_length; auto).
      assert (LW' : length (w0 :: us) = n) by (cbn [length] in *; lia).
      destruct (index_two LV LW') as [I1 I2]. unfold frustum_polys.
      change (turn (v0 :: vs) :: quads (v0 :: vs) (w0 :: us) ++ [w0 :: us] = map (map (fun i => nth i ((v0 :: vs) ++ w0 :: us) 0)) (turn (seq 0 n) :: quads (seq 0 n) (seq n n) ++ [seq n n])).
      remember (v0 :: vs) as VV. remember (w0 :: us) as WW.
      cbn [map]. rewrite map_app. cbn [map]. rewrite <- turn_map, <- quads_map, I1, I2. reflexivity.
  Qed.
  Lemma prism_solid c (ys : list VP) (shift : mesh -> nat -> res (VP -> VP)) : let n := length ys in 3 <= n -> (forall m f, exists tr, shift m f = Ok tr) ->
    6 * n <= capE c -> 2 * n <= capV c -> 2 + n <= capF c ->
    exists m m0 e f tr, prism dE dF c ys shift = Ok m /\ wf m /\
      insert_polygon dE dF c empty_mesh ys = Ok (m0, e) /\ lvf (abs m0) f = true /\ shift m0 f = Ok tr /\
      solid (abs m) dF (ys ++ map tr ys) (frustum_polys n) (3 * n).
  Proof.
    intros n N SH A B D. destruct (@prism_solid_at c ys shift N (fun m f _ _ _ _ => SH m f) A B D) as (m & m0 & e & f & vs & tr & H1 & H2 & H3 & H4 & H5 & H6 & H7 & H8).
    exists m, m0, e, f, tr. split; [auto|]. split; [auto|]. split; [auto|]. split; [destruct H5 as (es & FI & _); apply FI|]. auto.
  Qed.

  Lemma antiprism_panics c m (y0 y1 y2 : VP) rest mid shift a b d : wf m ->
    let ys := y0 :: y1 :: y2 :: rest in let n := length ys in
    fits c m (2 * n + a) (n + b) (S d) -> insert_antiprism dE dF c m ys mid shift = Panic.
  Proof.
    intros Wm ys n F. destruct (@insert_polygon_total _ _ _ dE dF c m y0 y1 y2 rest a b d Wm F) as (m1 & es & vs & f & E & Wm1 & F1 & B & H & FI).
    unfold insert_antiprism. fold ys in E. rewrite E. cbn [bind].
    destruct es as [|e es]; [destruct H as [[_ []] _]|]. cbn [hd].
    rewrite (get_face Wm1); [|apply (hole_live H); left; auto]. rewrite (proj2 H e (or_introl eq_refl)). reflexivity.
  Qed.

  (** * antiprisms *)
  Lemma antiprism_solid c (ys xs : list VP) : let n := length ys in 3 <= n -> length xs = n ->
    8 * n <= capE c -> 2 * n <= capV c -> 2 + 2 * n <= capF c ->
    exists m, antiprism_iter dE dF c ys xs = Ok m /\ wf m /\ solid (abs m) dF (ys ++ xs) (antiprism_polys n) (4 * n).
  Proof.
    intros n N LX A B D.
    assert (A' : 2 * n + (6 * n + 0) <= capE c) by lia. assert (B' : n + (n + 0) <= capV c) by lia. assert (D' : S (2 * n + 1) <= capF c) by lia.
    destruct (base_polygon N A' B' D') as (m & e & es & vs & f & E & Wm & F & H & P & PV & OV & LE & FI & RV).
    pose proof (wfW Wm) as W. destruct xs as [|x xs]; [cbn in LX; lia|].
    fold n in LE. assert (N' : 3 <= length (e :: es)) by lia. assert (LX' : length (x :: xs) = length (e :: es)) by lia.
    assert (F' : fits c m (6 * length (e :: es) + 0) (length (e :: es) + 0) (2 * length (e :: es) + 1)) by (rewrite LE; exact F).
    assert (NV : NoDup (map (og (abs m)) (e :: es))) by (rewrite OV; apply (pa_v P)).
    assert (N2 : 2 <= length (e :: es)) by lia.
    pose proof (hole_noself W (proj1 H) NV N2) as NS.
    destruct (@loft_tri_total _ _ _ dE dF c m e es x xs 0 0 1 Wm H NS N' LX' F') as (m1 & ps & ds & ts & ws & fs & hs & E1 & Wm1 & F1 & LT & BB).
    pose proof (wfW Wm1) as W1. pose proof (tb_grown BB) as G1. pose proof (tb_hole BB) as HT.
    destruct ts as [|t ts]; [cbn in LT; lia|].
    destruct (do_chole dF Wm1 F1 HT) as (m2 & cap & _ & E2 & Wm2 & F2 & G2 & FC).
    assert (P' : part (abs m) vs n [f] [turn vs] ((e :: es) ++ [])) by (rewrite app_nil_r; exact P).
    pose proof (part_tband Wm P' H (@cons_ne _ e es) W1 BB) as Q1. rewrite LE, OV in Q1.
    pose proof (part_cap Wm1 Q1 HT G2 (fun z I => I) FC) as Q2.
    assert (NW : ws <> []).
    { pose proof (f_equal (@length _) (tb_pay BB)) as Q. rewrite !map_length in Q. intros ->. discriminate. }
    rewrite (lt_ogs' (tb_rim BB) NW) in Q2.
    exists m2. split; [unfold antiprism_iter, fresh_mesh, insert_antiprism_iter; rewrite E; cbn [bind]; rewrite E1; cbn [bind hd]; rewrite E2; reflexivity|]. split; auto.
    replace (4 * n) with (n + 3 * n) by lia. eapply part_solid; [exact Q2|..].
    - rewrite (map_vp_grown G2); [|intros z I; apply (proj2 (pa_v Q1)); auto].
      eapply (pay_app G1); [|exact PV|apply (tb_pay BB)]. intros z I; apply (proj2 (pa_v P)); auto.
    - assert (LV : length vs = n) by (rewrite <- OV, map_length; auto).
      assert (LW : length ws = n).
      { pose proof (f_equal (@length _) (tb_pay BB)) as Q. rewrite !map_length in Q. rewrite Q; auto. }
      destruct (index_two LV LW) as [I1 I2]. unfold antiprism_polys. cbn [map]. rewrite !map_app. cbn [map].
      rewrite <- turn_map, <- stands_map, <- hangs_map, I1, I2. reflexivity.
  Qed.
End Shape.
