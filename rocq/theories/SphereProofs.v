(** Bipyramids, UV spheres and icosahedra. *)
From Coq Require Import List Arith Lia Bool Permutation.
From Verif Require Import Base DVec DVecFacts Mesh Spec Rep Splice Cycle Traverse Room Ops MeshSpec MeshProofs
  MeshMore CheckProofs MeshTotal MeshFacts NetProofs BuildSpec Solid SolidSpec BuildStep PathProofs ApexProofs LoftProofs
  TriProofs PartProofs SolidProofs ShapeProofs.
Import ListNotations.
Set Implicit Arguments.
Unset Strict Implicit.

Local Arguments abs : simpl never.

Lemma stack_snoc A (R : list (list A)) a b : stack (R ++ [a; b]) = stack (R ++ [a]) ++ quads (turn a) (turn b).
Proof.
  induction R as [|r R IH]; [cbn; rewrite app_nil_r; auto|].
  destruct R as [|s R]; [cbn [app stack]; rewrite !app_nil_r; auto|]. cbn [app stack] in *. rewrite IH, app_assoc. auto.
Qed.
Lemma stack_map A B (h : A -> B) R : stack (map (map h) R) = map (map h) (stack R).
Proof.
  induction R as [|r [|s R] IH]; auto. cbn [map stack] in *. rewrite IH, !turn_map, quads_map, map_app. auto.
Qed.
Lemma turn_perm A (l : list A) : Permutation l (turn l).
Proof. destruct l; auto. cbn. apply perm_skip, Permutation_rev. Qed.

(** Cutting a list of equally long pieces by index. *)
Lemma concat_index (R : list (list nat)) k : (forall r, In r R -> length r = k) -> forall p s j, length p = j ->
  map (fun i => map (fun x => nth x (p ++ concat R ++ s) 0) (seq (j + i * k) k)) (seq 0 (length R)) = R.
Proof.
  induction R as [|r R IH]; intros LR p s j LP; auto. cbn [length seq map concat]. f_equal.
  - rewrite <- app_assoc. apply nth_seq_mid; [lia|]. symmetry. apply LR. left; auto.
  - rewrite <- seq_shift, map_map. rewrite <- (IH (fun r' I => LR r' (or_intror I)) (p ++ r) s (j + k)) at 2.
    + apply map_ext. intros i. rewrite <- !app_assoc. f_equal. f_equal. lia.
    + rewrite app_length, LP. f_equal. apply LR. left; auto.
Qed.
Lemma concat_length_eq (R : list (list nat)) k : (forall r, In r R -> length r = k) -> length (concat R) = length R * k.
Proof. induction R as [|r R IH]; intros H; auto. cbn. rewrite app_length, IH; [|intros; apply H; right; auto]. rewrite (H r); auto. left; auto. Qed.

Section Sphere.
  Context {VP EP FP : Type}.
  Notation graph := (graph VP EP FP).
  Notation mesh := (mesh VP EP FP).
  Implicit Types (g : graph) (m : mesh).
  Variable (dE : EP) (dF : FP).
  Notation part := (part dF).
  Notation fits := (@fits VP EP FP).

  Lemma face_all m f l y cu x : wf m -> face_is (abs m) f l y cu -> lv (abs m) x = true -> fc (abs m) x = Some f -> In x l.
  Proof.
    intros Wm (LF & _ & Hl & FL) Lx Fx. pose proof (wfW Wm) as W.
    destruct (wf_fe W _ LF) as [Lf Ff]. destruct (face_traversal Wm Lf) as (t & Ht & _).
    destruct l as [|z l]; [destruct Hl as [_ []]|].
    assert (Lz : lv (abs m) z = true) by (apply Hl; left; auto).
    assert (Fz : fc (abs m) z = Some f) by (apply FL; left; auto).
    assert (Iz : In z (fe (abs m) f :: t)) by (apply (cycle_reach _ (proj2 Ht)); apply (wf_fc W _ Lz Fz)).
    assert (Ix : In x (fe (abs m) f :: t)) by (apply (cycle_reach _ (proj2 Ht)); apply (wf_fc W _ Lx Fx)).
    apply in_split in Iz as (p & q & EQ). rewrite EQ in Ht, Ix. apply (loop_rot (l1 := p)) in Ht. cbn [app] in Ht.
    apply (cycle_reach _ (proj2 Hl)). apply (cycle_reach _ (proj2 Ht)).
    apply in_app_iff in Ix as [Ix|[Ix|Ix]]; [right; apply in_app_iff; auto|left; auto|right; apply in_app_iff; auto].
  Qed.

  Lemma nth_last_at (p : list nat) v s k : k = length p -> nth k (p ++ v :: s) 0 = v.
  Proof. intros ->. rewrite app_nth2, Nat.sub_diag by lia. auto. Qed.

  Lemma bipyramid_solid_fits c (ys : list VP) top bottom : let n := length ys in 3 <= n ->
    6 * n <= capE c -> 2 + n <= capV c -> 2 * n <= capF c -> S n <= capF c ->
    exists m, bipyramid dE dF c ys top bottom = Ok m /\ wf m /\ solid (abs m) dF (ys ++ [top; bottom]) (bipyramid_polys n) (3 * n) /\ fits c m 0 0 0.
  Proof.
    intros n N A B D D2.
    assert (A' : 4 * n + (2 * n + 0) <= capE c) by lia. assert (B' : S n + 1 <= capV c) by lia. assert (D' : S n + (n - 1) <= capF c) by lia.
    destruct (@pyramid_part _ _ _ dE dF c ys top _ _ _ N A' B' D') as (m & e & es & vs & v & f & fs & E & Wm & F & P & PV & FI & RV & LV & Le & LE).
    pose proof (wfW Wm) as W. fold n in LV, LE.
    assert (LF : lvf (abs m) f = true) by apply FI.
    assert (Lt : lv (abs m) (tw (abs m) e) = true) by (apply (wf_tw W _ Le)).
    assert (Ft : fc (abs m) (tw (abs m) e) = Some f) by (apply FI; rewrite <- in_rev; left; auto).
    destruct (t_remove_face Wm F LF) as (m1 & y & E1 & F1).
    destruct (spec_remove_face Wm E1) as (Wm1 & FR & _). pose proof (wfW Wm1) as W1.
    pose proof (fr_hole FR FI) as H. cbn [map rev] in H.
    assert (H' : hole (abs m1) (tw (abs m) e :: rev (map (tw (abs m)) es))).
    { apply (@hole_rot _ _ _ _ (rev (map (tw (abs m)) es)) [tw (abs m) e]). exact H. }
    assert (LH : length (tw (abs m) e :: rev (map (tw (abs m)) es)) = n).
    { cbn [length]. rewrite rev_length, map_length. exact LE. }
    assert (OG : map (og (abs m1)) (rev (map (tw (abs m)) (e :: es))) = turn vs).
    { rewrite <- RV. apply map_ext_in. intros z I. apply (fr_edges FR z). apply FI; auto. }
    cbn [map rev] in OG. rewrite map_app in OG. cbn [map] in OG.
    assert (NV : NoDup vs).
    { pose proof (proj1 (pa_v P)) as ND. apply nd_app_inv in ND. apply ND. }
    assert (NO : NoDup (map (og (abs m1)) (tw (abs m) e :: rev (map (tw (abs m)) es)))).
    { cbn [map]. apply (Permutation_NoDup (l := turn vs)); [|apply (Permutation_NoDup (turn_perm vs) NV)].
      rewrite <- OG. apply Permutation_sym, Permutation_cons_append. }
    assert (F1' : fits c m1 (2 * length (tw (abs m) e :: rev (map (tw (abs m)) es)) + 0) 1 (length (tw (abs m) e :: rev (map (tw (abs m)) es)) + 0)).
    { rewrite LH. eapply fits_le; [exact Wm1|exact F1|lia..]. }
    destruct (@fill_hole_apex_total _ _ _ dE dF c m1 _ _ bottom 0 0 0 Wm1 H' NO F1') as (m2 & w & ps & fs2 & E2 & Wm2 & F2 & LPS & AP).
    exists m2. split.
    { unfold bipyramid. rewrite E. cbn [bind]. rewrite (get_face Wm Lt), Ft. cbn [bind unwrap]. rewrite E1. cbn [bind]. rewrite E2. reflexivity. }
    split; auto. split; [|exact F2]. pose proof (wfW Wm2) as W2.
    assert (Q1 : part (abs m1) (vs ++ [v]) (2 * n) fs (fans vs v) ((tw (abs m) e :: rev (map (tw (abs m)) es)) ++ [])).
    { rewrite app_nil_r. eapply part_weaken.
      - eapply (part_remove P FR FI W). intros x Lx Fx. exact (face_all Wm FI Lx Fx).
      - rewrite app_nil_r. cbn [map rev]. intros z I. apply in_app_iff in I as [I|[<-|[]]]; [right; auto|left; auto]. }
    pose proof (part_apex Wm1 Q1 H' (@cons_ne _ _ _) AP) as Q2. rewrite LH in Q2.
    assert (Q3 : exists fs', part (abs m2) ((vs ++ [v]) ++ [w]) (2 * n + n) fs' (fans vs v ++ fans (turn vs) w) []).
    { eapply part_fperm; [|exact Q2]. apply Permutation_app_head. rewrite <- OG. cbn [map]. apply Permutation_sym, fans_rot. }
    destruct Q3 as (fs' & Q3). replace (3 * n) with (2 * n + n) by lia. eapply part_solid; [exact Q3|..].
    - replace (ys ++ [top; bottom]) with ((ys ++ [top]) ++ [bottom]) by (rewrite <- app_assoc; auto).
      eapply (pay_app (ab_grown AP)); [intros z I; apply (proj2 (pa_v Q1)); auto| |cbn; rewrite (ab_pay AP); auto].
      rewrite <- PV. apply map_ext_in. intros z I. apply (fr_vertices FR z). apply (proj2 (pa_v P)); auto.
    - unfold bipyramid_polys. rewrite map_app, <- !fans_map, <- turn_map, <- !app_assoc. cbn [app].
      assert (Q : map (fun i => nth i (vs ++ [v; w]) 0) (seq 0 n) = vs) by (rewrite <- LV; apply nth_seq_app).
      rewrite Q, nth_last_at by auto. do 2 f_equal.
      change (vs ++ [v; w]) with (vs ++ [v] ++ [w]). rewrite app_assoc, nth_last_at; auto. rewrite app_length. cbn. lia.
  Qed.
  Lemma bipyramid_solid c (ys : list VP) top bottom : let n := length ys in 3 <= n ->
    6 * n <= capE c -> 2 + n <= capV c -> 2 * n <= capF c -> S n <= capF c ->
    exists m, bipyramid dE dF c ys top bottom = Ok m /\ wf m /\ solid (abs m) dF (ys ++ [top; bottom]) (bipyramid_polys n) (3 * n).
  Proof.
    intros n N A B D D2. destruct (@bipyramid_solid_fits c ys top bottom N A B D D2) as (m & E & Wm & S & _). exists m. auto.
  Qed.

  (** * icosahedra *)
  Lemma icosa_solid_fits c (xs ys : list VP) top bottom : let n := length xs in 3 <= n -> length ys = n ->
    12 * n <= capE c -> 2 + 2 * n <= capV c -> 4 * n <= capF c ->
    exists m, icosahedron dE dF c xs ys top bottom = Ok m /\ wf m /\
      solid (abs m) dF (xs ++ [top] ++ ys ++ [bottom]) (icosa_polys n) (6 * n) /\ fits c m 0 0 0.
  Proof.
    intros n N LY A B D.
    assert (A' : 2 * n + (2 * n + (6 * n + (2 * n + 0))) <= capE c) by lia.
    assert (B' : n + S (n + 1) <= capV c) by lia. assert (D' : n + (2 * n + (n + 0)) <= capF c) by lia.
    destruct (@base_loop _ _ _ dE dF c xs _ _ _ N A' B' D') as (m & e & es & vs & E & Wm & F & H & HR & P & PV & OV & RV & LE & NDE).
    pose proof (wfW Wm) as W. fold n in LE. cbn [map rev] in HR, RV. rewrite map_app in RV. cbn [map] in RV.
    assert (HR' : hole (abs m) (tw (abs m) e :: rev (map (tw (abs m)) es))).
    { apply (@hole_rot _ _ _ _ (rev (map (tw (abs m)) es)) [tw (abs m) e]). exact HR. }
    set (L := tw (abs m) e :: rev (map (tw (abs m)) es)) in *.
    assert (LL : length L = n).
    { unfold L. cbn [length]. rewrite rev_length, map_length. exact LE. }
    assert (NV : NoDup vs) by apply (pa_v P).
    assert (NO : NoDup (map (og (abs m)) L)).
    { unfold L. cbn [map]. apply (Permutation_NoDup (l := turn vs)); [|apply (Permutation_NoDup (turn_perm vs) NV)].
      rewrite <- RV. apply Permutation_sym, Permutation_cons_append. }
    assert (F0 : fits c m (2 * length L + (6 * n + (2 * n + 0))) (S (n + 1)) (length L + (2 * n + (n + 0)))) by (rewrite LL; exact F).
    destruct (@fill_hole_apex_total _ _ _ dE dF c m _ _ top _ _ _ Wm HR' NO F0) as (m1 & v & ps1 & fs1 & E1 & Wm1 & F1 & LPS1 & AP1).
    pose proof (wfW Wm1) as W1. pose proof (ab_grown AP1) as G1.
    assert (Le : lv (abs m) e = true) by (apply (hole_live H); left; auto).
    assert (Lte : lv (abs m) (tw (abs m) e) = true) by (apply (wf_tw W _ Le)).
    assert (P' : part (abs m) vs n [] [] (L ++ (e :: es))).
    { eapply part_weaken; [exact P|]. intros z I. apply in_app_iff. apply in_app_iff in I as [I|I]; auto. left.
      unfold L. cbn [map] in I. destruct I as [<-|I]; [left; auto|right; rewrite <- in_rev; auto]. }
    pose proof (part_apex Wm P' HR' (@cons_ne _ _ _) AP1) as Q1. rewrite LL in Q1.
    assert (DJ : forall z, In z (e :: es) -> ~ In z L).
    { intros z I J. apply nd_app_inv in NDE. apply (proj2 (proj2 NDE) z); auto. unfold L in J.
      destruct J as [<-|J]; [left; auto|right; apply in_rev; auto]. }
    assert (H1 : hole (abs m1) (e :: es)) by (eapply gr_hole; eauto).
    assert (OV1 : map (og (abs m1)) (e :: es) = vs).
    { rewrite <- OV. apply map_ext_in. intros z I. apply (gr_og G1), (hole_live H I). }
    assert (NO1 : NoDup (map (og (abs m1)) (e :: es))) by (rewrite OV1; auto).
    assert (N2 : 2 <= length (e :: es)) by lia. assert (N3 : 3 <= length (e :: es)) by lia.
    pose proof (hole_noself W1 (proj1 H1) NO1 N2) as NS.
    destruct ys as [|y ys]; [cbn in LY; lia|].
    assert (LY' : length (y :: ys) = length (e :: es)) by lia.
    assert (F1' : fits c m1 (6 * length (e :: es) + (2 * n + 0)) (length (e :: es) + 1) (2 * length (e :: es) + (n + 0))) by (rewrite LE; exact F1).
    destruct (@loft_tri_total _ _ _ dE dF c m1 e es y ys _ _ _ Wm1 H1 NS N3 LY' F1') as (m2 & ps2 & ds & ts & ws & fs2 & hs2 & E2 & Wm2 & F2 & LT & BB).
    pose proof (wfW Wm2) as W2. pose proof (tb_grown BB) as G2. pose proof (tb_hole BB) as HT. rewrite LE in LT.
    assert (LW : length ws = n).
    { pose proof (f_equal (@length _) (tb_pay BB)) as Q. rewrite !map_length in Q. rewrite Q; auto. }
    assert (NW : ws <> []) by (intros ->; cbn in LW; lia).
    assert (Q1' : part (abs m1) (vs ++ [v]) (n + n) ([] ++ fs1) ([] ++ fans (map (og (abs m)) L) v) ((e :: es) ++ [])) by (rewrite app_nil_r; exact Q1).
    pose proof (part_tband Wm1 Q1' H1 (@cons_ne _ _ _) W2 BB) as Q2. rewrite LE, OV1 in Q2.
    pose proof (lt_ogs' (tb_rim BB) NW) as OT.
    destruct ts as [|t ts]; [cbn in LT; lia|].
    assert (NDW : NoDup (map (og (abs m2)) (t :: ts))).
    { rewrite OT. pose proof (proj1 (pa_v Q2)) as ND. apply nd_app_inv in ND. apply ND. }
    assert (F2' : fits c m2 (2 * length (t :: ts) + 0) 1 (length (t :: ts) + 0)) by (rewrite LT; exact F2).
    destruct (@fill_hole_apex_total _ _ _ dE dF c m2 t ts bottom 0 0 0 Wm2 HT NDW F2') as (m3 & w & ps3 & fs3 & E3 & Wm3 & F3 & LPS3 & AP3).
    pose proof (part_apex Wm2 Q2 HT (@cons_ne _ _ _) AP3) as Q3. rewrite LT, OT in Q3.
    exists m3. split.
    { unfold icosahedron. rewrite E. cbn [bind]. rewrite E1. cbn [bind]. rewrite (get_twin Wm1 (gr_live_e G1 Lte)), (gr_tw G1 Lte), (wf_twtw W _ Le).
      cbn [bind]. rewrite E2. cbn [bind hd]. rewrite E3. reflexivity. }
    split; auto. split; [|exact F3].
    assert (Q4 : exists fs', part (abs m3) (((vs ++ [v]) ++ ws) ++ [w]) (n + n + 3 * n + n) fs' (fans (turn vs) v ++ stands vs ws ++ hangs vs ws ++ fans ws w) []).
    { eapply part_fperm; [|exact Q3]. cbn [app]. rewrite <- !app_assoc. apply Permutation_app_tail. rewrite <- RV. unfold L. cbn [map]. apply Permutation_sym, fans_rot. }
    destruct Q4 as (fs' & Q4). replace (6 * n) with (n + n + 3 * n + n) by lia. eapply part_solid; [exact Q4|..].
    - rewrite !app_assoc. eapply (pay_app (ab_grown AP3)); [intros z I; apply (proj2 (pa_v Q2)); auto| |cbn; rewrite (ab_pay AP3); auto].
      eapply (pay_app G2); [intros z I; apply (proj2 (pa_v Q1)); auto| |apply (tb_pay BB)].
      eapply (pay_app G1); [intros z I; apply (proj2 (pa_v P)); auto|exact PV|cbn; rewrite (ab_pay AP1); auto].
    - assert (LV : length vs = n) by (rewrite <- OV, map_length; auto).
      unfold icosa_polys. rewrite !map_app, <- !fans_map, <- turn_map, <- stands_map, <- hangs_map, <- !app_assoc. cbn [app].
      assert (I1 : map (fun i => nth i (vs ++ v :: ws ++ [w]) 0) (seq 0 n) = vs) by (rewrite <- LV; apply nth_seq_app).
      assert (I2 : map (fun i => nth i (vs ++ v :: ws ++ [w]) 0) (seq (S n) n) = ws).
      { replace (vs ++ v :: ws ++ [w]) with ((vs ++ [v]) ++ ws ++ [w]) by (rewrite <- app_assoc; auto).
        apply nth_seq_mid; auto. rewrite app_length. cbn. lia. }
      assert (I3 : nth n (vs ++ v :: ws ++ [w]) 0 = v) by (apply nth_last_at; auto).
      assert (I4 : nth (2 * n + 1) (vs ++ v :: ws ++ [w]) 0 = w).
      { replace (vs ++ v :: ws ++ [w]) with ((vs ++ v :: ws) ++ [w]) by (rewrite <- app_assoc; auto).
        apply nth_last_at. rewrite app_length. cbn. lia. }
      rewrite I1, I2, I3, I4. reflexivity.
  Qed.
  Lemma icosa_solid c (xs ys : list VP) top bottom : let n := length xs in 3 <= n -> length ys = n ->
    12 * n <= capE c -> 2 + 2 * n <= capV c -> 4 * n <= capF c ->
    exists m, icosahedron dE dF c xs ys top bottom = Ok m /\ wf m /\
      solid (abs m) dF (xs ++ [top] ++ ys ++ [bottom]) (icosa_polys n) (6 * n).
  Proof.
    intros n N LY A B D. destruct (@icosa_solid_fits c xs ys top bottom N LY A B D) as (m & E & Wm & S & _). exists m. auto.
  Qed.

  (** * spheres *)
  Record sphere_state m (vp0 : nat -> nat -> VP) k (ts : list nat) (top : nat) (R : list (list nat)) (ws : list nat) (fs : list nat) : Prop := {
    ss_wf : wf m;
    ss_hole : hole (abs m) ts;
    ss_og : map (og (abs m)) ts = turn ws;
    ss_len : forall r, In r (R ++ [ws]) -> length r = k;
    ss_part : part (abs m) (top :: concat (R ++ [ws])) (2 * k * S (length R)) fs (fans (hd [] (R ++ [ws])) top ++ stack (R ++ [ws])) ts;
    ss_pay : map (vp (abs m)) (top :: concat (R ++ [ws])) =
      map Some (vp0 0 0 :: concat (map (fun i => map (vp0 i) (seq 0 k)) (seq 1 (S (length R)))))
  }.

  Lemma sphere_round c m (vp0 : nat -> nat -> VP) k ts top R ws fs a b d : 3 <= k -> sphere_state m vp0 k ts top R ws fs ->
    fits c m (4 * k + a) (k + b) (k + d) ->
    exists m' ts' ws' fs', loft_polygon_back dE dF c m (last ts 0) 2 2 (ring vp0 k (S (length R) + 1)) = Ok (m', last ts' 0) /\
      sphere_state m' vp0 k ts' top (R ++ [ws]) ws' fs' /\ fits c m' a b d.
  Proof.
    intros K S F. pose proof (ss_wf S) as Wm. pose proof (wfW Wm) as W. pose proof (ss_hole S) as H.
    assert (LW : length ws = k) by (apply (ss_len S); apply in_app_iff; right; left; auto).
    assert (LT : length ts = k).
    { pose proof (f_equal (@length _) (ss_og S)) as Q. rewrite map_length, turn_length in Q. lia. }
    destruct (@exists_last _ ts) as (t & e & ET); [intros ->; cbn in LT; lia|].
    assert (H' : hole (abs m) (e :: t)) by (apply (@hole_rot _ _ _ _ t [e]); rewrite <- ET; exact H).
    assert (LE : length (e :: t) = k) by (rewrite <- LT, ET, app_length; cbn; lia).
    unfold ring. destruct k as [|k0]; [lia|]. cbn [seq map]. set (i := Datatypes.S (length R) + 1).
    assert (N : 3 <= length (e :: t)) by lia.
    assert (LY : length (vp0 i 0 :: map (vp0 i) (seq 1 k0)) = length (e :: t)) by (rewrite LE; cbn [length]; rewrite map_length, seq_length; reflexivity).
    assert (F' : fits c m (4 * length (e :: t) + a) (length (e :: t) + b) (length (e :: t) + d)) by (rewrite LE; exact F).
    destruct (@loft_back_total _ _ _ dE dF c m e t _ _ a b d Wm H' N LY F') as (m' & ps & ts' & vs' & fs2 & E & Wm' & F2 & LT' & B).
    rewrite <- ET in B. pose proof (bb_grown B) as G.
    assert (LV : length vs' = Datatypes.S k0).
    { pose proof (f_equal (@length _) (bb_pay B)) as Q. rewrite !map_length in Q. rewrite Q. cbn [length]. rewrite rev_length, map_length, seq_length. auto. }
    exists m', ts', (turn vs'), (fs ++ fs2). split; [rewrite ET, last_last; exact E|]. split; [|exact F2].
    assert (NT : ts <> []) by (intros ->; discriminate).
    assert (NV : vs' <> []) by (intros ->; discriminate).
    assert (P : part (abs m) (top :: concat (R ++ [ws])) (2 * Datatypes.S k0 * Datatypes.S (length R)) fs (fans (hd [] (R ++ [ws])) top ++ stack (R ++ [ws])) (ts ++ [])).
    { rewrite app_nil_r. apply (ss_part S). }
    pose proof (part_band Wm P H NT B) as Q. rewrite LT, app_nil_r, (ss_og S) in Q.
    split; auto.
    - apply (bb_hole B).
    - rewrite turn_turn. apply (lt_ogs' (bb_rim B) NV).
    - intros r I. apply in_app_iff in I as [I|[<-|[]]]; [apply (ss_len S); auto|]. rewrite turn_length. auto.
    - assert (EC : concat ((R ++ [ws]) ++ [turn vs']) = concat (R ++ [ws]) ++ turn vs') by (rewrite concat_app; cbn; rewrite app_nil_r; auto).
      rewrite EC.
      assert (EH : hd [] ((R ++ [ws]) ++ [turn vs']) = hd [] (R ++ [ws])) by (destruct R; auto).
      rewrite EH, <- app_assoc. cbn [app]. rewrite stack_snoc, turn_turn, app_assoc.
      replace (2 * Datatypes.S k0 * Datatypes.S (length (R ++ [ws]))) with (2 * Datatypes.S k0 * Datatypes.S (length R) + 2 * Datatypes.S k0) by (rewrite app_length; cbn [length]; lia).
      eapply part_vperm; [|exact Q]. rewrite app_comm_cons. apply Permutation_app_head, turn_perm.
    - assert (EC : top :: concat ((R ++ [ws]) ++ [turn vs']) = (top :: concat (R ++ [ws])) ++ turn vs') by (rewrite concat_app; cbn; rewrite app_nil_r; auto).
      rewrite EC.
      assert (ES : vp0 0 0 :: concat (map (fun i0 => map (vp0 i0) (seq 0 (Datatypes.S k0))) (seq 1 (Datatypes.S (length (R ++ [ws]))))) =
        (vp0 0 0 :: concat (map (fun i0 => map (vp0 i0) (seq 0 (Datatypes.S k0))) (seq 1 (Datatypes.S (length R))))) ++ map (vp0 i) (seq 0 (Datatypes.S k0))).
      { rewrite app_length. cbn [length]. rewrite Nat.add_1_r, (seq_S (Datatypes.S (length R))), map_app, concat_app. cbn [map concat]. rewrite app_nil_r.
        unfold i. replace (1 + Datatypes.S (length R)) with (Datatypes.S (length R) + 1) by lia. reflexivity. }
      rewrite ES. eapply (pay_app G); [intros z I; apply (proj2 (pa_v (ss_part S))); auto|apply (ss_pay S)|].
      rewrite <- turn_map, (bb_pay B), turn_map. cbn [turn]. rewrite rev_involutive. reflexivity.
  Qed.

  Lemma sphere_rounds c (vp0 : nat -> nat -> VP) k : 3 <= k -> forall cnt m ts top R ws fs a b d, sphere_state m vp0 k ts top R ws fs ->
    fits c m (4 * k * cnt + a) (k * cnt + b) (k * cnt + d) ->
    exists m' ts' R' ws' fs',
      foldM (fun s i => let '(m, prev) := s in loft_polygon_back dE dF c m prev 2 2 (ring vp0 k (i + 1))) (seq (S (length R)) cnt) (m, last ts 0) = Ok (m', last ts' 0) /\
      sphere_state m' vp0 k ts' top R' ws' fs' /\ fits c m' a b d /\ length R' = length R + cnt.
  Proof.
    intros K. induction cnt as [|cnt IH]; intros m ts top R ws fs a b d S F.
    - exists m, ts, R, ws, fs. cbn. split; auto. split; auto. split; [|lia]. eapply fits_le; [apply S|exact F|lia..].
    - assert (F' : fits c m (4 * k + (4 * k * cnt + a)) (k + (k * cnt + b)) (k + (k * cnt + d))).
      { eapply fits_le; [apply S|exact F|lia..]. }
      destruct (sphere_round K S F') as (m1 & ts1 & ws1 & fs1 & E1 & S1 & F1).
      destruct (IH _ _ _ _ _ _ _ _ _ S1 F1) as (m' & ts' & R' & ws' & fs' & E & S' & F2 & LR).
      rewrite app_length in E, LR. cbn [length] in E, LR.
      exists m', ts', R', ws', fs'. split; [|split; auto; split; auto; lia].
      cbn [seq foldM]. rewrite E1. cbn [bind]. rewrite Nat.add_1_r in E. exact E.
  Qed.

  Lemma sphere_solid c (vp0 : nat -> nat -> VP) n k : 2 <= n -> 3 <= k ->
    2 * ((2 * n - 1) * k) <= capE c -> 2 + (n - 1) * k <= capV c -> n * k <= capF c ->
    exists m, uv_sphere dE dF c vp0 n k = Ok m /\ wf m /\
      solid (abs m) dF (sphere_points vp0 n k) (sphere_polys n k) ((2 * n - 1) * k).
  Proof.
    intros N K A B D.
    assert (exists cnt, n = 2 + cnt) as (cnt & ->) by (exists (n - 2); lia).
    assert (LX : length (ring vp0 k 1) = k) by (unfold ring; rewrite map_length, seq_length; auto).
    assert (N1 : 3 <= length (ring vp0 k 1)) by lia.
    assert (A' : 2 * length (ring vp0 k 1) + (2 * k + (4 * k * cnt + (2 * k + 0))) <= capE c) by (rewrite LX; nia).
    assert (B' : length (ring vp0 k 1) + S (k * cnt + 1) <= capV c) by (rewrite LX; nia).
    assert (D' : k + (k * cnt + (k + 0)) <= capF c) by nia.
    destruct (@base_loop _ _ _ dE dF c (ring vp0 k 1) _ _ _ N1 A' B' D') as (m & e & es & vs & E & Wm & F & H & HR & P & PV & OV & RV & LE & NDE).
    rewrite LX in LE, P. pose proof (wfW Wm) as W.
    assert (Le : lv (abs m) e = true) by (apply (hole_live H); left; auto).
    assert (Lte : lv (abs m) (tw (abs m) e) = true) by (apply (wf_tw W _ Le)).
    assert (NO : NoDup (map (og (abs m)) (e :: es))) by (rewrite OV; apply (pa_v P)).
    assert (F0 : fits c m (2 * length (e :: es) + (4 * k * cnt + (2 * k + 0))) (S (k * cnt + 1)) (length (e :: es) + (k * cnt + (k + 0)))) by (rewrite LE; exact F).
    destruct (@fill_hole_apex_total _ _ _ dE dF c m e es (vp0 0 0) _ _ _ Wm H NO F0) as (m1 & v & ps1 & fs1 & E1 & Wm1 & F1 & LPS1 & AP1).
    pose proof (wfW Wm1) as W1. pose proof (ab_grown AP1) as G1.
    set (L := rev (map (tw (abs m)) (e :: es))) in *.
    assert (P' : part (abs m) vs k [] [] ((e :: es) ++ L)).
    { eapply part_weaken; [exact P|]. intros z I. apply in_app_iff. apply in_app_iff in I as [I|I]; auto. right. unfold L. rewrite <- in_rev. auto. }
    pose proof (part_apex Wm P' H (@cons_ne _ _ _) AP1) as Q1. rewrite LE, OV in Q1. cbn [app] in Q1.
    assert (DJ : forall z, In z L -> ~ In z (e :: es)).
    { intros z I J. apply nd_app_inv in NDE. apply (proj2 (proj2 NDE) z); auto. unfold L in I. apply in_rev in I. exact I. }
    assert (H1 : hole (abs m1) L) by (eapply gr_hole; eauto).
    assert (LV : length vs = k) by (rewrite <- OV, map_length; auto).
    assert (LL : last L 0 = tw (abs m) e) by (unfold L; cbn [map rev]; apply last_last).
    assert (S0 : sphere_state m1 vp0 k L v [] vs fs1).
    { split; auto.
      - rewrite <- RV. apply map_ext_in. intros z I. apply (gr_og G1). apply (hole_live HR I).
      - intros r [<-|[]]. auto.
      - cbn [app hd length stack concat]. rewrite !app_nil_r. replace (2 * k * 1) with (k + k) by lia.
        eapply part_vperm; [|exact Q1]. apply Permutation_sym, Permutation_cons_append.
      - cbn [app length concat seq map]. rewrite !app_nil_r. cbn [map]. rewrite (ab_pay AP1). f_equal.
        rewrite (map_vp_grown G1); [exact PV|]. intros z I; apply (proj2 (pa_v P)); auto. }
    destruct (sphere_rounds K S0 F1) as (m2 & ts & R & ws & fs2 & E2 & S2 & F2 & LR). cbn [length Nat.add] in E2, LR.
    pose proof (ss_wf S2) as Wm2. pose proof (wfW Wm2) as W2. pose proof (ss_hole S2) as HT.
    assert (LW : length ws = k) by (apply (ss_len S2); apply in_app_iff; right; left; auto).
    assert (LT : length ts = k).
    { pose proof (f_equal (@length _) (ss_og S2)) as Q. rewrite map_length, turn_length in Q. lia. }
    destruct (@exists_last _ ts) as (t & z & ET); [intros ->; cbn in LT; lia|].
    assert (HT' : hole (abs m2) (z :: t)) by (apply (@hole_rot _ _ _ _ t [z]); rewrite <- ET; exact HT).
    assert (LZ : length (z :: t) = k) by (rewrite <- LT, ET, app_length; cbn; lia).
    assert (OZ : map (og (abs m2)) (t ++ [z]) = turn ws) by (rewrite <- ET; apply (ss_og S2)).
    assert (NW : NoDup ws).
    { pose proof (proj1 (pa_v (ss_part S2))) as ND. apply NoDup_cons_iff in ND as [_ ND]. rewrite concat_app in ND. cbn [concat] in ND.
      rewrite app_nil_r in ND. apply nd_app_inv in ND. apply ND. }
    rewrite map_app in OZ. cbn [map] in OZ.
    assert (NDZ : NoDup (map (og (abs m2)) (z :: t))).
    { cbn [map]. apply (Permutation_NoDup (l := turn ws)); [|apply (Permutation_NoDup (turn_perm ws) NW)].
      rewrite <- OZ. apply Permutation_sym, Permutation_cons_append. }
    assert (F2' : fits c m2 (2 * length (z :: t) + 0) 1 (length (z :: t) + 0)) by (rewrite LZ; exact F2).
    destruct (@fill_hole_apex_total _ _ _ dE dF c m2 z t (vp0 (2 + cnt) 0) 0 0 0 Wm2 HT' NDZ F2') as (m3 & w & ps3 & fs3 & E3 & Wm3 & F3 & LPS3 & AP3).
    exists m3. split.
    { unfold uv_sphere. assert (Q : (2 <=? 2 + cnt) = true) by (apply Nat.leb_le; lia). assert (Q' : (3 <=? k) = true) by (apply Nat.leb_le; auto).
      rewrite Q, Q'. cbn [assert]. rewrite E. cbn [bind]. rewrite (get_twin Wm Lte), (wf_twtw W _ Le). cbn [bind]. rewrite E1. cbn [bind].
      replace (2 + cnt - 2) with cnt by lia. rewrite <- LL.
      rewrite E2. cbn [bind]. rewrite ET, last_last, E3. reflexivity. }
    split; auto.
    assert (Q2 : part (abs m2) (v :: concat (R ++ [ws])) (2 * k * S (length R)) fs2 (fans (hd [] (R ++ [ws])) v ++ stack (R ++ [ws])) ((z :: t) ++ [])).
    { rewrite app_nil_r. eapply part_weaken; [apply (ss_part S2)|]. rewrite ET. intros x I. apply in_app_iff in I as [I|[<-|[]]]; [right; auto|left; auto]. }
    pose proof (part_apex Wm2 Q2 HT' (@cons_ne _ _ _) AP3) as Q3. rewrite LZ in Q3.
    assert (Q4 : exists fs', part (abs m3) ((v :: concat (R ++ [ws])) ++ [w]) (2 * k * S (length R) + k) fs'
       ((fans (hd [] (R ++ [ws])) v ++ stack (R ++ [ws])) ++ fans (turn ws) w) []).
    { eapply part_fperm; [|exact Q3]. apply Permutation_app_head. rewrite <- OZ. cbn [map]. apply Permutation_sym, fans_rot. }
    destruct Q4 as (fs' & Q4).
    replace ((2 * (2 + cnt) - 1) * k) with (2 * k * S (length R) + k) by (rewrite LR; nia).
    eapply part_solid; [exact Q4|..].
    - unfold sphere_points. replace (2 + cnt - 1) with (S cnt) by lia. rewrite app_comm_cons.
      eapply (pay_app (ab_grown AP3)); [intros x I; apply (proj2 (pa_v Q2)); auto| |cbn [map]; rewrite (ab_pay AP3); auto].
      rewrite (ss_pay S2), LR. reflexivity.
    - set (RR := R ++ [ws]) in *.
      assert (LRR : length RR = S cnt) by (unfold RR; rewrite app_length; cbn; lia).
      set (h := fun i => nth i ((v :: concat RR) ++ [w]) 0).
      assert (IR : map (fun i => map h (sphere_ring k i)) (seq 1 (S cnt)) = RR).
      { transitivity (map (fun i => map (fun x => nth x ([v] ++ concat RR ++ [w]) 0) (seq (1 + i * k) k)) (seq 0 (length RR)));
          [|apply (concat_index (ss_len S2) (p := [v]) [w] (j := 1) eq_refl)]. rewrite LRR, <- seq_shift, map_map.
        apply map_ext. intros i. unfold sphere_ring. rewrite Nat.sub_1_r. cbn [Nat.pred]. reflexivity. }
      assert (I1 : map h (sphere_ring k 1) = hd [] RR) by (rewrite <- IR; reflexivity).
      assert (I2 : map h (sphere_ring k (S cnt)) = ws).
      { transitivity (last RR []); [|unfold RR; apply last_last]. rewrite <- IR. rewrite seq_S, map_app. cbn [map]. rewrite last_last. reflexivity. }
      assert (I3 : h 0 = v) by reflexivity.
      assert (I4 : h (1 + S cnt * k) = w).
      { unfold h. apply nth_last_at. cbn [length]. change (concat RR) with (concat (R ++ [ws])). rewrite (concat_length_eq (ss_len S2)). change (R ++ [ws]) with RR. rewrite LRR. lia. }
      unfold sphere_polys. replace (2 + cnt - 1) with (S cnt) by lia. fold h.
      rewrite !map_app, <- !fans_map, <- turn_map, I1, I2, I3, I4, <- stack_map, map_map, IR, app_assoc. reflexivity.
  Qed.
End Sphere.
