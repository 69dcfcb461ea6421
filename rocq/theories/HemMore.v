(** What a hem means for the numbers of vertices, edges and faces and for the returned half-edge. *)
From Coq Require Import List Arith Lia Bool Permutation.
From Verif Require Import Base DVec DVecFacts Mesh Spec Rep Splice Cycle Traverse Room Ops MeshSpec MeshProofs MeshProofs2
  MeshMore MeshTotal MeshFacts NetProofs IsoProofs BuildSpec Solid BuildStep PathProofs ApexProofs LoftProofs PartProofs HemSpec HemProofs HemTop.
Import ListNotations.
Set Implicit Arguments.
Unset Strict Implicit.

Local Arguments abs : simpl never.
Section HemMore.
  Context {VP EP FP : Type}.
  Notation graph := (graph VP EP FP).
  Notation mesh := (mesh VP EP FP).
  Implicit Types (g : graph) (m : mesh).
  Variable (dE : EP) (dF : FP).

  Lemma face_is_sides m f es y cu : wf m -> face_is (abs m) f es y cu -> face_num_edges m f = Ok (length es).
  Proof.
    intros Wm FI. destruct (wf_abs Wm) as [Rp W]. destruct FI as (LF & _ & LP & FC).
    destruct (boundary_exists Wm LF) as (bl & t & LT & _).
    destruct es as [|e es]; [destruct LP as [_ []]|].
    assert (I : In (fe (abs m) f) (e :: es)).
    { destruct (wf_fc W _ (proj1 LP e (or_introl eq_refl)) (FC e (or_introl eq_refl))) as [_ RE].
      assert (I : In e (fe (abs m) f :: t)) by (apply (cycle_reach e (proj2 LT)); auto).
      apply (cycle_same (proj2 LT) (proj2 LP) I (or_introl eq_refl)). left. auto. }
    apply in_split in I as (p & q & E). rewrite E in LP |- *. pose proof (loop_rot LP) as LP2. cbn [app] in LP2.
    destruct (face_num_edges_ok Wm LF LP2) as [E1 _]. rewrite E1, !app_length. f_equal. cbn. rewrite app_length. lia.
  Qed.

  Lemma hem_faces g y Bs : forall ps Ts fs, hem_band g y Bs ps Ts fs ->
    forall f, In f fs -> exists B T es, In B Bs /\ In T Ts /\ face_is g f es y false /\ length es = length B + length T + 2.
  Proof.
    induction Bs as [|B Bs IH]; intros ps Ts fs H f I; destruct ps as [|p [|q ps]]; destruct Ts as [|T Ts]; destruct fs as [|f0 fs];
      cbn [hem_band] in H; try tauto; try destruct I.
    - subst f0. destruct H as (_ & H & _). exists B, T. eexists. split; [left; auto|]. split; [left; auto|]. split; [exact H|].
      rewrite app_length. cbn [length]. rewrite app_length, rev_length, map_length. cbn. lia.
    - destruct H as (_ & _ & H). destruct (IH _ _ _ H f) as (B0 & T0 & es & I1 & I2 & X); auto. exists B0, T0, es.
      split; [right; auto|]. split; [right; auto|]. auto.
  Qed.

  Lemma concat_const {A} (l : list (list A)) i : (forall x, In x l -> S (length x) = i) -> length (concat l) = length l * (i - 1).
  Proof.
    induction l as [|x l IH]; intros H; auto. cbn [concat length]. rewrite app_length, IH by (intros; apply H; right; auto).
    pose proof (H x (or_introl eq_refl)). lia.
  Qed.

  Lemma loft_hem_numbers c m n k N start t y y1 ys : wf m -> 2 <= n -> 2 <= k -> hole (abs m) (start :: t) ->
    length (start :: t) = N * (k - 1) -> length (y :: y1 :: ys) = N * (n - 1) -> ys <> [] ->
    fits c m (2 * n * N) (N * (n - 1)) N ->
    exists m' r fs, loft_polygon_back dE dF c m start n k (y :: y1 :: ys) = Ok (m', r) /\ wf m' /\
      num_vertices m' = num_vertices m + N * (n - 1) /\ num_faces m' = num_faces m + N /\ num_edges m' = num_edges m + 2 * n * N /\
      length fs = N /\ (forall f, In f fs -> lvf (abs m) f = false /\ face_num_edges m' f = Ok (n + k)) /\
      vp (abs m') (og (abs m') r) = Some y1 /\ vp (abs m') (target (abs m') r) = Some y /\
      exists l, hole (abs m') (l ++ [r]) /\ length (l ++ [r]) = N * (n - 1) /\
        map (fun e => vp (abs m') (og (abs m') e)) (l ++ [r]) = map Some (y :: rev (y1 :: ys)).
  Proof.
    intros Wm N2 K2 H LL LY NY F.
    assert (L3 : 3 <= length (y :: y1 :: ys)) by (destruct ys; [congruence|cbn; lia]).
    assert (F' : fits c m (2 * n * N + 0) (N * (n - 1) + 0) (N + 0)) by (rewrite !Nat.add_0_r; exact F).
    destruct (@loft_hem_total _ _ _ dE dF c m n k N start t y (y1 :: ys) 0 0 0 Wm N2 K2 H LL LY L3 F')
      as (m' & Bs & ps & Ts & vs & fs & E & Wm' & _ & LB & HB).
    exists m', (last (concat Ts) 0), fs. split; auto. split; auto. pose proof (wfW Wm') as W'.
    pose proof (hem_length (hb_band HB)) as (LPS & LTS & LFS). rewrite app_length in LPS.
    assert (LCT : length (concat Ts) = N * (n - 1)) by (rewrite (concat_const (hb_T HB)), LTS, LB; auto).
    pose proof (f_equal (@length _) (hb_pay HB)) as LV. rewrite !map_length in LV.
    assert (LV' : length vs = N * (n - 1)).
    { rewrite LV, <- LY. cbn [length]. rewrite rev_length. auto. }
    assert (LP1 : length ps = N).
    { destruct ps as [|p ps]; cbn in LPS; [|cbn; lia]. destruct N; cbn in *; lia. }
    destruct (grown_count Wm Wm' (hb_grown HB)) as (CE & CV & CF).
    rewrite !app_length, map_length, !app_length in CE. rewrite LP1, LCT in CE. rewrite LFS, LB in CF. rewrite LV' in CV.
    split; auto. split; auto. split; [rewrite CE; nia|]. split; [lia|]. split.
    { intros f I. split; [apply (gr_new_f (hb_grown HB) I)|].
      destruct (hem_faces (hb_band HB) I) as (B & T & es & IB & IT & FI & LE). rewrite (face_is_sides Wm' FI), LE.
      pose proof (hb_B HB IB). pose proof (hb_T HB IT). f_equal. lia. }
    assert (NR : concat Ts <> []) by (intros Q; rewrite Q in LCT; cbn in LCT; lia).
    destruct (split_last 0 NR) as (l & EL). set (r := last (concat Ts) 0) in *.
    pose proof (hb_rim HB) as RR. pose proof (hb_pay HB) as PP.
    destruct vs as [|v vs]; [discriminate|]. destruct (@exists_last _ vs) as (ws & w & EW).
    { intros ->. cbn in LV'. cbn in LY. lia. }
    assert (RV : rev (y1 :: ys) = rev ys ++ [y1]) by reflexivity.
    assert (PV : map (vp (abs m')) (v :: ws) ++ [vp (abs m') w] = map Some (y :: rev ys) ++ [Some y1]).
    { change [vp (abs m') w] with (map (vp (abs m')) [w]). rewrite <- map_app. rewrite EW in PP. cbn [app]. rewrite PP, RV. cbn [map].
      rewrite map_app. reflexivity. }
    apply app_inj_tail in PV as [PV PW].
    cbn [firstn] in RR. rewrite EL, EW in RR.
    assert (RR1 : leads_through (abs m') (l ++ [r]) ((v :: ws) ++ [w; v])).
    { cbn [app] in *. rewrite <- app_assoc in RR. exact RR. }
    split; [rewrite (lt_og RR1); exact PW|]. split.
    { assert (RR2 : leads_through (abs m') (l ++ [r]) (((v :: ws) ++ [w]) ++ [v])) by (rewrite <- app_assoc; exact RR1).
      rewrite (proj1 (lt_last RR2)). cbn [map] in PV. exact (f_equal (hd None) PV). }
    exists l. rewrite <- EL. split; [apply (hb_hole HB)|]. split; auto.
    assert (OG : map (og (abs m')) (concat Ts) = v :: vs).
    { apply (lt_ogs' (hb_rim HB)). discriminate. }
    rewrite <- (map_map (og (abs m')) (vp (abs m'))), OG. exact PP.
  Qed.
End HemMore.
