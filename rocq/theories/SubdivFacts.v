(** One step and repeated steps of subdivision on a mesh. *)
From Coq Require Import List Arith Lia Bool Permutation.
From Verif Require Import Base DVec DVecFacts Mesh Spec Rep MeshSpec MeshMore MeshProofs CheckProofs Room Ops Ops2
  Subdivision SubdivSpec SubdivInv SubdivLoop SubdivDone.
Import ListNotations.
Set Implicit Arguments.
Unset Strict Implicit.
Local Arguments abs : simpl never.

Section Facts.
  Context {VP EP FP : Type}.
  Notation mesh := (mesh VP EP FP).
  Notation graph := (graph VP EP FP).
  Implicit Types (g : graph) (m : mesh) (c : cfg).
  Variable phi : list (nat * VP) -> VP.
  Variable dE : EP.
  Variable interp : mesh -> list (nat * nat) -> res VP.
  Variable P : VP -> VP -> VP -> Prop.
  Hypothesis RD : reads P phi interp.

  Lemma ids_nodup (A : Type) (d : dvec A) : dv_ok d [] -> NoDup (map fst (d_iter d)).
  Proof. apply iter_ids_nodup. Qed.
  Lemma ids_count (A : Type) (d : dvec A) l : dv_ok d [] -> NoDup l -> (forall j, In j l <-> d_has d j = true) -> d_len d = length l.
  Proof.
    intros OK ND H. rewrite (len_iter OK). cbn. rewrite Nat.add_0_r, <- (map_length fst). apply Permutation_length.
    apply NoDup_Permutation; auto using ids_nodup. intros x. rewrite H. apply in_iter_has; auto.
  Qed.

  Lemma triangles_geq g g' : WF g -> geq g g' -> triangles g -> triangles g'.
  Proof.
    intros W Q [A B C]. split; intros e L; rewrite <- (q_lv Q) in L; pose proof (wf_nx W _ L) as LN; pose proof (wf_nx W _ LN) as LNN; pose proof (wf_tw W _ L) as LT.
    - rewrite <- (q_fc Q) by auto. auto.
    - rewrite <- (q_nx Q e), <- (q_nx Q (nx g e)), <- (q_nx Q (nx g (nx g e))) by auto. auto.
    - rewrite <- (q_tw Q e), <- (q_og Q e), <- (q_og Q (tw g e)) by auto. auto.
  Qed.
  Lemma triangle_geq g g' h x y z : WF g -> geq g g' -> triangle g h x y z -> triangle g' h x y z.
  Proof.
    intros W Q (L & A). pose proof (wf_nx W _ L) as LN. pose proof (wf_nx W _ LN) as LNN.
    split; [rewrite <- (q_lv Q); auto|]. rewrite <- (q_nx Q h), <- (q_nx Q (nx g h)), <- (q_nx Q (nx g (nx g h))), <- !(q_og Q) by auto. auto.
  Qed.
  Lemma inherits_geq g0 e g g' h : WF g -> geq g g' -> lv g h = true -> inherits g0 e g h -> inherits g0 e g' h.
  Proof.
    intros W Q L (f & f' & cu & y & A & B & C & D). exists f, f', cu, y. split; auto. split; auto.
    rewrite <- (q_fc Q) by auto. split; auto. rewrite <- (q_fp Q); auto. apply (wf_fc W _ L C).
  Qed.
  Lemma subdivided_geq mid g0 g g' : WF g -> geq g g' -> subdivided mid g0 g -> subdivided mid g0 g'.
  Proof.
    intros W Q S. split; try apply S.
    - intros v. rewrite <- (q_lvv Q). apply S.
    - intros v L. rewrite <- (sd_keep S L). symmetry. apply (q_vp Q). apply (sd_vertices S). auto.
    - intros e L. destruct (sd_corner S L) as (h & A & B). exists h. split; [apply (triangle_geq W Q A)|]. apply (inherits_geq W Q); auto. apply A.
    - intros e L. destruct (sd_centre S L) as (h & A & B). exists h. split; [apply (triangle_geq W Q A)|]. apply (inherits_geq W Q); auto. apply A.
    - intros h L. rewrite <- (q_lv Q) in L. destruct (sd_only S L) as (e & k & A & B & C). exists e, k. split; auto.
      rewrite <- (q_nx Q h), <- (q_nx Q (nx g h)) by (auto; apply W; auto). split; auto.
      destruct C; [left|right]; apply (triangle_geq W Q); auto.
  Qed.

  Lemma loop_subdivision_ok c m a b d : wf m -> triangles (abs m) -> every_face P (abs m) ->
    fits c m (3 * num_edges m + a) (num_edges m / 2 + b) (3 * num_faces m + d) ->
    exists m' mid, loop_subdivision dE interp c m = Ok m' /\ wf m' /\ triangles (abs m') /\
      subdivided mid (abs m) (abs m') /\ middles phi mid (abs m) (abs m') /\
      num_edges m' = 4 * num_edges m /\ num_vertices m' = num_vertices m + num_edges m / 2 /\ num_faces m' = 4 * num_faces m /\
      fits c m' a b d.
  Proof.
    intros Wm T EF F. destruct (wf_abs Wm) as [R W]. apply fits_room in F; auto.
    destruct Wm as (OE & OV & OF & _).
    set (g0 := abs m) in *. set (le := edge_ids m). set (lf := face_ids m). set (lw := vertex_ids m).
    assert (NE : NoDup le) by (apply ids_nodup; auto). assert (NF : NoDup lf) by (apply ids_nodup; auto). assert (NV : NoDup lw) by (apply ids_nodup; auto).
    assert (LE : forall x, In x le <-> lv g0 x = true) by (intros x; apply in_iter_has; auto).
    assert (LF : forall x, In x lf <-> lvf g0 x = true) by (intros x; apply in_iter_has; auto).
    assert (LV : forall x, In x lw <-> lvv g0 x = true) by (intros x; apply in_iter_has; auto).
    assert (CE : num_edges m = length le) by (apply ids_count; auto).
    assert (CF : num_faces m = length lf) by (apply ids_count; auto).
    assert (CV : num_vertices m = length lw) by (apply ids_count; auto).
    pose proof (@three_faces _ _ _ g0 W T le lf NE LE NF LF) as H3.
    pose proof (@halves_two _ _ _ g0 W le NE LE) as H2.
    assert (HH : num_edges m / 2 = length (halves g0 le)).
    { rewrite CE, <- H2, Nat.mul_comm. apply Nat.div_mul. discriminate. }
    assert (WH : whole g0 le q0 = length (halves g0 le)).
    { unfold whole, halves. f_equal. apply filter_ext. intros x. cbn. rewrite !andb_true_r. auto. }
    rewrite HH, <- WH in F. replace (3 * num_edges m + a) with (9 * length lf + a) in F by lia. rewrite CF in F.
    assert (VPL : forall mm g, rep mm [] [] [] g -> forall v, lvv g v = true -> vp g v <> None).
    { intros mm g RR v L. pose proof (r_v RR v) as Q. destruct (look (verts mm) v); [|congruence]. destruct Q as (_ & _ & ->). discriminate. }
    destruct (@faces_ok _ _ _ g0 W T phi dE interp P RD EF le NE LE (VPL _ _ R) c lf m g0 q0 a b d (inv_start T phi) R NF)
      as (m' & q & g & E & I & R' & J & PR & RM); auto.
    { intros f Hf. split; auto. apply LF; auto. }
    assert (PR' : forall f, lvf g0 f = true -> pr q f = true).
    { intros f Lf. rewrite PR. apply LF in Lf. apply mem_in in Lf. rewrite Lf. auto. }
    pose proof (done_WF W T I PR') as W'. destruct (rep_wf R' W') as [Wm' Q].
    assert (OK' := Wm'). destruct OK' as (OE' & OV' & OF' & _).
    exists m', (mu q). split; [exact E|]. split; auto.
    pose proof (done_triangles W T I PR') as T'. pose proof (done_subdivided W T I PR') as SD.
    pose proof (done_middles W T I PR' (VPL _ _ R')) as MD.
    split; [|split; [|split; [|split; [|split; [|split]]]]].
    - apply (triangles_geq W' Q T').
    - apply (subdivided_geq W' Q SD).
    - intros e L. destruct (MD e L) as (e' & A & B & C). exists e'. split; auto. rewrite <- (q_vp Q); auto. apply (sd_vertices SD). eauto.
    - rewrite CE. destruct (edge_list_ok W T I PR' NE LE) as (A & B & C).
      unfold num_edges. rewrite (@ids_count _ (edges m') _ OE' A); auto. intros j. rewrite B. rewrite (q_lv Q). reflexivity.
    - rewrite CV, HH. destruct (vertex_list_ok W T I PR' NE LE NV LV) as (A & B & C).
      unfold num_vertices. rewrite (@ids_count _ (verts m') _ OV' A); auto. intros j. rewrite B. rewrite (q_lvv Q). reflexivity.
    - rewrite CF. destruct (face_list_ok W T I PR' NE LE NF LF) as (A & B & C).
      unfold num_faces. rewrite (@ids_count _ (faces m') _ OF' A); [lia|]. intros j. rewrite B. rewrite (q_lvf Q). reflexivity.
    - apply fits_room; auto. assert (X : whole g0 le q = 0); [|rewrite X in RM; auto].
      apply whole_done; auto. intros x Lx. rewrite J; auto. apply (all_pre W T PR' Lx).
  Qed.

  Lemma even_edges m : wf m -> exists E, num_edges m = 2 * E.
  Proof.
    intros Wm. destruct (wf_abs Wm) as [R W]. destruct Wm as (OE & _).
    assert (ND : NoDup (edge_ids m)) by (apply ids_nodup; auto).
    assert (LE : forall x, In x (edge_ids m) <-> lv (abs m) x = true) by (intros x; apply in_iter_has; auto).
    exists (length (halves (abs m) (edge_ids m))). rewrite (@halves_two _ _ _ (abs m) W _ ND LE). apply ids_count; auto.
  Qed.
  Lemma four_pow k : exists t, 4 ^ k = 1 + 3 * t /\ (4 ^ k - 1) / 3 = t /\ 4 ^ S k = 1 + 3 * (1 + 4 * t) /\ (4 ^ S k - 1) / 3 = 1 + 4 * t.
  Proof.
    assert (H : exists t, 4 ^ k = 1 + 3 * t).
    { induction k as [|k [t IH]]; [exists 0; reflexivity|]. exists (1 + 4 * t). cbn [Nat.pow]. rewrite IH. lia. }
    assert (D : forall x, (1 + 3 * x - 1) / 3 = x).
    { intros x. replace (1 + 3 * x - 1) with (x * 3) by lia. apply Nat.div_mul. discriminate. }
    destruct H as [t H]. assert (H' : 4 ^ S k = 1 + 3 * (1 + 4 * t)) by (cbn [Nat.pow]; rewrite H; lia).
    exists t. rewrite H', H. auto.
  Qed.

  Hypothesis SV : survives (EP := EP) (FP := FP) P phi.
  Lemma frequency_loop_ok c : forall k m fl, wf m -> triangles (abs m) -> every_face P (abs m) -> k <= fl ->
    fits c m ((4 ^ k - 1) * num_edges m) ((4 ^ k - 1) / 3 * (num_edges m / 2)) ((4 ^ k - 1) * num_faces m) ->
    exists m', frequency_loop dE interp c m (2 ^ k) fl = Ok m' /\ wf m' /\ triangles (abs m') /\ every_face P (abs m') /\ refined phi k (abs m) (abs m') /\
      num_edges m' = 4 ^ k * num_edges m /\ num_vertices m' = num_vertices m + (4 ^ k - 1) / 3 * (num_edges m / 2) /\ num_faces m' = 4 ^ k * num_faces m.
  Proof.
    induction k as [|k IH]; intros m fl Wm T EF Fl F.
    - exists m. split; [destruct fl; reflexivity|]. split; auto. split; auto. split; auto. split; [constructor|].
      change ((4 ^ 0 - 1) / 3) with 0. change (4 ^ 0) with 1. lia.
    - destruct (wf_abs Wm) as [_ W]. destruct (four_pow k) as (t & P1 & P2 & P3 & P4). rewrite P4, P3 in F. destruct (even_edges Wm) as [E EE].
      assert (HE : num_edges m / 2 = E) by (rewrite EE, Nat.mul_comm; apply Nat.div_mul; discriminate).
      set (H := num_edges m) in *. set (Fc := num_faces m) in *.
      replace ((1 + 3 * (1 + 4 * t) - 1) * H) with (3 * H + (4 ^ k - 1) * (4 * H)) in F by (rewrite P1; nia).
      replace ((1 + 3 * (1 + 4 * t) - 1) * Fc) with (3 * Fc + (4 ^ k - 1) * (4 * Fc)) in F by (rewrite P1; nia).
      replace ((1 + 4 * t) * (H / 2)) with (H / 2 + t * (4 * E)) in F by (rewrite HE; nia).
      destruct (loop_subdivision_ok Wm T EF F) as (m1 & mid & E1 & W1 & T1 & SD & MD & C1 & C2 & C3 & F1).
      assert (HE1 : num_edges m1 / 2 = 4 * E).
      { rewrite C1. fold H. rewrite EE. replace (4 * (2 * E)) with (4 * E * 2) by lia. apply Nat.div_mul. discriminate. }
      destruct fl as [|fl]; [lia|].
      destruct (IH m1 fl W1 T1 (SV W T EF (proj2 (wf_abs W1)) T1 SD MD)) as (m2 & E2 & W2 & T2 & EF2 & RF & D1 & D2 & D3); [lia|rewrite HE1, C1, C3, P2; exact F1|].
      exists m2. assert (B1 : 1 < 2 ^ S k) by (apply Nat.pow_gt_1; lia).
      split; [|split; [auto|split; [auto|split; [auto|split; [apply refined_step with (g1 := abs m1) (mid := mid); auto; apply (wf_abs W1)|]]]]].
      + cbn [frequency_loop]. rewrite (proj2 (Nat.ltb_lt _ _) B1), E1. cbn [bind].
        destruct (Nat.eqb_spec (2 ^ S k) 1); [lia|].
        assert (Q : 2 ^ S k = 2 ^ k * 2) by (cbn [Nat.pow]; lia). rewrite Q.
        rewrite Nat.mod_mul, Nat.div_mul by discriminate. cbn. exact E2.
      + rewrite D1, D2, D3, HE1, C1, C2, C3, P2, P4, P3, P1. fold H. fold Fc. rewrite HE. nia.
  Qed.

  Lemma pow_land b : 1 <= b -> (Nat.land b (b - 1) = 0 <-> exists k, b = 2 ^ k).
  Proof.
    intros B. split.
    - intros L. exists (Nat.log2 b). destruct (Nat.log2_spec b) as [A C]; [lia|].
      destruct (Nat.eq_dec b (2 ^ Nat.log2 b)) as [|N]; auto. exfalso.
      assert (LB : Nat.log2 (b - 1) = Nat.log2 b) by (apply Nat.log2_unique; lia).
      assert (X : Nat.testbit (Nat.land b (b - 1)) (Nat.log2 b) = true).
      { rewrite Nat.land_spec, (Nat.bit_log2 b) by lia. rewrite <- LB. apply Nat.bit_log2.
        assert (2 ^ Nat.log2 b <> 0) by (apply Nat.pow_nonzero; discriminate). lia. }
      rewrite L, Nat.bits_0 in X. discriminate.
    - intros [k ->]. replace (2 ^ k - 1) with (Nat.ones k) by (rewrite Nat.ones_equiv; lia).
      rewrite Nat.land_ones. apply Nat.mod_same. apply Nat.pow_nonzero. discriminate.
  Qed.

  Lemma frequency_ok c k m : wf m -> triangles (abs m) -> every_face P (abs m) ->
    fits c m ((4 ^ k - 1) * num_edges m) ((4 ^ k - 1) / 3 * (num_edges m / 2)) ((4 ^ k - 1) * num_faces m) ->
    exists m', (let* d := sd_new (2 ^ k) 0 in subdivision_frequency dE interp c m d) = Ok m' /\ wf m' /\ triangles (abs m') /\ every_face P (abs m') /\ refined phi k (abs m) (abs m') /\
      num_edges m' = 4 ^ k * num_edges m /\ num_vertices m' = num_vertices m + (4 ^ k - 1) / 3 * (num_edges m / 2) /\ num_faces m' = 2 ^ k * 2 ^ k * num_faces m.
  Proof.
    intros Wm T EF F. assert (B : 1 <= 2 ^ k) by (assert (2 ^ k <> 0) by (apply Nat.pow_nonzero; discriminate); lia).
    assert (LE : k <= 2 ^ k) by (assert (k < 2 ^ k) by (apply Nat.pow_gt_lin_r; lia); lia).
    destruct (frequency_loop_ok Wm T EF LE F) as (m' & E & W' & T' & EF' & RF & C1 & C2 & C3). exists m'.
    assert (P4 : 4 ^ k = 2 ^ k * 2 ^ k) by (rewrite <- Nat.pow_mul_l; auto).
    split; [|rewrite P4 in C3; auto 10].
    unfold sd_new. rewrite (proj2 (Nat.leb_le _ _) B). cbn [assert bind]. unfold subdivision_frequency. cbn [sd_b sd_c]. rewrite Nat.eqb_refl. cbn [assert].
    rewrite (proj2 (pow_land B)), Nat.eqb_refl by eauto. cbn [assert]. rewrite E. cbn [bind].
    unfold dassert, triangulation_number. cbn [sd_b sd_c]. fold (num_faces m') (num_faces m).
    replace (num_faces m * (2 ^ k * 2 ^ k + 2 ^ k * 0 + 0 * 0)) with (num_faces m') by (rewrite C3, P4; nia). rewrite Nat.eqb_refl. destruct (dbg c); reflexivity.
  Qed.

  (** every other description is refused *)
  Lemma frequency_panics c m b cc : (forall k, ~ (b = 2 ^ k /\ cc = 0)) ->
    (let* d := sd_new b cc in subdivision_frequency dE interp c m d) = Panic.
  Proof.
    intros H. unfold sd_new. destruct (Nat.leb_spec 1 b) as [B|B]; [|reflexivity]. cbn [assert bind]. unfold subdivision_frequency. cbn [sd_b sd_c].
    destruct (Nat.eqb_spec cc 0) as [->|]; [|reflexivity]. cbn [assert].
    destruct (Nat.eqb_spec (Nat.land b (b - 1)) 0) as [L|]; [|reflexivity]. exfalso. apply (pow_land B) in L as [k ->]. apply (H k). auto.
  Qed.
End Facts.
