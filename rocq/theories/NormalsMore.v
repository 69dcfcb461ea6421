(** Consequences for smooth normals: where they point, flat surroundings, rigid motions. *)
From Coq Require Import List Arith Lia Bool Reals Lra RealField Setoid Ring_theory Permutation.
From Verif Require Import Base DVec DVecFacts Mesh Spec MeshSpec MeshMore MeshFacts TopoSpec BuildSpec BuildStep Rep Traverse MeshProofs IsoProofs Cycle CheckProofs.
From Verif Require Import Tess Alg AlgSpec TriSpec AlgProofs AffineProofs Transform TransSpec TransProofs Normals NormalsSpec NormalsProofs.
Import ListNotations.
Set Implicit Arguments.
Unset Strict Implicit.
Local Arguments abs : simpl never.
Local Open Scope nat_scope.

Lemma vsum_cons u us i : vsum (u :: us) i = (u i + vsum us i)%R.
Proof. reflexivity. Qed.
Lemma vsum_dot us d : (forall u, In u us -> 0 < rdot u d)%R -> us <> [] -> (0 < rdot (vsum us) d)%R.
Proof.
  intros H N. assert (G : (us <> [] -> 0 < rdot (vsum us) d)%R /\ (0 <= rdot (vsum us) d)%R); [|apply G; auto].
  clear N. induction us as [|u us IH]; [split; [congruence|unfold vsum, dot3; cbn; lra]|].
  destruct IH as [_ IH]; [intros x I; apply H; right; auto|]. pose proof (H u (or_introl eq_refl)) as P.
  assert (E : rdot (vsum (u :: us)) d = (rdot u d + rdot (vsum us) d)%R) by (unfold dot3; rewrite !vsum_cons; ring).
  rewrite E. split; intros; lra.
Qed.
Lemma vsum_const us (w : rvec) i : (forall u, In u us -> u i = w i) -> vsum us i = (INR (length us) * w i)%R.
Proof.
  induction us as [|u us IH]; intros H; [cbn; ring|]. rewrite vsum_cons, IH by (intros x I; apply H; right; auto).
  rewrite (H u) by (left; auto). cbn [length]. rewrite S_INR. ring.
Qed.
Lemma direction_self (w : rvec) k : rdot w w = 1%R -> (0 < k)%R -> direction (fun i => (k * w i)%R) w.
Proof. intros U K. left. exists k. auto. Qed.
Lemma Forall2_in_r {A B} (P : A -> B -> Prop) l l' y : Forall2 P l l' -> In y l' -> exists x, In x l /\ P x y.
Proof. intros F. induction F as [|a b l l' H F IH]; intros I; [destruct I|]. destruct I as [<-|I]; [exists a; cbn; auto|]. destruct (IH I) as (x & X & Y). exists x. cbn. auto. Qed.

Section More.
  Context {FP : Type}.
  Notation mesh := (mesh (pnu R) (curve R) FP).
  Notation graph := (graph (pnu R) (curve R) FP).
  Implicit Types (m : mesh) (g : graph).
  Notation fnormal := (face_normal 0%R Rplus Rmult Rminus (-1 / 2)%R).

  (** the stored normal of a vertex with a face *)
  Lemma smooth_at nan g g' v q : smoothed nan g g' -> vp g' v = Some q ->
    (exists e, lv g e = true /\ og g e = v /\ fc g e <> None) ->
    exists l, corners g v l /\ l <> [] /\ smooth_normal g l (u_nor q).
  Proof.
    intros (_ & _ & _ & S) Q (e & E). specialize (S v). rewrite Q in S. unfold related in S. destruct (vp g v) as [p|]; [|destruct S].
    destruct S as (_ & _ & l & C & _ & S). assert (N : l <> []) by (intros ->; apply (proj2 C) in E; destruct E).
    exists l. auto.
  Qed.

  Lemma smooth_points nan g g' v q d : smoothed nan g g' -> vp g' v = Some q ->
    (exists e, lv g e = true /\ og g e = v /\ fc g e <> None) ->
    (forall e f a, lv g e = true -> og g e = v -> fc g e = Some f -> face_area g f a -> (0 < rdot a d)%R) ->
    rdot (u_nor q) (u_nor q) = 1%R /\ (0 < rdot (u_nor q) d)%R.
  Proof.
    intros S Q E H. destruct (smooth_at S Q E) as (l & C & N & us & F & D). apply (direction_pos D). apply vsum_dot.
    - intros u I. destruct (Forall2_in_r F I) as (e & Ie & f & a & A1 & A2 & A3). apply (proj2 C) in Ie as (L & O & _).
      eapply direction_pos; [exact A3|]. eapply H; eauto.
    - intros ->. inversion F; subst; auto.
  Qed.

  Lemma smooth_flat nan g g' v q w : smoothed nan g g' -> vp g' v = Some q ->
    (exists e, lv g e = true /\ og g e = v /\ fc g e <> None) -> rdot w w = 1%R ->
    (forall e f a, lv g e = true -> og g e = v -> fc g e = Some f -> face_area g f a -> direction a w) ->
    forall i, i < 3 -> u_nor q i = w i.
  Proof.
    intros S Q E U H. destruct (smooth_at S Q E) as (l & C & N & us & F & D).
    assert (K : forall u, In u us -> forall i, i < 3 -> u i = w i).
    { intros u I i Hi. destruct (Forall2_in_r F I) as (e & Ie & f & a & A1 & A2 & A3). apply (proj2 C) in Ie as (L & O & _).
      eapply direction_unique; [exact A3| |exact Hi]. eapply H; eauto. }
    intros i Hi. eapply direction_unique; [exact D| |exact Hi].
    apply direction_ext with (fun i => (INR (length us) * w i)%R).
    - intros j Hj. symmetry. apply vsum_const. intros u I. apply K; auto.
    - apply direction_self; auto. apply lt_0_INR. destruct us; cbn; [inversion F; subst; congruence|lia].
  Qed.

  (** triangles turned away from the origin *)
  Lemma smooth_outward m nan g' v p q : wf m -> smoothed nan (abs m) g' -> vp (abs m) v = Some p -> vp g' v = Some q ->
    (exists e, lv (abs m) e = true /\ og (abs m) e = v /\ fc (abs m) e <> None) ->
    (forall e f vs ps, lv (abs m) e = true -> og (abs m) e = v -> fc (abs m) e = Some f -> boundary_vertices (abs m) f vs ->
       map (vp (abs m)) vs = map Some ps ->
       exists a b c, map (@u_pos R) ps = [a; b; c] /\ (0 < rdot a (fun i => cross3 Rmult Rminus i b c))%R) ->
    rdot (u_nor q) (u_nor q) = 1%R /\ (0 < rdot (u_nor q) (u_pos p))%R.
  Proof.
    intros Wm S P Q E H. eapply smooth_points; eauto. intros e f a Le Oe Fe (vs & ps & B & M & A).
    destruct (H e f vs ps Le Oe Fe B M) as (x & y & z & X & D).
    assert (I : In (u_pos p) (map (@u_pos R) ps)).
    { assert (Iv : In v vs).
      { pose proof (wfW Wm) as W. destruct B as (es & LP & ->). apply in_map_iff. exists (pv (abs m) e).
        split.
        - rewrite <- Oe. pose proof (wf_ognx W _ (wf_pv W _ Le)) as K. rewrite (wf_nxpv W _ Le) in K. symmetry. exact K.
        - destruct (wf_fc W _ Le Fe) as [_ RC].
          assert (FP1 : fc (abs m) (pv (abs m) e) = Some f).
          { rewrite <- Fe. rewrite <- (wf_nxpv W _ Le) at 2. symmetry. apply (wf_fcnx W). apply (wf_pv W); auto. }
          destruct (wf_fc W _ (wf_pv W _ Le) FP1) as [_ R2]. apply (cycle_reach _ (proj2 LP)). exact R2. }
      apply In_nth_error in Iv as [k K]. assert (K2 := f_equal (fun L => nth_error L k) M). cbv beta in K2.
      rewrite (map_nth_error _ _ _ K), P in K2. destruct (nth_error ps k) as [p'|] eqn:PK.
      - rewrite (map_nth_error _ _ _ PK) in K2. injection K2 as <-. apply in_map_iff. exists p. split; auto. eapply nth_error_In; eauto.
      - rewrite nth_error_map, PK in K2. discriminate K2. }
    rewrite X in A, I. unfold dot3 in *. rewrite !A by lia. cbn in D |- *.
    destruct I as [<-|[<-|[<-|[]]]]; lra.
  Qed.

  (** ** rigid motions *)
  Notation A3 t := (a_apply_vec 0%R Rplus Rmult 3 t).
  Notation rigid t := (similarity 0%R Rplus Rmult eq 3 1%R (a_mat t)).
  Notation vol t := (volume 0%R Rplus Rmult Rminus (a_mat t)).
  Lemma dot_dot3 a b : dot 0%R Rplus Rmult 3 a b = rdot a b.
  Proof. unfold dot, dot3, sum. cbn. ring. Qed.
  Lemma rigid_dot (t : affine R) a b : rigid t -> rdot (A3 t a) (A3 t b) = rdot a b.
  Proof.
    intros S. rewrite <- !dot_dot3.
    change (dot 0%R Rplus Rmult 3 (mvec 0%R Rplus Rmult 3 (a_mat t) a) (mvec 0%R Rplus Rmult 3 (a_mat t) b) = dot 0%R Rplus Rmult 3 a b).
    rewrite (similarity_dot (@eq_equivalence R) (Eq_ext Rplus Rmult Ropp) RTheory a b S). ring.
  Qed.
  Lemma rigid_vol (t : affine R) : rigid t -> (vol t * vol t = 1)%R.
  Proof.
    intros S. set (m := a_mat t) in *.
    assert (C : forall i, i < 3 -> cross3 Rmult Rminus i (fun k => m k 1) (fun k => m k 2) = (volume 0%R Rplus Rmult Rminus m * m i 0%nat)%R).
    { intros i Hi. apply (cofactor_det (@eq_equivalence R) (Eq_ext Rplus Rmult Ropp) RTheory Hi S). }
    assert (S00 := S 0 0 ltac:(lia) ltac:(lia)). assert (S11 := S 1 1 ltac:(lia) ltac:(lia)).
    assert (S12 := S 1 2 ltac:(lia) ltac:(lia)). assert (S22 := S 2 2 ltac:(lia) ltac:(lia)).
    cbn in S00, S11, S12, S22. pose proof (C 0 ltac:(lia)) as C0. pose proof (C 1 ltac:(lia)) as C1. pose proof (C 2 ltac:(lia)) as C2.
    set (w := volume 0%R Rplus Rmult Rminus m) in *. clearbody w. cbn in C0, C1, C2. clear C S.
    set (a0 := m 0 0) in *. set (a1 := m 1 0) in *. set (a2 := m 2 0) in *. set (b0 := m 0 1) in *. set (b1 := m 1 1) in *. set (b2 := m 2 1) in *.
    set (c0 := m 0 2) in *. set (c1 := m 1 2) in *. set (c2 := m 2 2) in *.
    assert (L : ((b1 * c2 - b2 * c1) * (b1 * c2 - b2 * c1) + (b2 * c0 - b0 * c2) * (b2 * c0 - b0 * c2) + (b0 * c1 - b1 * c0) * (b0 * c1 - b1 * c0) =
      (b0 * b0 + (b1 * b1 + (b2 * b2 + 0))) * (c0 * c0 + (c1 * c1 + (c2 * c2 + 0))) - (b0 * c0 + (b1 * c1 + (b2 * c2 + 0))) * (b0 * c0 + (b1 * c1 + (b2 * c2 + 0))))%R) by ring.
    rewrite S11, S22, S12, C0, C1, C2 in L.
    assert (E : (w * a0 * (w * a0) + w * a1 * (w * a1) + w * a2 * (w * a2) = w * w * (a0 * a0 + (a1 * a1 + (a2 * a2 + 0))))%R) by ring.
    rewrite E, S00 in L. lra.
  Qed.
  Lemma A3_scale (t : affine R) k a i : A3 t (fun j => (k * a j)%R) i = (k * A3 t a i)%R.
  Proof. unfold a_apply_vec, mvec. cbn. ring. Qed.
  Lemma A3_ext (t : affine R) a b i : (forall j, j < 3 -> a j = b j) -> A3 t a i = A3 t b i.
  Proof. intros H. unfold a_apply_vec, mvec. cbn. rewrite !H by lia. reflexivity. Qed.
  Lemma rigid_direction (t : affine R) a u : rigid t -> direction a u ->
    direction (fun i => (vol t * A3 t a i)%R) (fun i => (vol t * A3 t u i)%R).
  Proof.
    intros S. pose proof (rigid_vol S) as V. set (w := vol t) in *. intros [(k & K0 & K1 & K2)|K2].
    - left. exists k. split; auto. split.
      + assert (E : rdot (fun i => w * A3 t u i)%R (fun i => w * A3 t u i)%R = ((w * w) * rdot (A3 t u) (A3 t u))%R) by (unfold dot3; ring).
        rewrite E, V, rigid_dot, K1 by auto. ring.
      + intros i Hi. rewrite (A3_ext t (a := a) (b := fun j => (k * u j)%R)) by auto. rewrite A3_scale. ring.
    - right. intros i Hi. unfold a_apply_vec, mvec. cbn. destruct (K2 0), (K2 1), (K2 2); try lia.
      rewrite H, H0, H1, H2, H3, H4. split; ring.
  Qed.
  Lemma vsum_image (t : affine R) w us i : vsum (map (fun u i => (w * A3 t u i)%R) us) i = (w * A3 t (vsum us) i)%R.
  Proof.
    induction us as [|u us IH]; [unfold vsum, a_apply_vec, mvec; cbn; ring|]. cbn [map]. rewrite vsum_cons, IH.
    rewrite (A3_ext t (a := vsum (u :: us)) (b := fun j => (u j + vsum us j)%R)) by (intros; apply vsum_cons). generalize (vsum us). intros s. unfold a_apply_vec, mvec. cbn. ring.
  Qed.

  Lemma area_unique m f a b : wf m -> lvf (abs m) f = true -> face_area (abs m) f a -> face_area (abs m) f b -> forall i, i < 3 -> a i = b i.
  Proof.
    intros Wm L (vs & ps & B & P & A) (vs' & ps' & B' & P' & A') i Hi.
    pose proof (boundary_face_vertices Wm L B) as E. rewrite (boundary_face_vertices Wm L B') in E. injection E as <-.
    assert (ps = ps') as <-.
    { rewrite P' in P. clear - P. revert ps P. induction ps' as [|x l IH]; intros [|y ps] P; try discriminate P; auto.
      cbn [map] in P. injection P as -> P. f_equal. auto. }
    rewrite A, A'; auto.
  Qed.

  Theorem smooth_rigid nan m (t : affine R) g1 g2 v p q : wf m -> rigid t ->
    smoothed nan (abs m) g1 -> smoothed nan (abs (t_transform 0%R Rplus Rmult 3 t m)) g2 ->
    vp g1 v = Some p -> vp g2 v = Some q -> (exists e, lv (abs m) e = true /\ og (abs m) e = v /\ fc (abs m) e <> None) ->
    forall i, i < 3 -> u_nor q i = (vol t * A3 t (u_nor p) i)%R.
  Proof.
    intros Wm S S1 S2 P Q E i Hi. set (m2 := t_transform 0%R Rplus Rmult 3 t m) in *.
    pose proof (transform_wf (u_transform 0%R Rplus Rmult 3 t) (k_transform 0%R Rplus Rmult 3 t) (@Datatypes.id FP) Wm) as Wm2.
    pose proof (transform_links (u_transform 0%R Rplus Rmult 3 t) (k_transform 0%R Rplus Rmult 3 t) (@Datatypes.id FP) m) as SL.
    fold m2 in Wm2, SL.
    destruct (smooth_at S1 P E) as (l & C & N & us & F & D).
    assert (E2 : exists e, lv (abs m2) e = true /\ og (abs m2) e = v /\ fc (abs m2) e <> None).
    { destruct E as (e & E). exists e. rewrite (sl_lv SL), (sl_og SL), (sl_fc SL). exact E. }
    destruct (smooth_at S2 Q E2) as (l2 & C2 & N2 & us2 & F2 & D2).
    assert (PL : Permutation l l2).
    { apply NoDup_Permutation; [apply C|apply C2|]. intros e. rewrite (proj2 C), (proj2 C2), (sl_lv SL), (sl_og SL), (sl_fc SL). tauto. }
    (* the two sums agree *)
    assert (K : forall us', Forall2 (fun e u => exists f a, fc (abs m2) e = Some f /\ face_area (abs m2) f a /\ direction a u) l us' ->
      forall j, j < 3 -> vsum us' j = (vol t * A3 t (vsum us) j)%R).
    { assert (LL : forall e, In e l -> lv (abs m) e = true) by (intros e I; apply (proj2 C) in I; apply I).
      intros us' F'. clear - F F' LL Wm Wm2 SL S.
      intros j Hj. rewrite <- vsum_image. revert us' F'. induction F as [|e u l us (f & a & A1 & A2 & A3') F IH]; intros us' F'.
      - inversion F'; subst. reflexivity.
      - inversion F' as [|? u' ? us'' (f' & a' & B1 & B2 & B3) F'']; subst. cbn [map]. rewrite !vsum_cons.
        rewrite IH; auto; [|intros x I; apply LL; right; auto]. f_equal.
        rewrite (sl_fc SL), A1 in B1. injection B1 as <-.
        assert (Le := LL e (or_introl eq_refl)). destruct (wf_fc (wfW Wm) _ Le A1) as [LF _].
        assert (LF2 : lvf (abs m2) f = true) by (rewrite (sl_lvf SL); exact LF).
        destruct (face_normal_image (@eq_equivalence R) (Eq_ext Rplus Rmult Ropp) RTheory (-1 / 2)%R Wm LF S) as (n & n' & X & X' & XI).
        destruct (fnormal_area Wm LF) as (y & Y & YA). rewrite X in Y. injection Y as <-.
        destruct (fnormal_area (m := m2) Wm2 LF2) as (y & Y & YA2). fold m2 in X'. rewrite X' in Y. injection Y as <-.
        apply (@direction_unique a' u' (fun j => vol t * A3 t u j)%R); [exact B3| |exact Hj].
        apply direction_ext with (fun c => (vol t * A3 t a c)%R); [|apply rigid_direction; auto].
        intros c Hc. rewrite (area_unique Wm2 LF2 B2 YA2 Hc), (XI c Hc). f_equal. apply A3_ext.
        intros k Hk. apply (area_unique Wm LF A2 YA Hk). }
    assert (F3 : exists us', Permutation us2 us' /\
      Forall2 (fun e u => exists f a, fc (abs m2) e = Some f /\ face_area (abs m2) f a /\ direction a u) l us').
    { destruct (Permutation_Forall2 (Permutation_sym PL) F2) as (us' & PU & FU). exists us'. auto. }
    destruct F3 as (us' & PU & F3).
    assert (SU : forall j, vsum us2 j = vsum us' j).
    { intros j. unfold vsum, sum. clear - PU. induction PU; cbn; try lra. }
    apply (@direction_unique (vsum us2) (u_nor q) (fun j => vol t * A3 t (u_nor p) j)%R); [exact D2| |exact Hi].
    apply direction_ext with (fun j => (vol t * A3 t (vsum us) j)%R); [|apply rigid_direction; auto].
    intros j Hj. rewrite SU. symmetry. apply K; auto.
  Qed.

  (** opposite faces *)
  Lemma smooth_cancel nan g g' v q e1 e2 f1 f2 : smoothed nan g g' -> vp g' v = Some q -> e1 <> e2 ->
    (forall e, lv g e = true /\ og g e = v /\ fc g e <> None <-> e = e1 \/ e = e2) -> fc g e1 = Some f1 -> fc g e2 = Some f2 ->
    (forall a b, face_area g f1 a -> face_area g f2 b -> forall i, i < 3 -> (a i + b i = 0)%R) ->
    forall i, i < 3 -> u_nor q i = 0%R.
  Proof.
    intros S Q NE EE F1 F2 O i Hi.
    destruct (smooth_at S Q) as (l & C & N & us & F & D); [exists e1; apply EE; auto|].
    assert (PL : Permutation l [e1; e2]).
    { apply NoDup_Permutation; [apply C|repeat constructor; cbn; intuition congruence|]. intros e. rewrite (proj2 C), EE. cbn. intuition congruence. }
    destruct (Permutation_Forall2 PL F) as (us' & PU & FU).
    inversion FU as [|? u1 ? r (h1 & a & A1 & A2 & A3) FU']; subst. inversion FU' as [|? u2 ? r' (h2 & b & B1 & B2 & B3) FU'']; subst.
    inversion FU''; subst. rewrite F1 in A1. injection A1 as <-. rewrite F2 in B1. injection B1 as <-.
    assert (SU : forall j, vsum us j = vsum [u1; u2] j).
    { intros j. unfold vsum, sum. clear - PU. induction PU; cbn in *; try lra. }
    assert (Z : forall j, j < 3 -> (u1 j + u2 j = 0)%R).
    { assert (B4 : direction (fun i => (- a i)%R) u2) by (eapply direction_ext; [|exact B3]; intros j Hj; specialize (O a b A2 B2 j Hj); cbv beta; lra).
      assert (A4 : direction (fun i => (- a i)%R) (fun i => (- u1 i)%R)).
      { destruct A3 as [(k & K0 & K1 & K2)|K2]; [left; exists k; split; auto; split|right].
        - rewrite <- K1. unfold dot3. ring.
        - intros j Hj. rewrite K2 by auto. ring.
        - intros j Hj. destruct (K2 j Hj) as [-> ->]. split; ring. }
      intros j Hj. pose proof (direction_unique B4 A4 Hj). cbv beta in H. lra. }
    destruct D as [(k & K0 & K1 & K2)|K2]; [|apply K2; auto].
    assert (K3 : forall j, j < 3 -> u_nor q j = 0%R).
    { intros j Hj. specialize (K2 j Hj). rewrite SU, vsum_cons, vsum_cons in K2. specialize (Z j Hj). unfold vsum, sum in K2. cbn in K2. nra. }
    auto.
  Qed.
End More.

Lemma mapM_panics {A B} (f : A -> res B) l x : (forall y, In y l -> f y = Panic \/ exists b, f y = Ok b) -> In x l -> f x = Panic -> mapM f l = Panic.
Proof.
  induction l as [|y l IH]; intros H I P; [destruct I|]. cbn [mapM]. destruct (H y (or_introl eq_refl)) as [E|[b E]]; rewrite E; cbn [bind]; auto.
  destruct I as [<-|I]; [congruence|]. rewrite IH; auto. intros z Z. apply H. right; auto.
Qed.
Section Fail.
  Context {FP : Type}.
  Notation mesh := (mesh (pnu R) (curve R) FP).
  Lemma smooth_panics planar nan c (m : mesh) f : wf m -> dbg c = true -> lvf (abs m) f = true -> planar f = false ->
    generate_smooth_normals planar nan c m = Panic.
  Proof.
    intros Wm D L P. unfold generate_smooth_normals. destruct (wf_abs Wm) as [Rp W].
    rewrite (mapM_panics (x := f)); [reflexivity| | |].
    - intros y I. apply (in_iter_has _ (rF Rp)) in I. destruct (fnormal_area Wm I) as (n & N & _). unfold unit_normal. rewrite N.
      destruct (negb (dbg c) || planar y); cbn [assert bind]; eauto.
    - apply (in_iter_has _ (rF Rp)). exact L.
    - unfold unit_normal. rewrite D, P. reflexivity.
  Qed.
  Lemma smooth_rigid_both planar planar' nan c (m : mesh) t : wf m -> similarity 0%R Rplus Rmult eq 3 1%R (a_mat t) ->
    (dbg c = true -> forall f, lvf (abs m) f = true -> planar f = true /\ planar' f = true) ->
    exists m1 m2, generate_smooth_normals planar nan c m = Ok m1 /\
      generate_smooth_normals planar' nan c (t_transform 0%R Rplus Rmult 3 t m) = Ok m2 /\
      forall e v p q, lv (abs m) e = true -> og (abs m) e = v -> fc (abs m) e <> None -> vp (abs m1) v = Some p -> vp (abs m2) v = Some q ->
        forall i, i < 3 -> u_nor q i = (volume 0%R Rplus Rmult Rminus (a_mat t) * a_apply_vec 0%R Rplus Rmult 3 t (u_nor p) i)%R.
  Proof.
    intros Wm S P.
    assert (Wm2 := transform_wf (u_transform 0%R Rplus Rmult 3 t) (k_transform 0%R Rplus Rmult 3 t) (@Datatypes.id FP) Wm).
    pose proof (transform_links (u_transform 0%R Rplus Rmult 3 t) (k_transform 0%R Rplus Rmult 3 t) (@Datatypes.id FP) m) as SL.
    destruct (@smooth_ok FP planar nan c m Wm) as (m1 & G1 & _ & S1); [intros D f L; apply (P D f L)|].
    destruct (@smooth_ok FP planar' nan c (t_transform 0%R Rplus Rmult 3 t m) Wm2) as (m2 & G2 & _ & S2);
      [intros D f L; apply (P D f); rewrite <- (sl_lvf SL); exact L|].
    exists m1, m2. split; [exact G1|]. split; [exact G2|]. intros e v p q L O F Q1 Q2.
    apply (smooth_rigid (nan := nan) Wm S S1 S2 Q1 Q2). exists e. auto.
  Qed.
End Fail.
