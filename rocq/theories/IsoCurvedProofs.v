(** Proofs about the comparison of meshes by positions and control points. *)
From Coq Require Import List Arith Bool QArith Qabs Lia Lqa Permutation.
From Verif Require Import Base DVec DVecFacts Mesh MeshMore Spec Rep Cycle Traverse MeshSpec MeshProofs MeshProofs2 MeshFacts BuildSpec Topo TopoSpec TopoProofs NetProofs IsoProofs IsoPos Alg Transform TransSpec TransProofs IsoComplete IsoCurved.
Import ListNotations.
Set Implicit Arguments.
Unset Strict Implicit.
Local Open Scope nat_scope.
Local Arguments abs : simpl never.

Lemma foldE_all {A} (f : unit -> A -> res (unit + difference)) l : (forall a, In a l -> f tt a = Ok (inl tt)) -> foldE f l tt = Ok (inl tt).
Proof. induction l as [|a l IH]; intros H; cbn [foldE]; auto. rewrite H by (left; auto). cbn [bind]. apply IH. intros b I. apply H. right. exact I. Qed.

Section Cmp.
  Context {VP EP FP : Type}.
  Variables (cmpv cmpe cmpf : nat -> nat -> bool) (m m2 : mesh VP EP FP).
  Hypothesis (Wm : wf m) (Wm2 : wf m2).

  Lemma trivially_cmp : is_trivially_isomorphic_ex cmpv cmpe cmpf m m2 = Ok Equivalent ->
    (forall v, lvv (abs m) v = true -> cmpv v v = true) /\ (forall e, lv (abs m) e = true -> cmpe e e = true).
  Proof.
    intros E. unfold is_trivially_isomorphic_ex in E.
    destruct (num_vertices m =? num_vertices m2); [|discriminate]. cbn [negb] in E.
    destruct (num_edges m =? num_edges m2); [|discriminate]. cbn [negb] in E.
    destruct (num_faces m =? num_faces m2); [|discriminate]. cbn [negb] in E.
    inv_ok E. destruct a as [[]|d].
    2:{ injection E as ->. exfalso. revert H. apply foldE_err. intros s v X. unfold tri_vertex in X. inv_ok X.
        destruct (_ || _); discriminate. }
    rename H into FV. inv_ok E. destruct a as [[]|d].
    2:{ injection E as ->. exfalso. revert H. apply foldE_err. intros s v X. unfold tri_edge in X. do 3 inv_ok X.
        destruct a1; discriminate. }
    rename H into FE. clear E. split.
    - intros v L. apply (vertex_ids_live v Wm) in L. revert v L. apply foldE_unit with (2 := FV).
      intros v I X. unfold tri_vertex in X. inv_ok X. destruct (v =? a) eqn:Q; [|discriminate]. apply Nat.eqb_eq in Q. subst a.
      destruct (cmpv v v); [auto|discriminate].
    - intros e L. apply (edge_ids_live e Wm) in L. revert e L. apply foldE_unit with (2 := FE).
      intros e I X. unfold tri_edge in X. do 3 inv_ok X. destruct a1; [discriminate|].
      apply orelse_false in H1 as [H1 H2]. apply negb_eqb_false in H1. subst a.
      apply orelse_false in H2 as [_ H2]. apply orelse_false in H2 as [_ H2]. apply Ok_inj, negb_false_iff in H2. exact H2.
  Qed.

  Lemma ids_same (l l2 : list nat) : NoDup l -> NoDup l2 -> (forall x, In x l <-> In x l2) -> length l = length l2.
  Proof. intros A B H. apply Permutation_length, NoDup_Permutation; auto. Qed.

  Lemma trivially_complete : same_links (abs m) (abs m2) ->
    (forall v, lvv (abs m) v = true -> cmpv v v = true) -> (forall e, lv (abs m) e = true -> cmpe e e = true) ->
    (forall f, lvf (abs m) f = true -> cmpf f f = true) ->
    is_trivially_isomorphic_ex cmpv cmpe cmpf m m2 = Ok Equivalent.
  Proof.
    intros S CV CE CF. unfold is_trivially_isomorphic_ex.
    destruct (wf_abs Wm) as [R W]. destruct (wf_abs Wm2) as [R2 W2].
    rewrite (num_vertices_ids Wm), (num_vertices_ids Wm2), (num_edges_ids Wm), (num_edges_ids Wm2), (num_faces_ids Wm), (num_faces_ids Wm2).
    rewrite (@ids_same (vertex_ids m) (vertex_ids m2)), Nat.eqb_refl; [|apply vertex_ids_nodup; auto|apply vertex_ids_nodup; auto|].
    2:{ intros v. rewrite (vertex_ids_live v Wm), (vertex_ids_live v Wm2), (sl_lvv S). reflexivity. }
    rewrite (@ids_same (edge_ids m) (edge_ids m2)), Nat.eqb_refl; [|apply edge_ids_nodup; auto|apply edge_ids_nodup; auto|].
    2:{ intros v. rewrite (edge_ids_live v Wm), (edge_ids_live v Wm2), (sl_lv S). reflexivity. }
    rewrite (@ids_same (face_ids m) (face_ids m2)), Nat.eqb_refl; [|apply face_ids_nodup; auto|apply face_ids_nodup; auto|].
    2:{ intros v. rewrite (face_ids_live v Wm), (face_ids_live v Wm2), (sl_lvf S). reflexivity. }
    cbn [negb]. rewrite foldE_all.
    2:{ intros v I. apply (vertex_ids_live v Wm) in I. unfold tri_vertex. rewrite (id_look _ (proj1 (proj2 Wm2))).
        destruct (look (verts m2) v) eqn:Q. 2:{ exfalso. pose proof (sl_lvv S v) as K. rewrite I, <- (r_has_v R2), has_look_b, Q in K. discriminate K. }
        cbn [bind]. rewrite Nat.eqb_refl, (CV v I). reflexivity. }
    cbn [bind]. rewrite foldE_all.
    2:{ intros e I. apply (edge_ids_live e Wm) in I. assert (I2 : lv (abs m2) e = true) by (rewrite (sl_lv S); exact I).
        unfold tri_edge. rewrite (id_look _ (proj1 Wm2)).
        destruct (look (edges m2) e) eqn:Q. 2:{ exfalso. rewrite <- (r_has_e R2), has_look_b, Q in I2. discriminate I2. }
        cbn [bind]. destruct (r_edge_live R2 e I2) as (x & X & NX & _ & _ & OG & _). rewrite X. cbn [bind].
        rewrite Nat.eqb_refl. cbn [orelse bind negb]. rewrite (r_gorigin Wm I). cbn [bind].
        rewrite <- OG, (sl_og S), (r_vchk R), (wf_og W _ I), Nat.eqb_refl. cbn [orelse bind negb].
        rewrite (r_gtarget' Wm I). cbn [bind]. rewrite <- NX, (sl_nx S), (r_origin_id R), (wf_nx W _ I). cbn [bind].
        rewrite (r_vchk R). rewrite (wf_ognx W _ I), (wf_og W _ (wf_tw W _ I)). cbn [bind]. rewrite Nat.eqb_refl.
        cbn [orelse bind negb]. rewrite (CE e I). reflexivity. }
    cbn [bind]. rewrite foldE_all; [reflexivity|].
    intros f I. apply (face_ids_live f Wm) in I. assert (I2 : lvf (abs m2) f = true) by (rewrite (sl_lvf S); exact I).
    unfold tri_face. rewrite (id_look _ (proj1 (proj2 (proj2 Wm2)))).
    destruct (look (faces m2) f) eqn:Q. 2:{ exfalso. rewrite <- (r_has_f R2), has_look_b, Q in I2. discriminate I2. }
    cbn [bind]. destruct (r_face_live R2 f I2) as (x & X & FE & _). rewrite X. cbn [bind].
    rewrite Nat.eqb_refl. cbn [orelse bind negb]. rewrite <- FE, (sl_fe S).
    destruct (wf_fe W f I) as [LE _]. destruct (face_traversal Wm LE) as (t & LP & ET & _).
    destruct (face_num_edges_ok Wm I LP) as [N E]. rewrite N, E. cbn [bind].
    assert (H : (let* _ := m_edge m (fe (abs m) f) in it_size_hint m (it_new (fe (abs m) f))) = Ok (length (fe (abs m) f :: t))).
    { rewrite <- N. unfold face_num_edges. destruct (r_face_live R f I) as (y & Y & FY & _). rewrite Y. cbn [bind]. rewrite FY. reflexivity. }
    rewrite H. cbn [bind]. rewrite Nat.eqb_refl. cbn [orelse bind negb]. rewrite ET. cbn [bind].
    destruct (equal_up_to_rotation_ok (fe (abs m) f :: t) (fe (abs m) f :: t)) as (r & ER & RT). rewrite ER. cbn [bind].
    replace r with true. 2:{ symmetry. apply RT. split; [discriminate|]. exists [], (fe (abs m) f :: t). rewrite app_nil_r. auto. }
    cbn [orelse bind negb]. rewrite (CF f I). reflexivity.
  Qed.
End Cmp.

(** ** points of curves *)
Lemma about_iff D eps a b : v_is_about D eps a b = true <-> forall i, i < D -> (Qabs (a i - b i) < eps)%Q.
Proof.
  unfold v_is_about. rewrite forallb_forall. split.
  - intros H i L. specialize (H i). rewrite in_seq in H. apply negb_true_iff in H; [|lia].
    apply Qnot_le_lt. intros K. apply Qle_bool_iff in K. congruence.
  - intros H i I. apply in_seq in I. apply negb_true_iff. destruct (Qle_bool _ _) eqn:K; auto.
    apply Qle_bool_iff in K. exfalso. apply (Qlt_not_le _ _ (H i ltac:(lia)) K).
Qed.
Definition kpoint := point_at 1%Q Qplus Qmult Qminus.
Lemma mix t x y : (0 <= t)%Q -> (t <= 1)%Q -> (0 < x)%Q -> (0 < y)%Q -> (0 < (1 - t) * x + t * y)%Q.
Proof.
  intros A B X Y. destruct (Qlt_le_dec 0 t) as [P|P].
  - pose proof (Qmult_lt_0_compat _ _ P Y). assert (0 <= (1 - t) * x)%Q by (apply Qmult_le_0_compat; lra). lra.
  - assert (t == 0)%Q as E by lra. setoid_replace ((1 - t) * x + t * y)%Q with x by (rewrite E; ring). exact X.
Qed.
Lemma between x eps : (0 < eps - x)%Q -> (0 < eps + x)%Q -> (Qabs x < eps)%Q.
Proof. intros A B. apply Qabs_Qlt_condition. split; lra. Qed.
Lemma within x eps : (Qabs x < eps)%Q -> (0 < eps - x)%Q /\ (0 < eps + x)%Q.
Proof. intros A. apply Qabs_Qlt_condition in A as [A B]. split; lra. Qed.

Lemma curve_near D eps k k' a b a' b' t i : k_is_about D eps k k' = true -> v_is_about D eps a a' = true -> v_is_about D eps b b' = true ->
  (0 <= t)%Q -> (t <= 1)%Q -> i < D -> (Qabs (kpoint k a b t i - kpoint k' a' b' t i) < eps)%Q.
Proof.
  intros K A B T0 T1 L. rewrite about_iff in A, B. destruct (within (A i L)) as [A1 A2]. destruct (within (B i L)) as [B1 B2].
  unfold kpoint. destruct k as [|c|c d], k' as [|c'|c' d']; try discriminate; cbn [k_is_about] in K; cbn [point_at]; unfold lerp.
  - apply between.
    + pose proof (mix T0 T1 A1 B1) as M. lra.
    + pose proof (mix T0 T1 A2 B2) as M. lra.
  - rewrite about_iff in K. destruct (within (K i L)) as [K1 K2]. apply between.
    + pose proof (mix T0 T1 (mix T0 T1 A1 K1) (mix T0 T1 K1 B1)) as M.
      match type of M with (_ < ?y)%Q => match goal with |- (_ < ?x)%Q => setoid_replace x with y by ring end end. exact M.
    + pose proof (mix T0 T1 (mix T0 T1 A2 K2) (mix T0 T1 K2 B2)) as M.
      match type of M with (_ < ?y)%Q => match goal with |- (_ < ?x)%Q => setoid_replace x with y by ring end end. exact M.
  - apply andb_true_iff in K as [K J]. rewrite about_iff in K, J. destruct (within (K i L)) as [K1 K2]. destruct (within (J i L)) as [J1 J2]. apply between.
    + pose proof (mix T0 T1 (mix T0 T1 (mix T0 T1 A1 K1) (mix T0 T1 K1 J1)) (mix T0 T1 (mix T0 T1 K1 J1) (mix T0 T1 J1 B1))) as M.
      match type of M with (_ < ?y)%Q => match goal with |- (_ < ?x)%Q => setoid_replace x with y by ring end end. exact M.
    + pose proof (mix T0 T1 (mix T0 T1 (mix T0 T1 A2 K2) (mix T0 T1 K2 J2)) (mix T0 T1 (mix T0 T1 K2 J2) (mix T0 T1 J2 B2))) as M.
      match type of M with (_ < ?y)%Q => match goal with |- (_ < ?x)%Q => setoid_replace x with y by ring end end. exact M.
Qed.

Section Curved.
  Context {FP : Type}.
  Implicit Types (m : mesh (pnu Q) (curve Q) FP).

  Lemma curved_sound D eps m m2 : wf m -> wf m2 -> is_trivially_isomorphic_pos_curved D eps m m2 = Ok Equivalent ->
    forall e t, lv (abs m) e = true -> (0 <= t)%Q -> (t <= 1)%Q ->
      exists p q, edge_point 1%Q Qplus Qmult Qminus m e t = Ok p /\ edge_point 1%Q Qplus Qmult Qminus m2 e t = Ok q /\
        forall i, i < D -> (Qabs (p i - q i) < eps)%Q.
  Proof.
    intros Wm Wm2 E e t L T0 T1. unfold is_trivially_isomorphic_pos_curved in E.
    destruct (trivially_cmp Wm E) as [CV CE]. apply (trivially_isomorphic_sound Wm Wm2) in E as (SV & SE & _ & OT & _).
    destruct (wf_abs Wm) as [R W]. destruct (OT e L) as [HO HT].
    assert (L2 : lv (abs m2) e = true) by (rewrite <- SE; exact L).
    destruct (ends_ok Wm L) as (a & b & A & B & EE). destruct (ends_ok Wm2 L2) as (a2 & b2 & A2 & B2 & EE2).
    destruct (r_edge_live R _ L) as (x & X & _). destruct (r_edge_live (proj1 (wf_abs Wm2)) _ L2) as (y & Y & _).
    unfold edge_point. rewrite X, Y, EE, EE2. cbn [bind]. eexists. eexists. split; [reflexivity|]. split; [reflexivity|].
    intros i Li. apply curve_near with (D := D); auto.
    - specialize (CE e L). unfold curve_at in CE. unfold m_edge in X, Y. rewrite X, Y in CE. exact CE.
    - specialize (CV _ (wf_og W _ L)). unfold near_at in CV. unfold m_vertex in A, A2. rewrite <- HO in A2. rewrite A, A2 in CV. exact CV.
    - specialize (CV _ (wf_og W _ (wf_tw W _ L))). unfold near_at in CV. unfold m_vertex, target in B, B2. rewrite <- HT in B2. rewrite B, B2 in CV. exact CV.
  Qed.

  (** Two payloads are near. *)
  Definition near_curve D eps (a b : curve Q) : Prop :=
    match a, b with
    | Linear _, Linear _ => True
    | Quadratic c, Quadratic d => forall i, i < D -> (Qabs (c i - d i) < eps)%Q
    | Cubic c1 c2, Cubic d1 d2 => forall i, i < D -> (Qabs (c1 i - d1 i) < eps)%Q /\ (Qabs (c2 i - d2 i) < eps)%Q
    | _, _ => False
    end.

  Lemma curved_complete D eps m m2 : wf m -> wf m2 -> same_links (abs m) (abs m2) ->
    (forall v p q, vp (abs m) v = Some p -> vp (abs m2) v = Some q -> forall i, i < D -> (Qabs (u_pos p i - u_pos q i) < eps)%Q) ->
    (forall e a b, ep (abs m) e = Some a -> ep (abs m2) e = Some b -> near_curve D eps a b) ->
    is_trivially_isomorphic_pos_curved D eps m m2 = Ok Equivalent.
  Proof.
    intros Wm Wm2 S V K. destruct (wf_abs Wm) as [R W]. destruct (wf_abs Wm2) as [R2 W2].
    apply trivially_complete; auto.
    - intros v L. assert (L2 : lvv (abs m2) v = true) by (rewrite (sl_lvv S); exact L).
      destruct (r_vertex_live R _ L) as (x & X & _ & PX). destruct (r_vertex_live R2 _ L2) as (y & Y & _ & PY).
      unfold near_at. unfold m_vertex in X, Y. rewrite X, Y. apply about_iff. exact (V v _ _ PX PY).
    - intros e L. assert (L2 : lv (abs m2) e = true) by (rewrite (sl_lv S); exact L).
      destruct (r_edge_live R _ L) as (x & X & _ & _ & _ & _ & _ & PX). destruct (r_edge_live R2 _ L2) as (y & Y & _ & _ & _ & _ & _ & PY).
      unfold curve_at. unfold m_edge in X, Y. rewrite X, Y. pose proof (K e _ _ PX PY) as N.
      destruct (e_pay x), (e_pay y); cbn in N |- *; try (exfalso; exact N); auto.
      + apply about_iff. exact N.
      + apply andb_true_iff. split; apply about_iff; intros i H; apply N; auto.
  Qed.
End Curved.
