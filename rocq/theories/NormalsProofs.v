(** Smooth normals are the directions of the sums of the unit normals around a vertex. *)
From Coq Require Import List Arith Lia Bool Reals Lra RealField Setoid Ring_theory.
From Verif Require Import Base DVec DVecFacts Mesh Spec MeshSpec MeshMore MeshFacts TopoSpec BuildSpec BuildStep Rep Traverse MeshProofs IsoProofs CheckProofs.
From Verif Require Import Tess Alg AlgSpec TriSpec AlgProofs Transform TransSpec TransProofs Buffer Normals NormalsSpec.
Import ListNotations.
Set Implicit Arguments.
Unset Strict Implicit.
Local Arguments abs : simpl never.
Local Open Scope nat_scope.

(** ** lengths *)
Lemma rdot_nonneg (v : rvec) : (0 <= rdot v v)%R.
Proof. unfold dot3. nra. Qed.
Lemma rdot_zero (v : rvec) : rdot v v = 0%R -> forall i, i < 3 -> v i = 0%R.
Proof.
  unfold dot3. intros H i Hi. assert (v 0 = 0%R /\ v 1 = 0%R /\ v 2 = 0%R) as (A & B & C) by (repeat split; nra).
  destruct i as [|[|[|i]]]; auto; lia.
Qed.
Lemma len_dot v : r_len v = sqrt (rdot v v).
Proof. reflexivity. Qed.
Lemma len_pos v : r_len v <> 0%R -> (0 < r_len v)%R.
Proof. intros H. rewrite len_dot in *. pose proof (sqrt_pos (rdot v v)). lra. Qed.
Lemma len_sq v : (r_len v * r_len v = rdot v v)%R.
Proof. rewrite len_dot. apply sqrt_sqrt, rdot_nonneg. Qed.
Lemma normalize_direction v w : (forall i, i < 3 -> w i = v i) -> direction w (r_normalize v).
Proof.
  intros E. unfold r_normalize. destruct (Req_EM_T (r_len v) 0) as [Z|N].
  - right. assert (H : forall i, i < 3 -> v i = 0%R) by (apply rdot_zero; rewrite <- len_sq, Z; ring).
    intros i Hi. rewrite E, H by auto. auto.
  - left. exists (r_len v). pose proof (len_pos N). split; [lra|]. split; [|intros i Hi; rewrite E by auto; field; auto].
    pose proof (len_sq v) as S. unfold dot3 in *. field_simplify_eq; [nra|auto].
Qed.
Lemma dot_scaled (p : R) (x y : rvec) : (forall i, i < 3 -> x i = (p * y i)%R) -> rdot x x = (p * p * rdot y y)%R.
Proof. intros H. unfold dot3. rewrite !H by lia. ring. Qed.
Lemma dot_null (x : rvec) : (forall i, i < 3 -> x i = 0%R) -> rdot x x = 0%R.
Proof. intros H. unfold dot3. rewrite !H by lia. ring. Qed.
Lemma direction_unique a u w : direction a u -> direction a w -> forall i, i < 3 -> u i = w i.
Proof.
  intros [(k & K0 & K1 & K2)|K2] [(h & H0 & H1 & H2)|H2] i Hi.
  - pose proof (dot_scaled K2) as A. pose proof (dot_scaled H2) as B. rewrite K1 in A. rewrite H1 in B.
    assert (h = k) by nra. subst h. pose proof (K2 i Hi). pose proof (H2 i Hi). apply Rmult_eq_reg_l with k; lra.
  - exfalso. assert (Z : rdot a a = 0%R) by (apply dot_null; apply H2). pose proof (dot_scaled K2) as A. rewrite K1 in A. nra.
  - exfalso. assert (Z : rdot a a = 0%R) by (apply dot_null; apply K2). pose proof (dot_scaled H2) as A. rewrite H1 in A. nra.
  - destruct (K2 i Hi), (H2 i Hi). congruence.
Qed.
Lemma direction_ext a b u : (forall i, i < 3 -> a i = b i) -> direction a u -> direction b u.
Proof.
  intros E [(k & K0 & K1 & K2)|K2]; [left; exists k; repeat split; auto; intros i Hi; rewrite <- E; auto|right].
  intros i Hi. rewrite <- E; auto.
Qed.
Lemma direction_scale a u k : (0 < k)%R -> direction (fun i => (k * a i)%R) u -> direction a u.
Proof.
  intros K [(h & H0 & H1 & H2)|H2].
  - left. exists (h / k)%R. split; [apply Rdiv_lt_0_compat; auto|]. split; auto. intros i Hi. specialize (H2 i Hi). cbv beta in H2.
    apply Rmult_eq_reg_l with k; [|lra]. rewrite H2. field. lra.
  - right. intros i Hi. destruct (H2 i Hi) as [A B]. split; auto. nra.
Qed.
Lemma direction_pos a u d : direction a u -> (0 < rdot a d)%R -> rdot u u = 1%R /\ (0 < rdot u d)%R.
Proof.
  intros [(h & H0 & H1 & H2)|H2] P.
  - split; auto. unfold dot3 in *. rewrite !H2 in P by lia.
    assert (E : forall a b c x y z : R, ((h * a) * x + (h * b) * y + (h * c) * z = h * (a * x + b * y + c * z))%R) by (intros; ring).
    rewrite E in P. apply Rmult_lt_reg_l with h; auto. rewrite Rmult_0_r. exact P.
  - exfalso. unfold dot3 in P. destruct (H2 0), (H2 1), (H2 2); try lia. rewrite H, H1, H4 in P. lra.
Qed.

(** ** sums *)
Lemma r_kahan l : kahan 0%R Rplus Rminus l = (sum 0%R Rplus l, length l).
Proof.
  destruct (@kahan_sum R 0%R 1%R Rplus Rmult Rminus Ropp eq (@eq_equivalence R) (Eq_ext Rplus Rmult Ropp) RTheory l) as [A B].
  destruct (kahan _ _ _ l) as [x y]. cbn in *. congruence.
Qed.

(** ** writing the normals *)
Section Assign.
  Context {A B : Type} (f : A -> B -> A).
  Definition d_mapi (h : nat -> A -> A) (d : dvec A) : dvec A :=
    mkD (map (option_map (fun p => (fst p, h (fst p) (snd p)))) (slots d)) (free d).
  Lemma assign_ok (N : nat -> B) l : assign f l (map N (map fst (flat_map (fun s => match s with Some p => [p] | None => [] end) l))) =
    Ok (map (option_map (fun p => (fst p, f (snd p) (N (fst p))))) l).
  Proof.
    induction l as [|[[i a]|] l IH]; cbn [assign flat_map app map option_map]; auto.
    - rewrite IH. reflexivity.
    - rewrite IH. reflexivity.
  Qed.
  Lemma look_mapi h d q i : dv_ok d q -> look (d_mapi h d) i = option_map (h i) (look d i).
  Proof.
    intros [_ _ I]. unfold look, d_mapi. cbn [slots]. rewrite nth_error_map.
    destruct (nth_error (slots d) i) as [[[k v]|]|] eqn:E; try reflexivity. cbn. rewrite (I _ _ _ E). reflexivity.
  Qed.
  Lemma ok_mapi h d q : dv_ok d q -> dv_ok (d_mapi h d) q.
  Proof.
    intros [N DD I]. split; auto.
    - intros i. unfold d_mapi. cbn [slots]. rewrite nth_error_map. rewrite <- (DD i). destruct (nth_error _ i) as [[[? ?]|]|]; cbn; split; congruence.
    - intros i k v. unfold d_mapi. cbn [slots]. rewrite nth_error_map. destruct (nth_error _ i) as [[[k' v']|]|] eqn:E; cbn; intros H; try discriminate.
      injection H as <- <-. apply (I _ _ _ E).
  Qed.
End Assign.
Lemma hget_in {B} (h : list (nat * B)) k b : NoDup (map fst h) -> In (k, b) h -> hget h k = Some b.
Proof.
  induction h as [|[k' b'] h IH]; intros N I; [destruct I|]. cbn [map fst] in N. inversion N as [|? ? N1 N2]; subst. cbn [hget].
  destruct I as [I|I].
  - injection I as -> ->. rewrite Nat.eqb_refl. reflexivity.
  - destruct (Nat.eqb_spec k k') as [->|NE]; [|apply IH; auto]. destruct N1. apply in_map_iff. exists (k', b). auto.
Qed.

Section Mesh.
  Context {FP : Type}.
  Notation mesh := (mesh (pnu R) (curve R) FP).
  Notation graph := (graph (pnu R) (curve R) FP).
  Implicit Types (m : mesh) (g : graph).
  Variables (planar : nat -> bool) (nan : rvec).
  Notation gen := (generate_smooth_normals planar nan).
  Notation fnormal := (face_normal 0%R Rplus Rmult Rminus (-1 / 2)%R).

  Lemma points_pays m vs : wf m -> Forall (fun v => lvv (abs m) v = true) vs ->
    exists ps, map (vp (abs m)) vs = map Some ps /\
      mapM (fun v => let* x := m_vertex m v in Ok (u_pos (v_pay x))) vs = Ok (map (@u_pos R) ps).
  Proof.
    intros Wm F. destruct (wf_abs Wm) as [Rp W]. induction F as [|v vs LV F (ps & A & B)]; [exists []; auto|].
    destruct (r_vertex_live Rp _ LV) as (x & X & _ & P). exists (v_pay x :: ps). cbn [map mapM]. rewrite X. cbn [bind].
    rewrite B, A, P. auto.
  Qed.
  Lemma fnormal_area m f : wf m -> lvf (abs m) f = true -> exists n, fnormal m f = Ok n /\ face_area (abs m) f n.
  Proof.
    intros Wm L. destruct (boundary_exists Wm L) as (vs & B). destruct (points_pays Wm (boundary_live Wm B)) as (ps & P & M).
    eexists. split.
    - unfold face_normal, face_points. rewrite (boundary_face_vertices Wm L B). cbn [bind]. rewrite M. cbn [bind]. reflexivity.
    - exists vs, ps. split; auto. split; auto. intros i Hi.
      rewrite (newell_cross (@eq_equivalence R) (Eq_ext Rplus Rmult Ropp) RTheory). field.
  Qed.

  (** the faces around a vertex *)
  Lemma v_faces_ok c m v : wf m -> lvv (abs m) v = true -> exists l fs, corners (abs m) v l /\ v_faces c m v = Ok fs /\
    Forall2 (fun e f => fc (abs m) e = Some f /\ lvf (abs m) f = true) l fs.
  Proof.
    intros Wm L. destruct (wf_abs Wm) as [Rp W]. destruct (edges_out_ok c Rp W L) as (es & (ND & OL) & E & _).
    unfold v_faces. rewrite E. cbn [bind].
    assert (G : mapM (g_face m) es = Ok (map (fc (abs m)) es)).
    { apply mapM_ok. intros x I. apply OL in I as [Lx _]. unfold g_face. rewrite (r_face_id Rp), Lx. cbn [bind].
      destruct (fc (abs m) x) as [f|] eqn:F; auto. destruct (wf_fc W _ Lx F) as [LF _].
      destruct (r_face_live Rp _ LF) as (y & Y & _). rewrite Y. reflexivity. }
    rewrite G. cbn [bind]. exists (filter (fun e => match fc (abs m) e with Some _ => true | None => false end) es).
    eexists. split; [|split; [reflexivity|]].
    - split; [apply NoDup_filter; auto|]. intros e. rewrite filter_In, OL. destruct (fc (abs m) e); intuition congruence.
    - assert (LL : forall e, In e es -> lv (abs m) e = true) by (intros e I; apply OL; auto). clear - LL W.
      induction es as [|e es IH]; cbn [filter map flat_map]; [constructor|].
      assert (IH' := IH ltac:(intros x I; apply LL; right; auto)).
      destruct (fc (abs m) e) as [f|] eqn:F; cbn [app]; auto. constructor; auto. split; auto.
      destruct (wf_fc W _ (LL e (or_introl eq_refl)) F); auto.
  Qed.

  Lemma mean_direction us : us <> [] -> direction (vsum us) (mean nan us).
  Proof.
    intros N. destruct us as [|u us]; [congruence|]. set (l := u :: us).
    assert (P : (0 < / INR (length l))%R) by (apply Rinv_0_lt_compat, lt_0_INR; cbn; lia).
    apply direction_scale with (/ INR (length l))%R; auto.
    unfold mean. fold l. apply normalize_direction. intros i Hi. rewrite r_kahan, map_length. cbn [fst snd].
    unfold vsum, Rdiv. ring.
  Qed.

  Lemma smooth_ok c m : wf m -> (dbg c = true -> forall f, lvf (abs m) f = true -> planar f = true) ->
    exists m', gen c m = Ok m' /\ wf m' /\ smoothed nan (abs m) (abs m').
  Proof.
    intros Wm PL. destruct (wf_abs Wm) as [Rp W].
    assert (FL : forall f, In f (face_ids m) <-> lvf (abs m) f = true) by (intros f; apply (in_iter_has _ (rF Rp))).
    assert (VL : forall v, In v (vertex_ids m) <-> lvv (abs m) v = true) by (intros v; apply (in_iter_has _ (rV Rp))).
    assert (H : exists h, mapM (fun f => let* n := unit_normal planar c m f in Ok (f, n)) (face_ids m) = Ok h /\
      map fst h = face_ids m /\ Forall (fun p => exists a, face_area (abs m) (fst p) a /\ direction a (snd p)) h).
    { assert (FL' : forall f, In f (face_ids m) -> lvf (abs m) f = true) by (intros f; apply FL). clear - FL' Wm PL.
      induction (face_ids m) as [|f l IH]; [exists []; cbn; auto|].
      destruct IH as (h & E & K & D); [intros x I; apply FL'; right; auto|].
      assert (L := FL' f (or_introl eq_refl)). destruct (fnormal_area Wm L) as (n & N & A).
      exists ((f, r_normalize n) :: h). cbn [mapM]. unfold unit_normal at 1. rewrite N. cbn [bind].
      assert (Q : negb (dbg c) || planar f = true) by (destruct (dbg c) eqn:DB; [rewrite (PL eq_refl _ L)|]; reflexivity).
      rewrite Q. cbn [assert bind]. rewrite E. cbn [bind map fst]. rewrite K. split; auto. split; auto.
      constructor; auto. exists n. split; auto. cbn [snd]. apply normalize_direction. auto. }
    destruct H as (h & EH & KH & DH).
    assert (NH : NoDup (map fst h)) by (rewrite KH; apply (iter_ids_nodup (rF Rp))).
    assert (VN : forall v, lvv (abs m) v = true -> exists n,
      (let* fs := v_faces c m v in let* l := mapM (fun f => unwrap (hget h f)) fs in Ok (mean nan l)) = Ok n /\
      exists l, corners (abs m) v l /\ (l = [] -> n = nan) /\ (l <> [] -> smooth_normal (abs m) l n)).
    { intros v L. destruct (v_faces_ok c Wm L) as (l & fs & C & E & F). rewrite E. cbn [bind].
      assert (U : exists us, mapM (fun f => unwrap (hget h f)) fs = Ok us /\
        Forall2 (fun e u => exists f a, fc (abs m) e = Some f /\ face_area (abs m) f a /\ direction a u) l us).
      { clear - F FL KH DH NH. induction F as [|e f l fs [F1 F2] F IH]; [exists []; split; [reflexivity|constructor]|].
        destruct IH as (us & E & A). apply FL in F2. rewrite <- KH in F2. apply in_map_iff in F2 as ([f' u] & Q & I). cbn in Q. subst f'.
        exists (u :: us). cbn [mapM]. rewrite (hget_in NH I). cbn [unwrap bind]. rewrite E. cbn [bind]. split; auto.
        constructor; auto. rewrite Forall_forall in DH. destruct (DH _ I) as (a & A1 & A2). exists f, a. auto. }
      destruct U as (us & EU & FU). rewrite EU. cbn [bind]. eexists. split; [reflexivity|]. exists l. split; auto. split.
      - intros ->. inversion FU; subst. reflexivity.
      - intros N. exists us. split; auto. apply mean_direction. intros ->. inversion FU; subst. congruence. }
    assert (N : exists N : nat -> rvec, forall v, lvv (abs m) v = true ->
      (let* fs := v_faces c m v in let* l := mapM (fun f => unwrap (hget h f)) fs in Ok (mean nan l)) = Ok (N v) /\
      exists l, corners (abs m) v l /\ (l = [] -> N v = nan) /\ (l <> [] -> smooth_normal (abs m) l (N v))).
    { exists (fun v => match (let* fs := v_faces c m v in let* l := mapM (fun f => unwrap (hget h f)) fs in Ok (mean nan l)) with
        Ok n => n | _ => nan end).
      intros v L. destruct (VN v L) as (n & E & K). rewrite E. split; auto. }
    destruct N as (N & HN). unfold generate_smooth_normals. rewrite EH. cbn [bind].
    rewrite (@mapM_ok _ _ _ N) by (intros v I; apply HN, VL; auto). cbn [bind]. unfold vertex_ids, d_iter.
    rewrite assign_ok. cbn [bind]. set (d := d_mapi (fun v p => set_nor p (N v)) (verts m)).
    change (mkD (map (option_map (fun p => (fst p, set_nor (snd p) (N (fst p))))) (slots (verts m))) (free (verts m))) with d.
    set (m' := mkM (edges m) d (faces m)). exists m'. split; auto.
    assert (LK : forall i, look d i = option_map (fun p => set_nor p (N i)) (look (verts m) i)) by (intros i; exact (look_mapi (fun v p => set_nor p (N v)) i (rV Rp))).
    assert (SL : same_links (abs m) (abs m')).
    { split; intros x; unfold abs, m'; cbn; rewrite ?has_look_b, ?LK; auto; destruct (look (verts m) x); reflexivity. }
    split.
    { destruct Wm as (A & B & C & D). split; [exact A|]. split; [apply ok_mapi; exact B|]. split; [exact C|]. apply (links_WF SL D). }
    split; auto. split; [reflexivity|]. split; [reflexivity|]. intros v.
    assert (V1 : vp (abs m) v = option_map (@v_pay _) (look (verts m) v)) by reflexivity.
    assert (V2 : vp (abs m') v = option_map (@v_pay _) (look d v)) by reflexivity.
    rewrite V1, V2, LK. destruct (look (verts m) v) as [p|] eqn:P; cbn; auto.
    assert (L : lvv (abs m) v = true) by (unfold abs; cbn; rewrite has_look_b, P; reflexivity).
    destruct (HN v L) as [_ K]. auto.
  Qed.
End Mesh.
