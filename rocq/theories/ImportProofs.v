(** [import_mesh] yields a renamed copy (C15). *)
From Coq Require Import List Arith Lia Bool.
From Verif Require Import Base DVec DVecFacts Mesh Spec Rep MeshSpec RefineSpec Import.
Import ListNotations.
Set Implicit Arguments.
Unset Strict Implicit.
Local Arguments abs : simpl never.

(** position of a key in a list *)
Fixpoint pos (k : nat) (l : list nat) : nat :=
  match l with [] => 0 | x :: t => if x =? k then 0 else S (pos k t) end.
Lemma pos_lt k l : In k l -> pos k l < length l.
Proof. induction l as [|x l IH]; cbn; [intros []|]. destruct (Nat.eqb_spec x k); [lia|]. intros [E|I]; [congruence|]. apply IH in I. lia. Qed.
Lemma pos_nth k l : In k l -> nth_error l (pos k l) = Some k.
Proof. induction l as [|x l IH]; cbn; [intros []|]. destruct (Nat.eqb_spec x k); [cbn; congruence|]. intros [E|I]; [congruence|]. auto. Qed.
Lemma nth_pos l : NoDup l -> forall i k, nth_error l i = Some k -> pos k l = i.
Proof.
  induction 1 as [|x l N D IH]; intros [|i] k H; cbn in *; try discriminate.
  - injection H as ->. rewrite Nat.eqb_refl. auto.
  - destruct (Nat.eqb_spec x k) as [->|E]; [|auto]. apply nth_error_In in H. contradiction.
Qed.
Lemma pos_snoc k l a : In k l -> pos k (l ++ [a]) = pos k l.
Proof. induction l as [|x l IH]; cbn; [intros []|]. destruct (Nat.eqb_spec x k); auto. intros [E|I]; [congruence|]. rewrite IH; auto. Qed.
Lemma pos_last k l : ~ In k l -> pos k (l ++ [k]) = length l.
Proof. induction l as [|x l IH]; cbn; [rewrite Nat.eqb_refl; auto|]. intros N. destruct (Nat.eqb_spec x k); [tauto|]. rewrite IH; auto. Qed.

(** the finished maps *)
Definition maps (h : hmap) (l : list nat) : Prop := forall k, hm_get h k = if existsb (Nat.eqb k) l then Ok (pos k l) else Panic.
Lemma maps_in h l k : maps h l -> In k l -> hm_get h k = Ok (pos k l).
Proof. intros M I. rewrite (M k). replace (existsb _ l) with true; auto. symmetry. apply existsb_exists. exists k. rewrite Nat.eqb_refl. auto. Qed.
Lemma maps_nd h l k : maps h l -> hm_get h k <> Diverge.
Proof. intros M. rewrite (M k). destruct (existsb _ _); discriminate. Qed.
Lemma maps_snoc h l a : maps h l -> ~ In a l -> maps (hm_insert a (length l) h) (l ++ [a]).
Proof.
  intros M N k. unfold hm_get, hm_insert. cbn [find fst]. destruct (Nat.eqb_spec a k) as [->|E].
  - cbn. rewrite existsb_app. cbn. rewrite Nat.eqb_refl, orb_true_r. rewrite pos_last; auto.
  - specialize (M k). unfold hm_get in M. rewrite M. rewrite existsb_app. cbn.
    destruct (Nat.eqb_spec k a); [congruence|]. rewrite !orb_false_r.
    destruct (existsb (Nat.eqb k) l) eqn:Q; auto. rewrite pos_snoc; auto.
    apply existsb_exists in Q as (y & I & Y). apply Nat.eqb_eq in Y. congruence.
Qed.

Lemma imp_alloc_ok A B cap (l : list (nat * A)) : NoDup (map fst l) -> length l <= cap ->
  exists h, imp_alloc (B := B) cap l = Ok (mkD (repeat None (length l)) [], h) /\ maps h (map fst l).
Proof.
  unfold imp_alloc. intros N C.
  assert (G : forall l1 l2 h, l = l1 ++ l2 -> maps h (map fst l1) -> exists h',
    foldM (fun s (p : nat * A) => let '(d, h) := s in let* (d', i) := d_alloc (A := B) cap d in Ok (d', hm_insert (fst p) i h))
      l2 (mkD (repeat None (length l1)) [], h) = Ok (mkD (repeat None (length l)) [], h') /\ maps h' (map fst l)).
  { intros l1 l2. revert l1. induction l2 as [|p l2 IH]; intros l1 h E M.
    - rewrite app_nil_r in E. subst. exists h. auto.
    - cbn [foldM]. unfold d_alloc. cbn [free slots]. rewrite repeat_length.
      replace (length l1 <=? cap) with true by (symmetry; apply Nat.leb_le; rewrite E, app_length in C; cbn in C; lia).
      cbn [assert bind]. destruct (IH (l1 ++ [p]) (hm_insert (fst p) (length l1) h)) as (h' & F & M').
      + rewrite <- app_assoc. auto.
      + rewrite map_app. cbn [map]. rewrite <- (map_length fst l1). apply maps_snoc; auto.
        rewrite E, map_app in N. cbn [map] in N. apply NoDup_remove_2 in N. rewrite in_app_iff in N. tauto.
      + exists h'. split; auto. rewrite <- F. f_equal. f_equal. f_equal.
        rewrite app_length, repeat_app. reflexivity. }
  apply (G [] l []); auto. intros k. reflexivity.
Qed.

Lemma set_next_slot A cap (pre : list (option (nat * A))) n v : length pre < cap ->
  d_set cap (mkD (pre ++ repeat None (S n)) []) (length pre) v =
  Ok (mkD ((pre ++ [Some (length pre, v)]) ++ repeat None n) []).
Proof.
  intros L. unfold d_set. cbn [slots free]. rewrite nth_error_app2, Nat.sub_diag by lia. cbn [repeat nth_error].
  destruct (Nat.eqb_spec (length pre) cap); [lia|]. cbn [negb assert]. do 2 f_equal.
  rewrite <- app_assoc. cbn [app]. generalize (Some (length pre, v)) as z. clear. intros z. induction pre; cbn; congruence.
Qed.

(** the target arena: the [i]-th element of the source, converted *)
Fixpoint numbered {A B} (f : nat * A -> B) (i : nat) (l : list (nat * A)) : list (option (nat * B)) :=
  match l with [] => [] | p :: t => Some (i, f p) :: numbered f (S i) t end.
Lemma numbered_app A B (f : nat * A -> B) l1 l2 i : numbered f i (l1 ++ l2) = numbered f i l1 ++ numbered f (i + length l1) l2.
Proof. revert i. induction l1 as [|p l1 IH]; intros i; cbn; [rewrite Nat.add_0_r; auto|]. rewrite IH. cbn. do 3 f_equal. lia. Qed.
Lemma numbered_length A B (f : nat * A -> B) l i : length (numbered f i l) = length l.
Proof. revert i. induction l; cbn; auto. Qed.
Lemma numbered_nth A B (f : nat * A -> B) l j i :
  nth_error (numbered f i l) j = option_map (fun p => Some (i + j, f p)) (nth_error l j).
Proof.
  revert i j. induction l as [|p l IH]; intros i [|j]; cbn; auto.
  - rewrite Nat.add_0_r. auto.
  - rewrite IH. replace (S i + j) with (i + S j) by lia. auto.
Qed.
Lemma numbered_ok A B (f : nat * A -> B) l : dv_ok (mkD (numbered f 0 l) []) [].
Proof.
  split; cbn [slots free app]; [constructor| |]; intros i.
  - rewrite numbered_nth. destruct (nth_error l i); cbn; split; try discriminate; intros [].
  - intros k v. rewrite numbered_nth. destruct (nth_error l i); cbn; congruence.
Qed.
Lemma numbered_look A B (f : nat * A -> B) l i : look (mkD (numbered f 0 l) []) i = option_map f (nth_error l i).
Proof. unfold look. cbn [slots]. rewrite numbered_nth. destruct (nth_error l i); auto. Qed.

Lemma fold_numbered A B M (l : list (nat * A)) (f : nat * A -> B) (put : dvec B -> M) (step : M -> nat * A -> res M) cap :
  length l <= cap ->
  (forall d p, In p l -> step (put d) p = let* d' := d_set cap d (pos (fst p) (map fst l)) (f p) in Ok (put d')) ->
  NoDup (map fst l) ->
  foldM step l (put (mkD (repeat None (length l)) [])) = Ok (put (mkD (numbered f 0 l) [])).
Proof.
  intros C H N.
  assert (G : forall l1 l2, l = l1 ++ l2 ->
    foldM step l2 (put (mkD (numbered f 0 l1 ++ repeat None (length l2)) [])) = Ok (put (mkD (numbered f 0 l) []))).
  { intros l1 l2. revert l1. induction l2 as [|p l2 IH]; intros l1 E.
    - cbn. rewrite app_nil_r in *. subst. auto.
    - cbn [foldM length]. rewrite H by (rewrite E; apply in_or_app; right; left; auto).
      assert (P : pos (fst p) (map fst l) = length (numbered f 0 l1)).
      { rewrite numbered_length. apply nth_pos; auto. rewrite E, map_app, nth_error_app2 by (rewrite map_length; auto).
        rewrite map_length, Nat.sub_diag. auto. }
      rewrite P, set_next_slot.
      2:{ rewrite numbered_length. rewrite E, app_length in C. cbn in C. lia. }
      cbn [bind]. rewrite <- (IH (l1 ++ [p])) by (rewrite <- app_assoc; auto).
      do 4 f_equal. rewrite numbered_app. cbn. rewrite numbered_length. auto. }
  apply (G [] l). auto.
Qed.

Lemma foldM_panic A S (f : S -> A -> res S) l a : In a l -> (forall s, f s a = Panic) -> forall s s', foldM f l s <> Ok s'.
Proof.
  intros I P. induction l as [|x l IH]; [destruct I|]. intros s s' H. cbn in H. inv_ok H.
  destruct I as [->|I]; [congruence|]. apply (IH I _ _ H).
Qed.
Lemma foldM_nd A S (f : S -> A -> res S) l : (forall s a, f s a <> Diverge) -> forall s, foldM f l s <> Diverge.
Proof.
  intros P. induction l as [|x l IH]; intros s; cbn; [discriminate|].
  destruct (f s x) eqn:Q; cbn; auto; [discriminate|]. apply P in Q. destruct Q.
Qed.

Section Import.
  Context {VP EP FP VP' EP' FP' : Type}.
  Variables (fv : VP -> VP') (fh : EP -> EP') (ff : FP -> FP').
  Notation graph := (graph VP EP FP).
  Notation graph' := (Spec.graph VP' EP' FP').
  Notation mesh := (mesh VP EP FP).
  Implicit Types (g : graph) (m : mesh).

  Lemma copy_reach g (g' : graph') re (s : graph -> nat -> nat) (s' : graph' -> nat -> nat) x y :
    (forall z, lv g z = true -> lv g (s g z) = true) ->
    (forall z, lv g z = true -> s' g' (re z) = re (s g z)) -> lv g x = true ->
    reach (s g) x y -> reach (s' g') (re x) (re y).
  Proof.
    intros K E L R. assert (G : lv g y = true /\ reach (s' g') (re x) (re y)); [|apply G].
    induction R as [|y R [Ly IH]]; [split; [auto|constructor]|]. split; auto. rewrite <- E by auto. constructor. auto.
  Qed.

  Lemma copy_WF g (g' : graph') rv re rf : WF g -> copy_of fv fh ff g g' rv re rf -> WF g'.
  Proof.
    intros W C.
    assert (ON : forall (P : nat -> Prop), (forall x, lv g x = true -> P (re x)) -> forall i, lv g' i = true -> P i).
    { intros P H i L. destruct (rn_onto (cp_e C) L) as (x & Lx & <-). auto. }
    pose proof (rn_live (cp_e C)) as LE. pose proof (rn_live (cp_v C)) as LV. pose proof (rn_live (cp_f C)) as LF.
    assert (IE : forall x y, lv g x = true -> lv g y = true -> re x = re y -> x = y).
    { intros x y Lx Ly E. destruct (Nat.lt_total x y) as [Q|[Q|Q]]; auto; apply (rn_mono (cp_e C)) in Q; auto; lia. }
    assert (IV : forall x y, lvv g x = true -> lvv g y = true -> rv x = rv y -> x = y).
    { intros x y Lx Ly E. destruct (Nat.lt_total x y) as [Q|[Q|Q]]; auto; apply (rn_mono (cp_v C)) in Q; auto; lia. }
    assert (WL : forall z, lv g z = true -> lv g (wheel g z) = true) by (intros; apply W, W; auto).
    assert (WE : forall z, lv g z = true -> wheel g' (re z) = re (wheel g z)).
    { intros z L. unfold wheel. rewrite (cp_tw C), (cp_nx C); auto. apply W; auto. }
    split.
    - apply ON. intros x L. rewrite (cp_tw C) by auto. apply LE, W; auto.
    - apply ON. intros x L. rewrite !(cp_tw C), (wf_twtw W); auto. apply W; auto.
    - apply ON. intros x L. rewrite (cp_tw C) by auto. intros E. apply IE in E; auto; [|apply W; auto]. apply (wf_twne W L E).
    - apply ON. intros x L. rewrite (cp_nx C) by auto. apply LE, W; auto.
    - apply ON. intros x L. rewrite (cp_pv C) by auto. apply LE, W; auto.
    - apply ON. intros x L. rewrite (cp_nx C), (cp_pv C), (wf_pvnx W); auto. apply W; auto.
    - apply ON. intros x L. rewrite (cp_pv C), (cp_nx C), (wf_nxpv W); auto. apply W; auto.
    - apply ON. intros x L. rewrite (cp_nx C), (cp_tw C), !(cp_og C), (wf_ognx W); auto; apply W; auto.
    - apply ON. intros x L. rewrite (cp_nx C), !(cp_fc C), (wf_fcnx W); auto; apply W; auto.
    - apply ON. intros x L. rewrite (cp_og C) by auto. apply LV, W; auto.
    - apply ON. intros x L. destruct (wf_wheel W _ L) as (e0 & V & R). exists (re e0).
      pose proof (wf_og W _ L) as LO. destruct (wf_ve W _ LO V) as [L0 _].
      rewrite (cp_og C), (cp_ve C), V by auto. split; auto.
      apply (@copy_reach g g' re wheel wheel); auto.
    - intros v e L V. destruct (rn_onto (cp_v C) L) as (v0 & L0 & <-). rewrite (cp_ve C) in V by auto.
      destruct (ve g v0) as [e0|] eqn:V0; [|discriminate]. injection V as <-.
      destruct (wf_ve W _ L0 V0) as [LE0 O0]. split; auto. rewrite (cp_og C); congruence.
    - intros e f L. revert f. pattern e. revert e L. apply ON. intros x L f F. rewrite (cp_fc C) in F by auto.
      destruct (fc g x) as [f0|] eqn:F0; [|discriminate]. injection F as <-.
      destruct (wf_fc W _ L F0) as [LF0 R]. split; auto. rewrite (cp_fe C) by auto.
      apply (@copy_reach g g' re (@nx _ _ _) (@nx _ _ _)); auto; [apply W|apply (cp_nx C)|].
      apply (wf_fe W _ LF0).
    - intros f L. destruct (rn_onto (cp_f C) L) as (f0 & L0 & <-). destruct (wf_fe W _ L0) as [A B].
      rewrite (cp_fe C) by auto. split; auto. rewrite (cp_fc C), B; auto.
  Qed.

  Variable c : cfg.
  Variable m : mesh.
  Hypothesis Wm : wf m.
  Notation EI := (map fst (d_iter (edges m))).
  Notation VI := (map fst (d_iter (verts m))).
  Notation FI := (map fst (d_iter (faces m))).
  Hypothesis NE : length EI <= capE c.
  Hypothesis NV : length VI <= capV c.
  Hypothesis NF : length FI <= capF c.

  Local Lemma WG : WF (abs m). Proof. apply Wm. Qed.
  Local Lemma okE : dv_ok (edges m) []. Proof. apply Wm. Qed.
  Local Lemma okV : dv_ok (verts m) []. Proof. apply Wm. Qed.
  Local Lemma okF : dv_ok (faces m) []. Proof. apply Wm. Qed.
  Local Lemma inE i : In i EI <-> lv (abs m) i = true.
  Proof.
    rewrite in_map_iff. change (lv (abs m) i) with (d_has (edges m) i). rewrite has_look. split.
    - intros ((k & x) & <- & I). apply (iter_look okE) in I. cbn. congruence.
    - destruct (look (edges m) i) as [x|] eqn:Q; [|tauto]. intros _. exists (i, x). split; auto. apply (iter_look okE). auto.
  Qed.
  Local Lemma inV i : In i VI <-> lvv (abs m) i = true.
  Proof.
    rewrite in_map_iff. change (lvv (abs m) i) with (d_has (verts m) i). rewrite has_look. split.
    - intros ((k & x) & <- & I). apply (iter_look okV) in I. cbn. congruence.
    - destruct (look (verts m) i) as [x|] eqn:Q; [|tauto]. intros _. exists (i, x). split; auto. apply (iter_look okV). auto.
  Qed.
  Local Lemma inF i : In i FI <-> lvf (abs m) i = true.
  Proof.
    rewrite in_map_iff. change (lvf (abs m) i) with (d_has (faces m) i). rewrite has_look. split.
    - intros ((k & x) & <- & I). apply (iter_look okF) in I. cbn. congruence.
    - destruct (look (faces m) i) as [x|] eqn:Q; [|tauto]. intros _. exists (i, x). split; auto. apply (iter_look okF). auto.
  Qed.

  (** reading an element of the source *)
  Local Lemma itE i x : In (i, x) (d_iter (edges m)) -> lv (abs m) i = true /\ nx (abs m) i = e_next x /\
    pv (abs m) i = e_prev x /\ tw (abs m) i = e_twin x /\ og (abs m) i = e_origin x /\ fc (abs m) i = e_face x /\
    ep (abs m) i = Some (e_pay x).
  Proof.
    intros I. apply (iter_look okE) in I. unfold abs. cbn. rewrite has_look_b, I. cbn. repeat split.
  Qed.
  Local Lemma itV i x : In (i, x) (d_iter (verts m)) -> lvv (abs m) i = true /\ ve (abs m) i = v_edge x /\ vp (abs m) i = Some (v_pay x).
  Proof. intros I. apply (iter_look okV) in I. unfold abs. cbn. rewrite has_look_b, I. cbn. repeat split. Qed.
  Local Lemma itF i x : In (i, x) (d_iter (faces m)) -> lvf (abs m) i = true /\ fe (abs m) i = f_edge x /\ fp (abs m) i = Some (f_curved x, f_pay x).
  Proof. intros I. apply (iter_look okF) in I. unfold abs. cbn. rewrite has_look_b, I. cbn. repeat split. Qed.

  Local Definition cvV (p : nat * vertex VP) : vertex VP' :=
    mkV (option_map (fun e => pos e EI) (v_edge (snd p))) (fv (v_pay (snd p))).
  Local Definition cvF (p : nat * face FP) : face FP' := mkF (pos (f_edge (snd p)) EI) false (ff (f_pay (snd p))).
  Local Definition cvE (p : nat * edge EP) : edge EP' :=
    mkE (pos (e_next (snd p)) EI) (pos (e_twin (snd p)) EI) (pos (e_prev (snd p)) EI) (pos (e_origin (snd p)) VI)
      (option_map (fun f => pos f FI) (e_face (snd p))) (fh (e_pay (snd p))).
  Definition imported : Mesh.mesh VP' EP' FP' :=
    mkM (mkD (numbered cvE 0 (d_iter (edges m))) []) (mkD (numbered cvV 0 (d_iter (verts m))) [])
        (mkD (numbered cvF 0 (d_iter (faces m))) []).

  Lemma import_runs : importable (abs m) -> import_mesh fv fh ff c m = Ok imported.
  Proof.
    intros [IV IE]. pose proof WG as W. unfold import_mesh. rewrite map_length in NE, NV, NF.
    destruct (imp_alloc_ok (vertex VP') (iter_ids_nodup okV) NV) as (vm & -> & MV). cbn [bind].
    destruct (imp_alloc_ok (face FP') (iter_ids_nodup okF) NF) as (fm & -> & MF). cbn [bind].
    destruct (imp_alloc_ok (edge EP') (iter_ids_nodup okE) NE) as (em & -> & ME). cbn [bind].
    rewrite (@fold_numbered _ _ _ (d_iter (verts m)) cvV
      (fun d => mkM (mkD (repeat None (length (d_iter (edges m)))) []) d (mkD (repeat None (length (d_iter (faces m)))) []))
      _ (capV c) NV); [cbn [bind]| |apply (iter_ids_nodup okV)].
    2:{ intros d [i x] I. destruct (itV I) as (L & V & _). unfold imp_vertex. cbn [fst snd].
        rewrite (maps_in MV) by (apply inV; auto). cbn [bind].
        pose proof (IV i L) as NI. unfold cvV. cbn [snd]. rewrite V in NI. destruct (v_edge x) as [k|] eqn:Q; [|congruence].
        destruct (wf_ve W _ L V) as [Lk _]. cbn [unwrap bind]. rewrite (maps_in ME) by (apply inE; auto). reflexivity. }
    rewrite (@fold_numbered _ _ _ (d_iter (faces m)) cvF
      (fun d => mkM (mkD (repeat None (length (d_iter (edges m)))) []) (mkD (numbered cvV 0 (d_iter (verts m))) []) d)
      _ (capF c) NF); [cbn [bind]| |apply (iter_ids_nodup okF)].
    2:{ intros d [i x] I. destruct (itF I) as (L & E & _). unfold imp_face. cbn [fst snd].
        rewrite (maps_in MF) by (apply inF; auto). cbn [bind].
        assert (IX : In (f_edge x) EI). { apply inE. rewrite <- E. apply (wf_fe W _ L). }
        rewrite (maps_in ME IX). cbn [bind]. pose proof (pos_lt IX) as PL. rewrite map_length in PL.
        destruct (Nat.eqb_spec (pos (f_edge x) EI) (capE c)); [lia|]. cbn [negb assert]. reflexivity. }
    apply (@fold_numbered _ _ _ (d_iter (edges m)) cvE
      (fun d => mkM d (mkD (numbered cvV 0 (d_iter (verts m))) []) (mkD (numbered cvF 0 (d_iter (faces m))) []))
      _ (capE c) NE); [|apply (iter_ids_nodup okE)].
    intros d [i x] I. destruct (itE I) as (L & N & P & T & O & F & _). unfold imp_edge. cbn [fst snd].
    assert (Ii : In i EI) by (apply inE; auto).
    assert (In' : In (e_next x) EI) by (apply inE; rewrite <- N; apply W; auto).
    assert (Ip : In (e_prev x) EI) by (apply inE; rewrite <- P; apply W; auto).
    assert (It : In (e_twin x) EI) by (apply inE; rewrite <- T; apply W; auto).
    assert (Io : In (e_origin x) VI) by (apply inV; rewrite <- O; apply W; auto).
    rewrite (maps_in ME Ii), (maps_in MV Io), (maps_in ME In'), (maps_in ME Ip), (maps_in ME It). cbn [bind].
    assert (FE : match e_face x with None => Ok None | Some f => let* f' := hm_get fm f in Ok (Some f') end =
                 Ok (option_map (fun f => pos f FI) (e_face x))).
    { destruct (e_face x) as [f|] eqn:Q; auto. rewrite (maps_in MF); auto. apply inF. apply (wf_fc W _ L F). }
    rewrite FE. cbn [bind]. unfold insert_halfedge. cbn [edges verts faces].
    assert (CAP : forall k, In k EI -> (pos k EI =? capE c) = false).
    { intros k Ik. apply Nat.eqb_neq. pose proof (pos_lt Ik) as PL. rewrite map_length in PL. lia. }
    rewrite !CAP by auto. cbn [negb assert].
    assert (DIFF : forall k, In k EI -> k <> i -> (pos k EI =? pos i EI) = false).
    { intros k Ik NK. apply Nat.eqb_neq. intros E. apply NK. pose proof (pos_nth Ik). pose proof (pos_nth Ii). congruence. }
    rewrite !DIFF; auto.
    2:{ intros E. apply (IE i L). pose proof (wf_nxpv W _ L) as Z. rewrite P, E in Z. exact Z. }
    2:{ rewrite <- N. auto. }
    cbn [negb assert]. unfold d_set. destruct (nth_error (slots d) (pos i EI)) as [[|]|]; cbn [bind]; reflexivity.
  Qed.

  (** order of the new ids *)
  Lemma pos_filter (p : nat -> bool) n x y : x < y -> In x (filter p (seq 0 n)) -> In y (filter p (seq 0 n)) ->
    pos x (filter p (seq 0 n)) < pos y (filter p (seq 0 n)).
  Proof.
    intros L. generalize 0 as k. induction n as [|n IH]; intros k; cbn; [intros []|].
    destruct (p k); cbn; [|apply IH]. destruct (Nat.eqb_spec k x) as [N1|N1]; destruct (Nat.eqb_spec k y) as [N2|N2]; try lia.
    - intros [E|I1]; [congruence|]. intros _. apply filter_In in I1 as [I1 _]. apply in_seq in I1. lia.
    - intros [E|I1]; [congruence|]. intros [E|I2]; [congruence|]. specialize (IH _ I1 I2). lia.
  Qed.
  Lemma renamed_pos A B (f : nat * A -> B) (d : dvec A) : dv_ok d [] ->
    renamed (d_has d) (d_has (mkD (numbered f 0 (d_iter d)) [])) (fun x => pos x (map fst (d_iter d))).
  Proof.
    intros OK. pose proof (iter_ids OK) as E.
    assert (IN : forall x, d_has d x = true <-> In x (map fst (d_iter d))).
    { intros x. rewrite E, filter_In, in_seq. split; [|tauto]. intros H. split; auto. split; [lia|].
      apply has_look in H. destruct (look d x) eqn:Q; [|congruence]. apply look_lt in Q. auto. }
    assert (LV : forall i, d_has (mkD (numbered f 0 (d_iter d)) []) i = true <-> i < length (d_iter d)).
    { intros i. rewrite has_look, numbered_look, <- nth_error_Some. destruct (nth_error _ _); cbn; split; congruence. }
    split.
    - intros x H. apply LV. apply IN, pos_lt in H. rewrite map_length in H. auto.
    - intros x y Hx Hy L. apply IN in Hx, Hy. rewrite E in *. apply pos_filter; auto.
    - intros i H. apply LV in H. rewrite <- (map_length fst) in H. destruct (nth_error (map fst (d_iter d)) i) as [x|] eqn:Q.
      + exists x. split; [apply IN; eapply nth_error_In; eauto|]. apply nth_pos; auto. apply (iter_ids_nodup OK).
      + apply nth_error_None in Q. lia.
    - exists (length (d_iter d)). apply LV.
  Qed.

  (** reading an element of the copy *)
  Lemma numbered_at A B (f : nat * A -> B) (d : dvec A) i v : dv_ok d [] -> look d i = Some v ->
    look (mkD (numbered f 0 (d_iter d)) []) (pos i (map fst (d_iter d))) = Some (f (i, v)).
  Proof.
    intros OK L. rewrite numbered_look. apply (iter_look OK) in L.
    assert (I : In i (map fst (d_iter d))) by (apply in_map_iff; exists (i, v); auto).
    pose proof (pos_nth I) as P. rewrite nth_error_map in P. destruct (nth_error (d_iter d) _) as [[j w]|] eqn:Q; [|discriminate].
    cbn in P. injection P as ->. apply nth_error_In, (iter_look OK) in Q. apply (iter_look OK) in L. cbn. congruence.
  Qed.

  Lemma imported_copy : copy_of fv fh ff (abs m) (abs imported) (fun v => pos v VI) (fun e => pos e EI) (fun f => pos f FI).
  Proof.
    split; try (apply renamed_pos; [apply okV || apply okE || apply okF]);
    intros x L; unfold abs in *; cbn in *; apply has_look in L.
    1-6: destruct (look (edges m) x) as [y|] eqn:Q; [|congruence]; rewrite (numbered_at _ okE Q); reflexivity.
    1-2: destruct (look (verts m) x) as [y|] eqn:Q; [|congruence]; rewrite (numbered_at _ okV Q); reflexivity.
    1-2: destruct (look (faces m) x) as [y|] eqn:Q; [|congruence]; rewrite (numbered_at _ okF Q); reflexivity.
  Qed.

  Lemma import_total : importable (abs m) ->
    exists (m' : Mesh.mesh VP' EP' FP') rv re rf, import_mesh fv fh ff c m = Ok m' /\ wf m' /\ copy_of fv fh ff (abs m) (abs m') rv re rf.
  Proof.
    intros I. eexists _, _, _, _. split; [apply import_runs; auto|]. split; [|apply imported_copy].
    split; [apply numbered_ok|]. split; [apply numbered_ok|]. split; [apply numbered_ok|].
    apply (copy_WF WG imported_copy).
  Qed.

  Lemma import_panics : ~ importable (abs m) -> import_mesh fv fh ff c m = Panic.
  Proof.
    intros NI. pose proof WG as W. unfold import_mesh. rewrite map_length in NE, NV, NF.
    destruct (imp_alloc_ok (vertex VP') (iter_ids_nodup okV) NV) as (vm & -> & MV). cbn [bind].
    destruct (imp_alloc_ok (face FP') (iter_ids_nodup okF) NF) as (fm & -> & MF). cbn [bind].
    destruct (imp_alloc_ok (edge EP') (iter_ids_nodup okE) NE) as (em & -> & ME). cbn [bind].
    assert (DS : forall A cap (d : dvec A) i v, d_set cap d i v <> Diverge).
    { intros A cap d i v. unfold d_set. destruct (nth_error _ _) as [[|]|]; try discriminate. unfold assert. destruct (negb _); discriminate. }
    assert (ND : forall x : Mesh.mesh VP' EP' FP', foldM (imp_vertex fv c vm em) (d_iter (verts m)) x <> Diverge).
    { apply foldM_nd. intros s [i x]. unfold imp_vertex, set_vertex.
      pose proof (maps_nd (k := fst (i, x)) MV). destruct (hm_get vm _); cbn [bind]; try congruence.
      destruct (v_edge _); cbn [unwrap bind]; try discriminate.
      pose proof (maps_nd (k := n) ME). destruct (hm_get em _); cbn [bind]; try congruence.
      match goal with |- bind ?z _ <> _ => pose proof (DS _ _ _ _ _ : z <> Diverge); destruct z; cbn [bind]; congruence end. }
    assert (NF' : forall x : Mesh.mesh VP' EP' FP', foldM (imp_face ff c fm em) (d_iter (faces m)) x <> Diverge).
    { apply foldM_nd. intros s [i x]. unfold imp_face.
      pose proof (maps_nd (k := fst (i, x)) MF). destruct (hm_get fm _); cbn [bind]; try congruence.
      pose proof (maps_nd (k := f_edge (snd (i, x))) ME). destruct (hm_get em _); cbn [bind]; try congruence.
      unfold assert. destruct (negb _); [|discriminate].
      match goal with |- bind ?z _ <> _ => pose proof (DS _ _ _ _ _ : z <> Diverge); destruct z; cbn [bind]; congruence end. }
    assert (NE' : forall x : Mesh.mesh VP' EP' FP', foldM (imp_edge fh c vm fm em) (d_iter (edges m)) x <> Diverge).
    { apply foldM_nd. intros s [i x]. unfold imp_edge, insert_halfedge. cbn [fst snd].
      pose proof (maps_nd (k := i) ME). destruct (hm_get em i); cbn [bind]; try congruence.
      pose proof (maps_nd (k := e_origin x) MV). destruct (hm_get vm _); cbn [bind]; try congruence.
      destruct (e_face x) as [f|]; [pose proof (maps_nd (k := f) MF); destruct (hm_get fm f); cbn [bind]; try congruence|cbn [bind]].
      all: pose proof (maps_nd (k := e_prev x) ME); destruct (hm_get em (e_prev x)); cbn [bind]; try congruence.
      all: pose proof (maps_nd (k := e_twin x) ME); destruct (hm_get em (e_twin x)); cbn [bind]; try congruence.
      all: pose proof (maps_nd (k := e_next x) ME); destruct (hm_get em (e_next x)); cbn [bind]; try congruence.
      all: unfold assert; repeat (destruct (negb _); [|discriminate]).
      all: destruct (nth_error _ _) as [[|]|] eqn:Q; cbn [bind]; try discriminate.
      all: repeat (destruct (negb _); [|discriminate]).
      all: match goal with |- bind ?z _ <> _ => pose proof (DS _ _ _ _ _ : z <> Diverge); destruct z; cbn [bind]; congruence end. }
    destruct (foldM (imp_vertex fv c vm em) _ _) as [m1| |] eqn:Q1; cbn [bind]; auto; [|exfalso; exact (ND _ Q1)].
    destruct (foldM (imp_face ff c fm em) _ _) as [m2| |] eqn:Q2; cbn [bind]; auto; [|exfalso; exact (NF' _ Q2)].
    destruct (foldM (imp_edge fh c vm fm em) _ _) as [m3| |] eqn:Q3; auto; [|exfalso; exact (NE' _ Q3)].
    exfalso. apply NI. split.
    - intros v L V. apply inV in L. apply in_map_iff in L as ((i & x) & <- & I). destruct (itV I) as (L & V' & _). cbn [fst] in V.
      rewrite V in V'. eapply foldM_panic; [exact I| |exact Q1]. intros s. unfold imp_vertex. cbn [fst snd].
      rewrite (maps_in MV) by (apply inV; auto). rewrite <- V'. reflexivity.
    - intros e L V. apply inE in L. apply in_map_iff in L as ((i & x) & <- & I). destruct (itE I) as (L & N & P & T & O & F & _).
      cbn [fst] in V. eapply foldM_panic; [exact I| |exact Q3]. intros s. unfold imp_edge. cbn [fst snd].
      rewrite (maps_in ME) by (apply inE; auto). cbn [bind].
      rewrite (maps_in MV) by (apply inV; rewrite <- O; apply W; auto). cbn [bind].
      replace (match e_face x with None => Ok None | Some f => let* f' := hm_get fm f in Ok (Some f') end)
        with (Ok (option_map (fun f => pos f FI) (e_face x))).
      2:{ destruct (e_face x) as [f|] eqn:Q; auto. rewrite (maps_in MF); auto. apply inF. apply (wf_fc W _ L F). }
      cbn [bind]. rewrite (maps_in ME (k := e_prev x)) by (apply inE; rewrite <- P; apply W; auto). cbn [bind].
      rewrite (maps_in ME (k := e_twin x)) by (apply inE; rewrite <- T; apply W; auto). cbn [bind].
      rewrite <- N, V. rewrite (maps_in ME) by (apply inE; auto). cbn [bind]. unfold insert_halfedge.
      unfold assert. destruct (negb _); auto. destruct (negb _); auto. destruct (negb _); auto.
      destruct (nth_error _ _) as [[|]|]; auto. rewrite Nat.eqb_refl. reflexivity.
  Qed.
End Import.

Lemma import_both (VP EP FP VP' EP' FP' : Type) (fv : VP -> VP') (fh : EP -> EP') (ff : FP -> FP') c (m : mesh VP EP FP) :
  wf m -> d_len (edges m) <= capE c -> d_len (verts m) <= capV c -> d_len (faces m) <= capF c ->
  (importable (abs m) -> exists m' rv re rf, import_mesh fv fh ff c m = Ok m' /\ wf m' /\ copy_of fv fh ff (abs m) (abs m') rv re rf) /\
  (~ importable (abs m) -> import_mesh fv fh ff c m = Panic).
Proof.
  intros Wm NE NV NF. destruct Wm as (OE & OV & OF & W).
  rewrite (len_iter OE), Nat.add_0_r, <- (map_length fst) in NE.
  rewrite (len_iter OV), Nat.add_0_r, <- (map_length fst) in NV.
  rewrite (len_iter OF), Nat.add_0_r, <- (map_length fst) in NF.
  assert (Wm : wf m) by (split; auto). split; [apply import_total; auto|apply import_panics; auto].
Qed.
