(** The comparison of meshes never panics and accepts every isomorphic pair. *)
From Coq Require Import List Arith Lia Bool Permutation.
From Verif Require Import Base Cycle DVec DVecFacts Mesh MeshMore Spec Rep MeshSpec MeshProofs MeshProofs2 MeshFacts Topo TopoSpec TopoProofs NetProofs IsoProofs TriSpec AlgProofs TriMeshSpec TriMeshProofs Import RefineSpec ImportProofs IsoPos IsoPosSpec.
Import ListNotations.
Set Implicit Arguments.
Unset Strict Implicit.
Local Arguments abs : simpl never.

Lemma foldE_total {A S} (f : S -> A -> res (S + difference)) l : (forall s a, In a l -> exists r, f s a = Ok r) -> forall s, exists r, foldE f l s = Ok r.
Proof.
  induction l as [|a l IH]; intros H s; cbn [foldE]; [eauto|]. destruct (H s a) as (r & ->); [left; auto|]. cbn [bind].
  destruct r as [s'|d]; eauto. apply IH. intros; apply H; right; auto.
Qed.
Lemma foldE_all {A S} (f : S -> A -> res (S + difference)) l : (forall s a, In a l -> exists s', f s a = Ok (inl s')) -> forall s, exists s', foldE f l s = Ok (inl s').
Proof.
  induction l as [|a l IH]; intros H s; cbn [foldE]; [eauto|]. destruct (H s a) as (s' & ->); [left; auto|]. cbn [bind]. apply IH. intros; apply H; right; auto.
Qed.
Lemma mapM_total {A B} (f : A -> res B) l : (forall a, In a l -> exists b, f a = Ok b) -> exists bs, mapM f l = Ok bs.
Proof.
  induction l as [|a l IH]; intros H; cbn [mapM]; [eauto|]. destruct (H a) as (b & ->); [left; auto|]. cbn [bind].
  destruct IH as (bs & ->); [intros; apply H; right; auto|]. cbn [bind]. eauto.
Qed.
Lemma rotation_edges (a b : list nat) p : rotation a b -> In p (poly_edges a) -> In p (poly_edges b).
Proof. intros (l1 & l2 & -> & ->). apply Permutation_in. apply poly_edges_rot. Qed.

Section Faces.
  Context {VP EP FP : Type}.
  Implicit Types (m : mesh VP EP FP).
  Definition olist (o : option nat) : list nat := match o with Some f => [f] | None => [] end.
  Lemma edge_faces_ok m e : wf m -> lv (abs m) e = true -> edge_face_ids m e = Ok (olist (fc (abs m) e) ++ olist (fc (abs m) (tw (abs m) e))).
  Proof.
    intros Wm L. destruct (wf_abs Wm) as [R W]. unfold edge_face_ids. rewrite (r_face_id R), L. cbn [bind].
    rewrite (r_twin R e), L, (wf_tw W e L). cbn [andb bind]. rewrite (r_face_id R), (wf_tw W e L). reflexivity.
  Qed.
  Lemma edge_faces_in m e f : wf m -> lv (abs m) e = true -> In f (olist (fc (abs m) e) ++ olist (fc (abs m) (tw (abs m) e))) ->
    lvf (abs m) f = true /\ (fc (abs m) e = Some f \/ fc (abs m) (tw (abs m) e) = Some f).
  Proof.
    intros Wm L I. split; [apply (proj1 (edge_faces Wm L (edge_faces_ok Wm L)) f I)|]. apply in_app_iff in I as [I|I]; [left|right].
    - destruct (fc (abs m) e); [destruct I as [->|[]]; auto|destruct I].
    - destruct (fc (abs m) (tw (abs m) e)); [destruct I as [->|[]]; auto|destruct I].
  Qed.
  Lemma side_of_face m f l e : wf m -> lvf (abs m) f = true -> boundary_vertices (abs m) f l ->
    lv (abs m) e = true -> fc (abs m) e = Some f -> In (og (abs m) e, og (abs m) (tw (abs m) e)) (poly_edges l).
  Proof.
    intros Wm LF B L F. destruct (face_sides Wm LF B) as (es & -> & _ & _ & S). apply in_map_iff. exists e. split; auto. apply S. eauto.
  Qed.
  Lemma face_of_side m f l a b : wf m -> lvf (abs m) f = true -> boundary_vertices (abs m) f l -> In (a, b) (poly_edges l) ->
    exists e, lv (abs m) e = true /\ fc (abs m) e = Some f /\ og (abs m) e = a /\ og (abs m) (tw (abs m) e) = b.
  Proof.
    intros Wm LF B I. destruct (face_sides Wm LF B) as (es & E & _ & _ & S). rewrite E in I. apply in_map_iff in I as (e & [= <- <-] & I).
    apply S in I as (L & f' & F & <-). exists e. auto.
  Qed.
End Faces.

Section Complete.
  Context {VP EP FP VP2 EP2 FP2 : Type}.
  Variables (cmpv cmpe cmpf : nat -> nat -> bool) (c : cfg) (m : mesh VP EP FP) (m2 : mesh VP2 EP2 FP2) (iso : list (nat * nat)).
  Hypothesis (Wm : wf m) (Wm2 : wf m2).
  Hypothesis TOT : forall v, lvv (abs m) v = true -> exists w, assoc v iso = Some w /\ lvv (abs m2) w = true.
  Notation g := (abs m).
  Notation g2 := (abs m2).
  Notation h := (img iso).
  Notation tgt g e := (og g (tw g e)).

  Lemma image v : lvv g v = true -> assoc v iso = Some (h v) /\ lvv g2 (h v) = true.
  Proof. intros L. destruct (TOT L) as (w & E & L2). unfold img. rewrite E. auto. Qed.
  Lemma images l : Forall (fun v => lvv g v = true) l -> mapM (fun v => unwrap (assoc v iso)) l = Ok (map h l).
  Proof. induction 1 as [|v l L F IH]; cbn [mapM map]; auto. destruct (image L) as [-> _]. cbn [unwrap bind]. rewrite IH. reflexivity. Qed.
  Lemma match_total vs f others fi : exists r, match_face cmpf vs f others fi = Ok r.
  Proof.
    induction others as [|[k l] o IH]; cbn [match_face]; [eauto|]. destruct (equal_up_to_rotation_ok vs l) as (b & -> & _). cbn [bind].
    destruct b; [destruct (cmpf f k); eauto|auto].
  Qed.
  Lemma face_total others fi f : lvf g f = true -> exists r, iso_face cmpf m iso others fi f = Ok r.
  Proof.
    intros L. unfold iso_face. destruct (assoc f fi); [eauto|]. destruct (boundary_exists Wm L) as (l & B).
    rewrite (boundary_face_vertices Wm L B). cbn [bind]. rewrite (images (boundary_live Wm B)). cbn [bind].
    destruct (match_total (map h l) f others fi) as (r & ->). cbn [bind]. destruct r; [|eauto]. destruct (assoc f l0); eauto.
  Qed.
  Lemma others_ok fs : (forall f, In f fs -> lvf g2 f = true) -> exists others, mapM (fun f => let* vs := face_vertices m2 f in Ok (f, vs)) fs = Ok others /\
    map fst others = fs /\ forall f l, In (f, l) others -> boundary_vertices g2 f l.
  Proof.
    induction fs as [|f fs IH]; intros H; cbn [mapM]; [exists []; repeat split; intros ? ? []|].
    destruct (boundary_exists Wm2 (H f (or_introl eq_refl))) as (l & B). rewrite (boundary_face_vertices Wm2 (H f (or_introl eq_refl)) B). cbn [bind].
    destruct IH as (o & -> & M & BV); [intros; apply H; right; auto|]. cbn [bind]. exists ((f, l) :: o). split; auto. split; [cbn; congruence|].
    intros f' l' [[= <- <-]|I]; auto.
  Qed.
  Lemma edge_total st e : lv g e = true -> exists r, iso_edge cmpe cmpf c m m2 iso (h (og g e)) st e = Ok r.
  Proof.
    intros L. destruct (wf_abs Wm) as [R W]. destruct st as [ei fi]. unfold iso_edge. destruct (assoc e ei); [eauto|].
    rewrite (r_gtarget' Wm L). cbn [bind]. destruct (image (v := tgt g e)) as [-> LT]; [apply W, W; auto|]. cbn [unwrap bind].
    destruct (image (v := og g e)) as [_ LO]; [apply W; auto|].
    destruct (shared_edge_spec c (h (tgt g e)) Wm2 LO) as (o & -> & SO). cbn [bind]. destruct o as [e2|]; [|eauto]. destruct SO as (L2 & O2 & T2).
    destruct (cmpe e e2); [|cbn [negb]; eauto]. cbn [negb]. rewrite (edge_faces_ok Wm2 L2). cbn [bind].
    destruct (others_ok (fs := olist (fc g2 e2) ++ olist (fc g2 (tw g2 e2)))) as (others & -> & _); [intros f I; apply (edge_faces_in Wm2 L2 I)|]. cbn [bind].
    rewrite (edge_faces_ok Wm L). cbn [bind].
    destruct (@foldE_total _ _ (fun fi f => iso_face cmpf m iso others fi f) (olist (fc g e) ++ olist (fc g (tw g e)))) with (s := fi) as (r & ->).
    { intros s f I. apply face_total. apply (edge_faces_in Wm L I). }
    cbn [bind]. destruct r; eauto.
  Qed.
  Lemma vertex_total st v : lvv g v = true -> exists r, iso_vertex cmpv cmpe cmpf c m m2 iso st v = Ok r.
  Proof.
    intros L. destruct (wf_abs Wm2) as [R2 W2]. unfold iso_vertex. destruct (image L) as [-> LH]. cbn [unwrap bind]. rewrite (r_vchk R2), LH.
    destruct (cmpv v (h v)); [|cbn [negb]; eauto]. cbn [negb]. destruct (vertex_wheel c Wm L) as (es & -> & _ & OL & _). cbn [bind].
    apply foldE_total. intros s e I. apply OL in I as [LE <-]. apply edge_total. auto.
  Qed.
  Lemma iso_total : exists d, is_isomorphic cmpv cmpe cmpf c m m2 iso = Ok d.
  Proof.
    unfold is_isomorphic. destruct (num_vertices m =? num_vertices m2); cbn [negb]; [|eauto]. destruct (num_edges m =? num_edges m2); cbn [negb]; [|eauto].
    destruct (num_faces m =? num_faces m2); cbn [negb]; [|eauto].
    destruct (@foldE_total _ _ (fun st v => iso_vertex cmpv cmpe cmpf c m m2 iso st v) (vertex_ids m)) with (s := (@nil (nat * nat), @nil (nat * nat))) as (r & ->).
    { intros s v I. apply vertex_total. apply vertex_ids_live; auto. }
    cbn [bind]. destruct r; eauto.
  Qed.

  (** ** isomorphic meshes are accepted *)
  Hypothesis (NP : no_parallel g) (NP2 : no_parallel g2).
  Hypothesis ISO : isomorphism g g2 h.
  Hypothesis CV : forall v, lvv g v = true -> cmpv v (h v) = true.
  Hypothesis CE : forall e e2, lv g e = true -> lv g2 e2 = true -> og g2 e2 = h (og g e) -> tgt g2 e2 = h (tgt g e) -> cmpe e e2 = true.
  Hypothesis CF : forall f f2 l l2, lvf g f = true -> lvf g2 f2 = true -> boundary_vertices g f l -> boundary_vertices g2 f2 l2 -> rotation (map h l) l2 -> cmpf f f2 = true.

  Lemma side_image e e2 f : lv g e = true -> lv g2 e2 = true -> og g2 e2 = h (og g e) -> tgt g2 e2 = h (tgt g e) -> fc g e = Some f ->
    exists f2 l l2, fc g2 e2 = Some f2 /\ lvf g2 f2 = true /\ boundary_vertices g f l /\ boundary_vertices g2 f2 l2 /\ rotation (map h l) l2.
  Proof.
    intros L L2 O T F. destruct (wf_abs Wm) as [R W]. pose proof (proj1 (wf_fc W _ L F)) as LF. destruct (is_face ISO) as (k & K1 & K2 & K3 & K4).
    destruct (boundary_exists Wm LF) as (l & B). destruct (boundary_exists Wm2 (K1 f LF)) as (l2 & B2). pose proof (K4 _ _ _ LF B B2) as RT.
    exists (k f), l, l2. split; [|auto].
    pose proof (side_of_face Wm LF B L F) as I.
    assert (I' : In (h (og g e), h (tgt g e)) (poly_edges (map h l))). { rewrite poly_edges_map. apply in_map_iff. eexists. split; [|exact I]. reflexivity. }
    apply (rotation_edges RT) in I'. destruct (face_of_side Wm2 (K1 f LF) B2 I') as (e3 & L3 & F3 & O3 & T3).
    assert (e3 = e2) as <- by (apply NP2; auto; congruence). exact F3.
  Qed.
  Lemma match_found f l others fi : lvf g f = true -> boundary_vertices g f l -> (forall f2 l2, In (f2, l2) others -> lvf g2 f2 = true /\ boundary_vertices g2 f2 l2) ->
    (exists f2 l2, In (f2, l2) others /\ rotation (map h l) l2) -> exists f2, match_face cmpf (map h l) f others fi = Ok (inl ((f, f2) :: fi)).
  Proof.
    intros LF B HO (f2 & l2 & I & RT). induction others as [|[k lk] o IH]; [destruct I|]. cbn [match_face].
    destruct (equal_up_to_rotation_ok (map h l) lk) as (b & -> & BB). cbn [bind]. destruct b.
    - destruct (HO k lk (or_introl eq_refl)) as [LK BK]. rewrite (CF LF LK B BK) by (apply BB; auto). eauto.
    - destruct I as [[= -> ->]|I]; [|apply IH; auto; intros; apply HO; right; auto].
      exfalso. assert (false = true); [|discriminate]. apply BB. split; auto. destruct B as (es & _ & ->). discriminate.
  Qed.
  Lemma face_found others fi f : lvf g f = true -> (forall f2 l2, In (f2, l2) others -> lvf g2 f2 = true /\ boundary_vertices g2 f2 l2) ->
    (exists f2 l l2, In (f2, l2) others /\ boundary_vertices g f l /\ rotation (map h l) l2) -> exists fi', iso_face cmpf m iso others fi f = Ok (inl fi').
  Proof.
    intros LF HO (f2 & l & l2 & I & B & RT). unfold iso_face. destruct (assoc f fi); [eauto|].
    rewrite (boundary_face_vertices Wm LF B). cbn [bind]. rewrite (images (boundary_live Wm B)). cbn [bind].
    destruct (match_found fi LF B HO) as (f3 & ->); [eauto|]. cbn [bind assoc]. rewrite Nat.eqb_refl. eauto.
  Qed.
  Lemma in_others (fs : list nat) (others : list (nat * list nat)) f : map fst others = fs -> In f fs -> exists l : list nat, In (f, l) others.
  Proof. intros <- I. apply in_map_iff in I as ((f', l) & <- & I). eauto. Qed.
  Lemma edge_found st e : lv g e = true -> exists st', iso_edge cmpe cmpf c m m2 iso (h (og g e)) st e = Ok (inl st').
  Proof.
    intros L. destruct (wf_abs Wm) as [R W]. destruct (wf_abs Wm2) as [R2 W2]. destruct st as [ei fi]. unfold iso_edge. destruct (assoc e ei); [eauto|].
    rewrite (r_gtarget' Wm L). cbn [bind]. assert (LO : lvv g (og g e) = true) by (apply W; auto). assert (LT : lvv g (tgt g e) = true) by (apply W, W; auto).
    destruct (image LT) as [-> _]. cbn [unwrap bind]. destruct (image LO) as [_ LO2].
    destruct (shared_edge_spec c (h (tgt g e)) Wm2 LO2) as (o & -> & SO). cbn [bind].
    destruct (proj1 (is_adj ISO LO LT)) as (e3 & L3 & O3 & T3); [exists e; auto|].
    destruct o as [e2|]; [|exfalso; apply (SO e3); auto]. destruct SO as (L2 & O2 & T2).
    rewrite (CE L L2 O2 T2). cbn [negb]. rewrite (edge_faces_ok Wm2 L2). cbn [bind].
    assert (LF2 : forall f, In f (olist (fc g2 e2) ++ olist (fc g2 (tw g2 e2))) -> lvf g2 f = true) by (intros f I; apply (edge_faces_in Wm2 L2 I)).
    destruct (others_ok LF2) as (others & -> & M & BV). cbn [bind]. rewrite (edge_faces_ok Wm L). cbn [bind].
    destruct (@foldE_all _ _ (fun fi f => iso_face cmpf m iso others fi f) (olist (fc g e) ++ olist (fc g (tw g e)))) with (s := fi) as (fi' & ->); [|cbn [bind]; eauto].
    intros s f I. destruct (edge_faces_in Wm L I) as [LF FF]. apply face_found; auto.
    { intros f2 l2 J. split; [|auto]. apply LF2. rewrite <- M. apply in_map_iff. exists (f2, l2). auto. }
    assert (X : exists f2 l l2, In f2 (olist (fc g2 e2) ++ olist (fc g2 (tw g2 e2))) /\ boundary_vertices g f l /\ boundary_vertices g2 f2 l2 /\ rotation (map h l) l2).
    { destruct FF as [FF|FF].
      - destruct (side_image L L2 O2 T2 FF) as (f2 & l & l2 & F2 & _ & B & B2 & RT). exists f2, l, l2. split; auto. rewrite F2. left. auto.
      - assert (TE : tgt g2 (tw g2 e2) = h (tgt g (tw g e))) by (unfold tgt; rewrite (wf_twtw W2), (wf_twtw W); auto).
        destruct (@side_image (tw g e) (tw g2 e2) f (wf_tw W _ L) (wf_tw W2 _ L2) T2 TE FF) as (f2 & l & l2 & F2 & _ & B & B2 & RT).
        exists f2, l, l2. split; auto. rewrite F2. apply in_or_app. right. left. auto. }
    destruct X as (f2 & l & l2 & I2 & B & B2 & RT). destruct (in_others M I2) as (l3 & I3). exists f2, l, l3. split; auto. split; auto.
    pose proof (boundary_face_vertices Wm2 (LF2 _ I2) B2) as X. rewrite (boundary_face_vertices Wm2 (LF2 _ I2) (BV _ _ I3)) in X. injection X as <-. exact RT.
  Qed.
  Lemma vertex_found st v : lvv g v = true -> exists st', iso_vertex cmpv cmpe cmpf c m m2 iso st v = Ok (inl st').
  Proof.
    intros L. destruct (wf_abs Wm2) as [R2 W2]. unfold iso_vertex. destruct (image L) as [-> LH]. cbn [unwrap bind]. rewrite (r_vchk R2), LH, (CV L).
    cbn [negb]. destruct (vertex_wheel c Wm L) as (es & -> & _ & OL & _). cbn [bind].
    apply foldE_all. intros s e I. apply OL in I as [LE <-]. apply edge_found. auto.
  Qed.

  (** ** the numbers agree *)
  Lemma inj_length (l l2 : list nat) (P : nat -> nat -> Prop) : NoDup l -> (forall x, In x l -> exists y, In y l2 /\ P x y) ->
    (forall x x' y, In x l -> In x' l -> P x y -> P x' y -> x = x') -> length l <= length l2.
  Proof.
    revert l2. induction l as [|x l IH]; intros l2 ND E I; [cbn; lia|]. inversion ND as [|? ? NI ND']; subst.
    destruct (E x (or_introl eq_refl)) as (y & Y & Q). apply in_split in Y as (a & b & ->).
    assert (length l <= length (a ++ b)); [|rewrite !app_length in *; cbn; lia]. apply IH; auto.
    - intros z Z. destruct (E z (or_intror Z)) as (w & Wi & Pw). exists w. split; auto.
      apply in_app_iff in Wi as [Wi|[<-|Wi]]; try (apply in_or_app; auto). exfalso. apply NI.
      rewrite (I x z y); [exact Z|left; reflexivity|right; exact Z|exact Q|exact Pw].
    - intros z z' w Z Z'. apply I; right; auto.
  Qed.
  Lemma same_vertices : num_vertices m = num_vertices m2.
  Proof.
    rewrite (num_vertices_ids Wm), (num_vertices_ids Wm2). apply Nat.le_antisymm.
    - apply inj_length with (P := fun v w => h v = w); [apply vertex_ids_nodup; auto| |].
      + intros v I. exists (h v). split; auto. apply vertex_ids_live in I; auto. apply vertex_ids_live; auto. apply (is_maps ISO); auto.
      + intros v v' w I I' <- E. apply vertex_ids_live in I, I'; auto. apply (is_inj ISO); auto.
    - apply inj_length with (P := fun w v => lvv g v = true /\ h v = w); [apply vertex_ids_nodup; auto| |].
      + intros w I. apply vertex_ids_live in I; auto. destruct (is_surj ISO I) as (v & L & E). exists v. split; auto. apply vertex_ids_live; auto.
      + intros w w' v I I' [_ <-] [_ <-]. auto.
  Qed.
  Lemma same_edges : num_edges m = num_edges m2.
  Proof.
    destruct (wf_abs Wm) as [R W]. destruct (wf_abs Wm2) as [R2 W2].
    rewrite (num_edges_ids Wm), (num_edges_ids Wm2). apply Nat.le_antisymm.
    - apply inj_length with (P := fun e e2 => og g2 e2 = h (og g e) /\ tgt g2 e2 = h (tgt g e)); [apply edge_ids_nodup; auto| |].
      + intros e I. apply edge_ids_live in I; auto. destruct (proj1 (@is_adj _ _ _ _ _ _ _ _ _ ISO (og g e) (tgt g e) ltac:(apply W; auto) ltac:(apply W, W; auto))) as (e2 & L2 & O & T); [exists e; auto|].
        exists e2. split; [apply edge_ids_live; auto|auto].
      + intros e e' e2 I I' [O T] [O' T']. apply edge_ids_live in I, I'; auto. apply NP; auto; apply (is_inj ISO); try (apply W; auto; fail); try (apply W, W; auto; fail); congruence.
    - apply inj_length with (P := fun e2 e => og g2 e2 = h (og g e) /\ tgt g2 e2 = h (tgt g e)); [apply edge_ids_nodup; auto| |].
      + intros e2 I. apply edge_ids_live in I; auto. destruct (is_surj ISO (w := og g2 e2)) as (u & Lu & Eu); [apply W2; auto|]. destruct (is_surj ISO (w := tgt g2 e2)) as (v & Lv & Ev); [apply W2, W2; auto|].
        destruct (proj2 (is_adj ISO Lu Lv)) as (e & L & O & T); [exists e2; auto|]. exists e. split; [apply edge_ids_live; auto|]. rewrite O, T. auto.
      + intros e e' e2 I I' [O T] [O' T']. apply edge_ids_live in I, I'; auto. apply NP2; auto; congruence.
  Qed.
  Lemma same_faces : num_faces m = num_faces m2.
  Proof.
    rewrite (num_faces_ids Wm), (num_faces_ids Wm2). destruct (is_face ISO) as (k & K1 & K2 & K3 & _). apply Nat.le_antisymm.
    - apply inj_length with (P := fun v w => k v = w); [apply face_ids_nodup; auto| |].
      + intros v I. exists (k v). split; auto. apply face_ids_live in I; auto. apply face_ids_live; auto.
      + intros v v' w I I' <- E. apply face_ids_live in I, I'; auto.
    - apply inj_length with (P := fun w v => lvf g v = true /\ k v = w); [apply face_ids_nodup; auto| |].
      + intros w I. apply face_ids_live in I; auto. destruct (K3 w I) as (v & L & E). exists v. split; auto. apply face_ids_live; auto.
      + intros w w' v I I' [_ <-] [_ <-]. auto.
  Qed.
  Lemma iso_accepted : is_isomorphic cmpv cmpe cmpf c m m2 iso = Ok Equivalent.
  Proof.
    unfold is_isomorphic. rewrite same_vertices, same_edges, same_faces, !Nat.eqb_refl. cbn [negb].
    destruct (@foldE_all _ _ (fun st v => iso_vertex cmpv cmpe cmpf c m m2 iso st v) (vertex_ids m)) with (s := (@nil (nat * nat), @nil (nat * nat))) as (st & ->); [|reflexivity].
    intros s v I. apply vertex_found. apply vertex_ids_live; auto.
  Qed.
End Complete.

Section By.
  Context {VP EP FP VP2 EP2 FP2 : Type}.
  Variables (same : nat -> nat -> bool).
  Lemma payload_found ws h : forall vs iso used, NoDup vs -> (forall v, In v vs -> assoc v iso = None) ->
    (forall v, In v vs -> In (h v) ws /\ same v (h v) = true /\ forall w, In w ws -> same v w = true -> w = h v) ->
    (forall v, In v vs -> ~ In (h v) used) -> (forall v v', In v vs -> In v' vs -> h v = h v' -> v = v') ->
    exists iso', payload_iso same ws vs iso used = Some iso' /\ (forall v, In v vs -> assoc v iso' = Some (h v)) /\ (forall k w, assoc k iso = Some w -> assoc k iso' = Some w).
  Proof.
    induction vs as [|v vs IH]; intros iso used ND A F U I; cbn [payload_iso]; [exists iso; split; auto; split; auto; intros ? []|].
    inversion ND as [|? ? NI ND']; subst. destruct (F v (or_introl eq_refl)) as (W1 & S1 & Q1).
    destruct (find (same v) ws) as [w|] eqn:FD; [|exfalso; pose proof (find_none _ _ FD _ W1); congruence].
    apply find_some in FD as [FI FS]. rewrite (Q1 w FI FS). rewrite (A v (or_introl eq_refl)).
    assert (M : mem (h v) used = false). { destruct (mem (h v) used) eqn:M; auto. exfalso. apply mem_in in M. apply (U v (or_introl eq_refl) M). }
    rewrite M. destruct (IH ((v, h v) :: iso) (h v :: used)) as (iso' & E & X & Y); auto.
    - intros u J. cbn. destruct (u =? v) eqn:Q; [apply Nat.eqb_eq in Q; congruence|]. apply A. right; auto.
    - intros u J. apply F. right; auto.
    - intros u J [K|K]; [|apply (U u (or_intror J) K)]. apply NI. rewrite (I v u); [exact J|left; auto|right; auto|auto].
    - intros; apply I; auto; right; auto.
    - exists iso'. split; auto. split.
      + intros u [<-|J]; auto. apply Y. cbn. rewrite Nat.eqb_refl. auto.
      + intros k w' K. apply Y. cbn. destruct (k =? v) eqn:Q; auto. apply Nat.eqb_eq in Q. subst k. rewrite (A v (or_introl eq_refl)) in K. discriminate.
  Qed.
  Lemma isomorphism_ext (m : mesh VP EP FP) (m2 : mesh VP2 EP2 FP2) h h' : (forall v, lvv (abs m) v = true -> h v = h' v) -> wf m -> isomorphism (abs m) (abs m2) h -> isomorphism (abs m) (abs m2) h'.
  Proof.
    intros E Wm [A B C D F]. constructor.
    - intros v L. rewrite <- E; auto.
    - intros v w L L'. rewrite <- !E; auto.
    - intros w L. destruct (C w L) as (v & L' & Q). exists v. split; auto. rewrite <- E; auto.
    - intros u v Lu Lv. rewrite <- !E; auto.
    - destruct F as (k & K1 & K2 & K3 & K4). exists k. split; auto. split; auto. split; auto. intros f l l2 L B1 B2.
      assert (map h' l = map h l) as ->; [|eauto]. apply map_ext_in. intros v I. symmetry. apply E. pose proof (boundary_live Wm B1) as FL. rewrite Forall_forall in FL. auto.
  Qed.
  Lemma by_total c (m : mesh VP EP FP) (m2 : mesh VP2 EP2 FP2) : wf m -> wf m2 -> exists d, is_isomorphic_by c same m m2 = Ok d.
  Proof.
    intros Wm Wm2. unfold is_isomorphic_by. destruct (find_payload_isomorphism same m m2) as [iso|] eqn:F; [|eauto].
    apply payload_iso_ok in F as (X & _); try discriminate. apply iso_total; auto.
    intros v L. destruct (X v) as (w & A & I & _); [apply vertex_ids_live; auto|]. exists w. split; auto. apply vertex_ids_live; auto.
  Qed.
  Lemma by_complete c (m : mesh VP EP FP) (m2 : mesh VP2 EP2 FP2) h : wf m -> wf m2 -> no_parallel (abs m) -> no_parallel (abs m2) -> isomorphism (abs m) (abs m2) h ->
    (forall v w, lvv (abs m) v = true -> lvv (abs m2) w = true -> (same v w = true <-> w = h v)) -> is_isomorphic_by c same m m2 = Ok Equivalent.
  Proof.
    intros Wm Wm2 NP NP2 ISO S. unfold is_isomorphic_by, find_payload_isomorphism.
    destruct (@payload_found (vertex_ids m2) h (vertex_ids m) [] []) as (iso & -> & X & _); auto.
    - apply vertex_ids_nodup; auto.
    - intros v I. apply vertex_ids_live in I; auto. pose proof (is_maps ISO I) as L2. split; [apply vertex_ids_live; auto|]. split; [apply S; auto|].
      intros w J. apply vertex_ids_live in J; auto. apply S; auto.
    - intros v v' I I'. apply vertex_ids_live in I, I'; auto. apply (is_inj ISO); auto.
    - assert (K : forall v, lvv (abs m) v = true -> assoc v iso = Some (h v)) by (intros v L; apply X; apply vertex_ids_live; auto).
      assert (ISO' : isomorphism (abs m) (abs m2) (img iso)). { apply isomorphism_ext with (h := h); auto. intros v L. unfold img. rewrite (K v L). auto. }
      apply iso_accepted; auto. intros v L. exists (h v). split; auto. apply (is_maps ISO); auto.
  Qed.
  (** with a similarity that recognises a vertex in at most one vertex of the other mesh *)
  Lemma by_decides c (m : mesh VP EP FP) (m2 : mesh VP2 EP2 FP2) : wf m -> wf m2 -> no_parallel (abs m) -> no_parallel (abs m2) ->
    (forall v w w', lvv (abs m) v = true -> lvv (abs m2) w = true -> lvv (abs m2) w' = true -> same v w = true -> same v w' = true -> w = w') ->
    exists d, is_isomorphic_by c same m m2 = Ok d /\
      (d = Equivalent <-> exists h, isomorphism (abs m) (abs m2) h /\ forall v, lvv (abs m) v = true -> same v (h v) = true).
  Proof.
    intros Wm Wm2 NP NP2 U. destruct (by_total c Wm Wm2) as (d & E). exists d. split; auto. split.
    - intros ->. eapply is_isomorphic_by_sound; eauto.
    - intros (h & ISO & S). assert (is_isomorphic_by c same m m2 = Ok Equivalent); [|congruence]. apply by_complete with (h := h); auto.
      intros v w L L2. split; [|intros ->; auto]. intros Q. apply (U v); auto. apply (is_maps ISO); auto.
  Qed.
End By.

(** ** copies are isomorphic *)
Lemma chain_map f f' (r : nat -> nat) t : forall x, (forall y, In y (x :: t) -> f' (r y) = r (f y)) -> chain f x t -> chain f' (r x) (map r t).
Proof.
  induction t as [|y t IH]; intros x H C; cbn [map]; [exact I|]. destruct C as [<- C]. split; [apply H; left; auto|]. apply IH; auto. intros; apply H; right; auto.
Qed.
Lemma last_map (r : nat -> nat) t : forall x, last (map r t) (r x) = r (last t x).
Proof. induction t as [|y [|z t] IH]; intros x; auto. change (last (map r (z :: t)) (r x) = r (last (z :: t) x)). apply IH. Qed.
Lemma nodup_image (r : nat -> nat) l : (forall x y, In x l -> In y l -> r x = r y -> x = y) -> NoDup l -> NoDup (map r l).
Proof.
  induction l as [|x l IH]; intros I N; [constructor|]. inversion N as [|? ? NI N']; subst. cbn [map]. constructor.
  - intros J. apply in_map_iff in J as (y & E & J). apply NI. rewrite (I x y); auto; [left|right]; auto.
  - apply IH; auto. intros; apply I; auto; right; auto.
Qed.
Lemma cycle_map f f' (r : nat -> nat) l : (forall y, In y l -> f' (r y) = r (f y)) -> (forall x y, In x l -> In y l -> r x = r y -> x = y) ->
  is_cycle f l -> is_cycle f' (map r l).
Proof.
  destruct l as [|x t]; intros H I C; [destruct (cycle_ne C); auto|]. cbn [map]. apply is_cycle_cons in C as (ND & C & L). apply is_cycle_cons. split.
  - change (NoDup (map r (x :: t))). apply nodup_image; auto.
  - split; [eapply chain_map; eauto|]. rewrite last_map, H, L; auto. apply Cycle.last_in.
Qed.
Section Copy.
  Notation tgt g e := (og g (tw g e)).
  Context {VP EP FP VP' EP' FP' : Type} (fv : VP -> VP') (fh : EP -> EP') (ff : FP -> FP').
  Variables (m : mesh VP EP FP) (m' : mesh VP' EP' FP') (rv re rf : nat -> nat).
  Hypotheses (Wm : wf m) (Wm' : wf m').
  Notation g := (abs m). Notation g' := (abs m').
  Hypothesis CO : copy_of fv fh ff g g' rv re rf.
  Lemma renamed_inj live live' r x y : renamed live live' r -> live x = true -> live y = true -> r x = r y -> x = y.
  Proof. intros N X Y E. destruct (Nat.lt_trichotomy x y) as [H|[H|H]]; auto; apply (rn_mono N) in H; auto; lia. Qed.
  Lemma copy_tgt e : lv g e = true -> tgt g' (re e) = rv (tgt g e).
  Proof. intros L. destruct (wf_abs Wm) as [R W]. rewrite (cp_tw CO), (cp_og CO); auto. apply (wf_tw W); auto. Qed.
  Lemma copy_boundary f l : lvf g f = true -> boundary_vertices g f l -> boundary_vertices g' (rf f) (map rv l).
  Proof.
    intros L (es & [LL C] & ->). exists (map re es). rewrite (cp_fe CO L). change (re (fe g f) :: map re es) with (map re (fe g f :: es)). split; [split|].
    - intros x I. apply in_map_iff in I as (y & <- & I). apply (rn_live (cp_e CO)). auto.
    - apply cycle_map with (f := nx g); auto.
      + intros y I. apply (cp_nx CO). auto.
      + intros x y I J. apply (renamed_inj (cp_e CO)); auto.
    - rewrite !map_map. apply map_ext_in. intros e I. symmetry. apply copy_tgt. auto.
  Qed.
  Lemma copy_isomorphism : isomorphism g g' rv.
  Proof.
    constructor.
    - apply (rn_live (cp_v CO)).
    - intros v w. apply (renamed_inj (cp_v CO)).
    - apply (rn_onto (cp_v CO)).
    - intros u v Lu Lv. destruct (wf_abs Wm) as [R W]. split.
      + intros (e & L & <- & <-). exists (re e). split; [apply (rn_live (cp_e CO)); auto|]. split; [apply (cp_og CO); auto|apply copy_tgt; auto].
      + intros (e' & L' & O & T). destruct (rn_onto (cp_e CO) L') as (e & L & <-). rewrite (cp_og CO) in O by auto. change (tgt g' (re e) = rv v) in T. rewrite copy_tgt in T by auto.
        exists e. split; auto. split; apply (renamed_inj (cp_v CO)); auto; [apply (wf_og W)|apply (wf_og W), (wf_tw W)]; auto.
    - exists rf. split; [apply (rn_live (cp_f CO))|]. split; [intros f f'; apply (renamed_inj (cp_f CO))|]. split; [apply (rn_onto (cp_f CO))|].
      intros f l l2 L B B2. pose proof (rn_live (cp_f CO) L) as L'. pose proof (boundary_face_vertices Wm' L' B2) as X. rewrite (boundary_face_vertices Wm' L' (copy_boundary L B)) in X.
      injection X as <-. exists [], (map rv l). rewrite app_nil_r. auto.
  Qed.
  Lemma copy_no_parallel : no_parallel g -> no_parallel g'.
  Proof.
    intros NP x y Lx Ly O T. destruct (wf_abs Wm) as [R W]. destruct (rn_onto (cp_e CO) Lx) as (e & L & <-). destruct (rn_onto (cp_e CO) Ly) as (e2 & L2 & <-).
    rewrite !(cp_og CO) in O by auto. change (tgt g' (re e) = tgt g' (re e2)) in T. rewrite !copy_tgt in T by auto. f_equal.
    apply NP; auto; apply (renamed_inj (cp_v CO)); auto; try (apply (wf_og W); auto); apply (wf_tw W); auto.
  Qed.
End Copy.

Lemma vp_get {VP EP FP} (m : mesh VP EP FP) v : lvv (abs m) v = true -> exists x, d_get (verts m) v = Ok x /\ vp (abs m) v = Some (v_pay x).
Proof.
  unfold abs. cbn [lvv vp]. unfold d_has, look, d_get. destruct (nth_error (slots (verts m)) v) as [[[k x]|]|]; cbn; try discriminate. eauto.
Qed.
Lemma near_vp {VP EP FP VP2 EP2 FP2} (near : VP -> VP2 -> bool) (m : mesh VP EP FP) (m2 : mesh VP2 EP2 FP2) v w : lvv (abs m) v = true -> lvv (abs m2) w = true ->
  exists p q, vp (abs m) v = Some p /\ vp (abs m2) w = Some q /\ near_at near m m2 v w = near p q.
Proof. intros L L2. unfold near_at. destruct (vp_get L) as (x & -> & ->). destruct (vp_get L2) as (y & -> & ->). eauto. Qed.

(** Positions that are told apart: no vertex is near to two vertices of the other mesh. *)
Lemma pos_decides (VP EP FP VP2 EP2 FP2 : Type) (near : VP -> VP2 -> bool) c (m : mesh VP EP FP) (m2 : mesh VP2 EP2 FP2) :
  wf m -> wf m2 -> no_parallel (abs m) -> no_parallel (abs m2) -> apart_by near (abs m) (abs m2) ->
  exists d, is_isomorphic_by_pos near c m m2 = Ok d /\ (d = Equivalent <-> exists h, isomorphism (abs m) (abs m2) h /\ near_along near (abs m) (abs m2) h).
Proof.
  intros Wm Wm2 NP NP2 A. destruct (@by_decides _ _ _ _ _ _ (near_at near m m2) c m m2 Wm Wm2 NP NP2) as (d & E & D).
  - intros v w w' L L2 L2' N N'. destruct (near_vp near L L2) as (p & q & P & Q & K). destruct (near_vp near L L2') as (p' & q' & P' & Q' & K').
    rewrite P in P'. injection P' as <-. rewrite K in N. rewrite K' in N'. eapply A; eauto.
  - exists d. split; auto. rewrite D. split; intros (h & ISO & N); exists h; (split; [exact ISO|]).
    + intros v p q L P Q. pose proof (N v L) as X. destruct (near_vp near L (is_maps ISO L)) as (p' & q' & P' & Q' & K). rewrite K in X. congruence.
    + intros v L. destruct (near_vp near L (is_maps ISO L)) as (p & q & P & Q & ->). eapply N; eauto.
Qed.

(** What [import_mesh] makes is recognised, if the positions tell the vertices apart. *)
Lemma import_recognised (VP EP FP VP' EP' FP' : Type) (fv : VP -> VP') (fh : EP -> EP') (ff : FP -> FP') (near : VP -> VP' -> bool) c c' (m : mesh VP EP FP) :
  wf m -> d_len (edges m) <= capE c -> d_len (verts m) <= capV c -> d_len (faces m) <= capF c -> importable (abs m) -> no_parallel (abs m) ->
  (forall v w p q, lvv (abs m) v = true -> lvv (abs m) w = true -> vp (abs m) v = Some p -> vp (abs m) w = Some q -> (near p (fv q) = true <-> v = w)) ->
  exists m', import_mesh fv fh ff c m = Ok m' /\ is_isomorphic_by_pos near c' m m' = Ok Equivalent.
Proof.
  intros Wm E V F IM NP S. destruct (proj1 (import_both fv fh ff Wm E V F) IM) as (m' & rv & re & rf & -> & Wm' & CO). exists m'. split; auto.
  apply by_complete with (h := rv); auto.
  - exact (copy_no_parallel Wm CO NP).
  - exact (copy_isomorphism Wm Wm' CO).
  - intros v w' L L'. destruct (near_vp near L L') as (p & q' & P & Q & ->). destruct (rn_onto (cp_v CO) L') as (w & Lw & <-). rewrite (cp_vp CO Lw) in Q.
    destruct (vp (abs m) w) as [q|] eqn:Qw; [|discriminate]. injection Q as <-. rewrite (S v w p q); auto.
    split; [intros ->; auto|]. intros Y. symmetry. apply (renamed_inj (cp_v CO)); auto.
Qed.

Lemma iso_refl {VP EP FP} (m : mesh VP EP FP) : wf m -> isomorphism (abs m) (abs m) (fun v => v).
Proof.
  intros Wm. constructor; auto; [eauto|tauto|]. exists (fun f => f). split; auto. split; auto. split; [eauto|].
  intros f l l2 L B B2. pose proof (boundary_face_vertices Wm L B2) as X. rewrite (boundary_face_vertices Wm L B) in X. injection X as <-.
  rewrite map_id. exists [], l. rewrite app_nil_r. auto.
Qed.
