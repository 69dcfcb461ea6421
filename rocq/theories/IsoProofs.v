(** Proofs about the comparison of meshes. *)
From Coq Require Import List Arith Lia ZArith Bool Permutation.
From Verif Require Import Base DVec DVecFacts Mesh MeshMore Spec Rep Cycle Traverse MeshSpec MeshProofs MeshProofs2 MeshFacts Topo TopoSpec TopoProofs NetProofs.
Import ListNotations.
Set Implicit Arguments.
Unset Strict Implicit.

(** ** Rotations *)
Lemma rotation_sym a b : rotation a b -> rotation b a.
Proof. intros (l1 & l2 & -> & ->). exists l2, l1. auto. Qed.
Lemma rotation_trans a b c : rotation a b -> rotation b c -> rotation a c.
Proof.
  intros (l1 & l2 & -> & ->) (k1 & k2 & E & ->).
  apply app_eq_app in E as (l & [[-> ->]|[-> ->]]).
  - exists (l1 ++ k1), l. rewrite <- !app_assoc. auto.
  - exists l, (k2 ++ l2). rewrite <- !app_assoc. auto.
Qed.

Lemma map_inj_in (h : nat -> nat) (P : nat -> Prop) a b :
  (forall x y, P x -> P y -> h x = h y -> x = y) -> Forall P a -> Forall P b -> map h a = map h b -> a = b.
Proof.
  intros H. revert b. induction a as [|x a IH]; destruct b as [|y b]; cbn; try congruence.
  intros A B E. inversion A; inversion B; subst. injection E as E1 E2. f_equal; auto.
Qed.
Lemma rotation_map (h : nat -> nat) (P : nat -> Prop) a b :
  (forall x y, P x -> P y -> h x = h y -> x = y) -> Forall P a -> Forall P b ->
  rotation (map h a) (map h b) -> rotation a b.
Proof.
  intros H A B (l1 & l2 & E & F). apply map_eq_app in E as (a1 & a2 & -> & <- & <-).
  exists a1, a2. split; auto. rewrite <- map_app in F. apply Forall_app in A as [A1 A2].
  eapply map_inj_in; eauto. apply Forall_app; auto.
Qed.

Lemma Ok_inj {A} (a b : A) : Ok a = Ok b -> a = b.
Proof. congruence. Qed.

(** ** Early-returning loops *)
Lemma foldE_inv {A S} (f : S -> A -> res (S + difference)) (P : S -> Prop) (le : S -> S -> Prop) (Q : A -> S -> Prop) :
  (forall s, le s s) -> (forall a b c, le a b -> le b c -> le a c) -> (forall a s s', le s s' -> Q a s -> Q a s') ->
  forall l s s', (forall s a s', In a l -> P s -> f s a = Ok (inl s') -> P s' /\ le s s' /\ Q a s') ->
  P s -> foldE f l s = Ok (inl s') -> P s' /\ le s s' /\ forall a, In a l -> Q a s'.
Proof.
  intros LR LT QM. induction l as [|a l IH]; intros s s' H Ps E; cbn [foldE] in E.
  - injection E as <-. split; auto. split; auto. intros ? [].
  - inv_ok E. destruct a0 as [s1|d]; [|discriminate].
    destruct (H s a s1) as (P1 & L1 & Q1); auto; [left; auto|].
    destruct (IH s1 s') as (P2 & L2 & Q2); auto.
    { intros x y z I. apply H. right; auto. }
    split; auto. split; [eauto|]. intros x [<-|I]; eauto.
Qed.

Lemma foldE_err {A S} (f : S -> A -> res (S + difference)) : (forall s a, f s a <> Ok (inr Equivalent)) ->
  forall l s, foldE f l s <> Ok (inr Equivalent).
Proof.
  intros H. induction l as [|a l IH]; intros s E; cbn [foldE] in E; [discriminate|]. inv_ok E.
  destruct a0 as [s1|d]; [eapply IH; eauto|]. apply (H s a). congruence.
Qed.

Lemma surj_of_inj (l l2 : list nat) (f : nat -> nat) : NoDup l -> length l = length l2 ->
  (forall x, In x l -> In (f x) l2) -> (forall x y, In x l -> In y l -> f x = f y -> x = y) ->
  forall y, In y l2 -> exists x, In x l /\ f x = y.
Proof.
  intros ND L M I y Y. assert (X : NoDup (map f l)) by (apply nodup_map_inj; auto).
  assert (incl l2 (map f l)).
  { apply NoDup_length_incl; auto; [rewrite map_length; lia|]. intros z Z. apply in_map_iff in Z as (x & <- & J). auto. }
  apply H, in_map_iff in Y as (x & E & J). exists x; auto.
Qed.

Lemma mapM_forall2 {A B} (f : A -> res B) l bs : mapM f l = Ok bs -> Forall2 (fun x y => f x = Ok y) l bs.
Proof.
  revert bs. induction l as [|a l IH]; cbn [mapM]; intros bs E; [|do 2 inv_ok E]; injection E as <-; constructor; auto.
Qed.
Lemma forall2_in_r {A B} (P : A -> B -> Prop) l l' y : Forall2 P l l' -> In y l' -> exists x, In x l /\ P x y.
Proof.
  induction 1 as [|a b l l' H F IH]; intros I; [destruct I|]. destruct I as [->|I]; [exists a; split; auto; left; auto|].
  destruct (IH I) as (x & J & Q). exists x. split; auto. right; auto.
Qed.

Definition ext (a b : list (nat * nat)) : Prop := forall k, assoc k a <> None -> assoc k b <> None.
Lemma ext_cons a k v : ext a ((k, v) :: a).
Proof. intros x H. cbn. destruct (x =? k); [discriminate|auto]. Qed.

Section FaceVerts.
  Context {VP EP FP : Type}.
  Implicit Types (m : mesh VP EP FP) (g : graph VP EP FP).
  Notation tgt g e := (og g (tw g e)).

  Lemma boundary_face_vertices m f l : wf m -> lvf (abs m) f = true -> boundary_vertices (abs m) f l ->
    face_vertices m f = Ok l.
  Proof.
    intros Wm L (es & LP & ->). unfold face_vertices. destruct (face_num_edges_ok Wm L LP) as [_ ->]. cbn [bind].
    apply mapM_ok. intros x I. apply r_gtarget'; auto. apply LP; auto.
  Qed.
  Lemma boundary_exists m f : wf m -> lvf (abs m) f = true -> exists l, boundary_vertices (abs m) f l.
  Proof.
    intros Wm L. destruct (wf_abs Wm) as [R W]. destruct (wf_fe W _ L) as [LE FE].
    destruct (face_traversal Wm LE) as (t & LP & _). eexists. exists t. split; [exact LP|reflexivity].
  Qed.
  Lemma boundary_live m f l : wf m -> boundary_vertices (abs m) f l ->
    Forall (fun v => lvv (abs m) v = true) l.
  Proof.
    intros Wm (es & LP & ->). destruct (wf_abs Wm) as [R W]. apply Forall_forall. intros x I.
    apply in_map_iff in I as (e & <- & I). apply W. apply W. apply LP; auto.
  Qed.

  (** without parallel edges the vertices around a face determine it *)
  Lemma boundary_determines m f f' l l' : wf m -> no_parallel (abs m) -> lvf (abs m) f = true -> lvf (abs m) f' = true ->
    boundary_vertices (abs m) f l -> boundary_vertices (abs m) f' l' -> rotation l l' -> f = f'.
  Proof.
    intros Wm NP L L' (es & LP & ->) (es' & LP' & ->) RT. destruct (wf_abs Wm) as [R W].
    destruct (wf_fe W _ L) as [LE FE]. destruct (wf_fe W _ L') as [LE' FE'].
    set (g := abs m) in *. set (e0 := fe g f) in *. set (e1 := fe g f') in *.
    assert (K : forall b, In b (e1 :: es') -> og g b = og g e0 -> tgt g b = tgt g e0 -> f = f').
    { intros b I O T. assert (b = e0). { apply NP; auto. apply LP'; auto. } subst b.
      assert (C := loop_fc W (proj2 LP') LE' I). unfold g in *. congruence. }
    assert (OG : og g e0 = tgt g (last es e0)).
    { rewrite <- (cycle_last (proj2 LP)) at 1. apply (wf_ognx W). apply LP. apply last_in. }
    assert (OG' : og g e1 = tgt g (last es' e1)).
    { rewrite <- (cycle_last (proj2 LP')) at 1. apply (wf_ognx W). apply LP'. apply last_in. }
    assert (LM : forall (h : nat -> nat) l x, last (map h l) (h x) = h (last l x)).
    { intros h l. induction l as [|y l IH]; intros x; auto. cbn [map]. rewrite !last_cons. auto. }
    assert (SAME : map (fun e => tgt g e) (e0 :: es) = map (fun e => tgt g e) (e1 :: es') -> f = f').
    { intros E. assert (E1 : tgt g e0 = tgt g e1) by exact (f_equal (hd 0) E).
      assert (E2 : map (fun e => tgt g e) es = map (fun e => tgt g e) es') by exact (f_equal (@tl nat) E). apply (K e1); [left; auto| |symmetry; exact E1].
      rewrite OG, OG'.
      rewrite <- (LM (fun e => tgt g e) es e0), <- (LM (fun e => tgt g e) es' e1), E1, E2. reflexivity. }
    destruct RT as (l1 & l2 & E & F).
    destruct l1 as [|x l1]; [rewrite app_nil_r in F; cbn [app] in E; apply SAME; congruence|].
    destruct l2 as [|y l2 _] using rev_ind; [rewrite app_nil_r in E; cbn [app] in F; apply SAME; congruence|].
    assert (X : x = tgt g e0) by (symmetry; exact (f_equal (hd 0) E)).
    assert (Y : y = og g e0).
    { rewrite OG, <- (LM (fun e => tgt g e) es e0). assert (E2 : map (fun e => tgt g e) es = l1 ++ l2 ++ [y]) by exact (f_equal (@tl nat) E). rewrite E2.
      rewrite app_assoc, last_last. auto. }
    rewrite <- app_assoc in F. apply map_eq_app in F as (p & q & F & _ & Q).
    destruct q as [|a [|b q]]; try discriminate.
    assert (Qa : tgt g a = y) by exact (f_equal (hd 0) Q).
    assert (Qb : tgt g b = x) by exact (f_equal (fun l => hd 0 (tl l)) Q).
    assert (B : nx g a = b). { apply (@cycle_next (nx g) p a b q). rewrite <- F. apply LP'. }
    assert (La : lv g a = true). { apply LP'. rewrite F. apply in_or_app. right; left; auto. }
    apply (K b).
    - rewrite F. apply in_or_app. right; right; left; auto.
    - rewrite <- B. rewrite (wf_ognx W a La). congruence.
    - congruence.
  Qed.
  Lemma edge_faces m e fs : wf m -> lv (abs m) e = true -> edge_face_ids m e = Ok fs ->
    (forall f, In f fs -> lvf (abs m) f = true) /\ (forall f, fc (abs m) e = Some f -> In f fs).
  Proof.
    intros Wm' L E. destruct (wf_abs Wm') as [R W]. unfold edge_face_ids in E.
    rewrite (r_face_id R), L in E. cbn [bind] in E. rewrite (r_twin R e), L, (wf_tw W e L) in E. cbn [andb bind] in E.
    rewrite (r_face_id R), (wf_tw W e L) in E. cbn [bind] in E. apply Ok_inj in E. subst fs. split.
    - intros f I. apply in_app_iff in I as [I|I].
      + destruct (fc (abs m) e) eqn:Q; [|destruct I as []]. destruct I as [<-|[]]. apply (wf_fc W _ L Q).
      + destruct (fc (abs m) (tw (abs m) e)) eqn:Q; [|destruct I as []]. destruct I as [<-|[]]. apply (wf_fc W _ (wf_tw W e L) Q).
    - intros f Q. rewrite Q. left; auto.
  Qed.

End FaceVerts.

Section IsoSound.
  Context {VP EP FP VP2 EP2 FP2 : Type}.
  Variables (cmpv cmpe cmpf : nat -> nat -> bool) (c : cfg).
  Variables (m : mesh VP EP FP) (m2 : mesh VP2 EP2 FP2) (iso : list (nat * nat)).
  Hypothesis (Wm : wf m) (Wm2 : wf m2).
  Let g := abs m.
  Let g2 := abs m2.
  Definition img (l : list (nat * nat)) (k : nat) : nat := match assoc k l with Some w => w | None => 0 end.
  Notation h := (img iso).
  Notation tgt g e := (og g (tw g e)).

  Definition okE (ei : list (nat * nat)) : Prop := forall e e2, assoc e ei = Some e2 ->
    lv g e = true /\ lv g2 e2 = true /\ og g2 e2 = h (og g e) /\ tgt g2 e2 = h (tgt g e) /\ cmpe e e2 = true.
  Definition okF (fi : list (nat * nat)) : Prop := forall f f2, assoc f fi = Some f2 ->
    lvf g f = true /\ lvf g2 f2 = true /\ cmpf f f2 = true /\
    exists l l2, boundary_vertices g f l /\ boundary_vertices g2 f2 l2 /\ rotation (map h l) l2.
  Definition okEF (st : list (nat * nat) * list (nat * nat)) : Prop :=
    forall e f, assoc e (fst st) <> None -> fc g e = Some f -> assoc f (snd st) <> None.

  Lemma img_unwrap l k w : unwrap (assoc k l) = Ok w -> assoc k l = Some w /\ img l k = w.
  Proof. unfold img. destruct (assoc k l); cbn; [|discriminate]. intros E; injection E as ->. auto. Qed.

  Lemma mapM_img l vs : mapM (fun v => unwrap (assoc v iso)) l = Ok vs -> vs = map h l.
  Proof.
    revert vs. induction l as [|x l IH]; cbn [mapM]; intros vs E.
    - injection E as <-. auto.
    - do 2 inv_ok E. injection E as <-. apply img_unwrap in H as [_ <-]. cbn. f_equal. auto.
  Qed.

  Lemma match_face_ok vs f others fi r : match_face cmpf vs f others fi = Ok (inl r) ->
    r = fi \/ exists f2 l2, In (f2, l2) others /\ r = (f, f2) :: fi /\ cmpf f f2 = true /\ rotation vs l2.
  Proof.
    induction others as [|[k l2] others IH]; cbn [match_face]; intros E; [injection E as <-; auto|].
    destruct (equal_up_to_rotation_ok vs l2) as (b & Q & B). rewrite Q in E. cbn [bind] in E.
    destruct b.
    - destruct (cmpf f k) eqn:C; [|discriminate]. injection E as <-. right. exists k, l2.
      split; [left; auto|]. split; auto. split; auto. apply B; auto.
    - destruct (IH E) as [|(f2 & l & I & X)]; auto. right. exists f2, l. split; auto. right; auto.
  Qed.

  Lemma iso_face_ok others fi f fi' :
    (forall f2 l2, In (f2, l2) others -> lvf g2 f2 = true /\ boundary_vertices g2 f2 l2) ->
    lvf g f = true -> okF fi -> iso_face cmpf m iso others fi f = Ok (inl fi') ->
    okF fi' /\ ext fi fi' /\ assoc f fi' <> None.
  Proof.
    intros HO Lf OK E. unfold iso_face in E. destruct (assoc f fi) eqn:A.
    - injection E as <-. split; auto. split; [intros k; auto|congruence].
    - destruct (boundary_exists Wm Lf) as (l & BV). rewrite (boundary_face_vertices Wm Lf BV) in E. cbn [bind] in E.
      inv_ok E. apply mapM_img in H. subst a. inv_ok E. destruct a as [fi2|d]; [|discriminate].
      destruct (assoc f fi2) eqn:A2; [|discriminate]. injection E as <-.
      apply match_face_ok in H as [->|(f2 & l2 & I & -> & C & RT)]; [congruence|].
      destruct (HO _ _ I) as [L2 B2].
      split; [|split; [apply ext_cons|congruence]].
      intros k k2. cbn. destruct (k =? f) eqn:Q; [|apply OK]. apply Nat.eqb_eq in Q. subst k.
      intros X; injection X as <-. split; auto. split; auto. split; auto. exists l, l2. auto.
  Qed.

  Definition okS st : Prop := okE (fst st) /\ okF (snd st) /\ okEF st.
  Definition extS (a b : list (nat * nat) * list (nat * nat)) : Prop := ext (fst a) (fst b) /\ ext (snd a) (snd b).

  Lemma iso_edge_ok st e st' : lv g e = true -> lvv g2 (h (og g e)) = true -> okS st ->
    iso_edge cmpe cmpf c m m2 iso (h (og g e)) st e = Ok (inl st') ->
    okS st' /\ extS st st' /\ assoc e (fst st') <> None.
  Proof.
    intros L LW (OE & OF & OEF) E. destruct st as [ei fi]. unfold iso_edge in E. cbn [fst snd] in *.
    destruct (assoc e ei) eqn:A.
    - injection E as <-. cbn [fst]. split; [split; auto|]. split; [split; intros k; auto|congruence].
    - rewrite (r_gtarget' Wm L) in E. cbn [bind] in E. inv_ok E. apply img_unwrap in H as [AT HT].
      destruct (shared_edge_spec c a Wm2 LW) as (o & SE & SO). rewrite SE in E. cbn [bind] in E.
      destruct o as [e2|]; [|discriminate]. destruct SO as (L2 & O2 & T2).
      destruct (cmpe e e2) eqn:CE; [|discriminate]. cbn [negb] in E. inv_ok E. rename a0 into fs2, H into F2.
      inv_ok E. rename a0 into others, H into OT. inv_ok E. rename a0 into fs, H into FS.
      inv_ok E. rename a0 into r, H into FF. destruct r as [fi'|d]; [|discriminate]. injection E as <-. cbn [fst snd].
      destruct (edge_faces Wm2 L2 F2) as [LF2 _]. destruct (edge_faces Wm L FS) as [LF LE].
      assert (HO : forall f2 l2, In (f2, l2) others -> lvf g2 f2 = true /\ boundary_vertices g2 f2 l2).
      { intros f2 l2 I. apply mapM_forall2 in OT. destruct (forall2_in_r OT I) as (x & J & X). cbn in X.
        inv_ok X. injection X as <- <-. pose proof (LF2 _ J) as LX. destruct (boundary_exists Wm2 LX) as (l & BV).
        rewrite (boundary_face_vertices Wm2 LX BV) in H. injection H as <-. auto. }
      destruct (@foldE_inv _ _ (fun fi f => iso_face cmpf m iso others fi f) okF ext (fun f fi => assoc f fi <> None)) with (l := fs) (s := fi) (s' := fi')
        as (OF' & EX & AL); auto.
      { intros s k; auto. } { intros a0 b0 c1 X Y k K; auto. }
      { intros s f s' I OKs Q. eapply iso_face_ok; eauto. }
      split; [|split; [split; auto; apply ext_cons|cbn; rewrite Nat.eqb_refl; discriminate]].
      split; [|split; auto].
      + intros k k2. cbn. destruct (k =? e) eqn:Q; [|apply OE]. apply Nat.eqb_eq in Q. subst k.
        intros X; injection X as <-. subst a. auto.
      + intros k f. cbn. destruct (k =? e) eqn:Q.
        * apply Nat.eqb_eq in Q. subst k. intros _ X. apply AL. apply LE. exact X.
        * intros X Y. apply EX. eapply OEF; eauto.
  Qed.

  Lemma match_face_err vs f others fi : match_face cmpf vs f others fi <> Ok (inr Equivalent).
  Proof.
    induction others as [|[k l] o IH]; cbn [match_face]; intros E; [discriminate|]. inv_ok E.
    destruct a; auto. destruct (cmpf f k); discriminate.
  Qed.
  Lemma iso_vertex_err st v : iso_vertex cmpv cmpe cmpf c m m2 iso st v <> Ok (inr Equivalent).
  Proof.
    intros E. unfold iso_vertex in E. do 2 inv_ok E. destruct (cmpv v a); [|discriminate]. cbn [negb] in E. inv_ok E.
    revert E. apply foldE_err. clear. intros [ei fi] e E. unfold iso_edge in E.
    destruct (assoc e ei); [discriminate|]. do 3 inv_ok E. destruct a2 as [e2|]; [|discriminate].
    destruct (cmpe e e2); [|discriminate]. cbn [negb] in E. do 4 inv_ok E. destruct a5 as [|d]; [discriminate|].
    injection E as ->. revert H5. apply foldE_err. clear. intros fi f E. unfold iso_face in E.
    destruct (assoc f fi); [discriminate|]. do 3 inv_ok E. match goal with [r : _ + difference |- _] => destruct r as [x|d] end.
    - destruct (assoc f x); discriminate.
    - injection E as ->. eapply match_face_err; eauto.
  Qed.

  Definition leaving v (st : list (nat * nat) * list (nat * nat)) : Prop :=
    lvv g2 (h v) = true /\ assoc v iso <> None /\ cmpv v (h v) = true /\
    forall e, lv g e = true -> og g e = v -> assoc e (fst st) <> None.

  Lemma extS_trans a b d : extS a b -> extS b d -> extS a d.
  Proof. intros [A B] [C D]. split; intros k K; auto. Qed.

  Lemma iso_vertex_ok st v st' : lvv g v = true -> okS st ->
    iso_vertex cmpv cmpe cmpf c m m2 iso st v = Ok (inl st') ->
    okS st' /\ extS st st' /\ leaving v st'.
  Proof.
    intros L OK E. unfold iso_vertex in E. inv_ok E. apply img_unwrap in H as [AV HV].
    destruct (wf_abs Wm2) as [R2 W2]. rewrite (r_vchk R2) in E.
    destruct (lvv (abs m2) a) eqn:LA; [|discriminate]. destruct (cmpv v a) eqn:CV; [|discriminate]. cbn [negb] in E.
    destruct (vertex_wheel c Wm L) as (es & EO & ND & OL & _). rewrite EO in E. cbn [bind] in E.
    destruct (@foldE_inv _ _ (fun st e => iso_edge cmpe cmpf c m m2 iso a st e) okS extS (fun e st => assoc e (fst st) <> None))
      with (l := es) (s := st) (s' := st') as (OK' & EX & AL); auto.
    { intros s. split; intros k; auto. } { apply extS_trans. } { intros e s s' [X _] Q. auto. }
    { intros s e s' I OKs Q. apply OL in I as [LE OE]. fold g in LE, OE. subst a v.
      eapply iso_edge_ok; eauto. }
    split; auto. split; auto. split; [rewrite HV; auto|]. split; [congruence|]. split; [rewrite HV; auto|].
    intros e LE OE. apply AL. apply OL. auto.
  Qed.

  Lemma is_isomorphic_sound : no_parallel g ->
    (forall v w, lvv g v = true -> lvv g w = true -> h v = h w -> v = w) ->
    is_isomorphic cmpv cmpe cmpf c m m2 iso = Ok Equivalent ->
    isomorphism g g2 h /\ (forall v, lvv g v = true -> cmpv v (h v) = true) /\
    (forall e, lv g e = true -> exists e2, lv g2 e2 = true /\ og g2 e2 = h (og g e) /\ tgt g2 e2 = h (tgt g e) /\ cmpe e e2 = true).
  Proof.
    intros NP INJ E. unfold is_isomorphic in E.
    destruct (num_vertices m =? num_vertices m2) eqn:NV; [|discriminate]. cbn [negb] in E.
    destruct (num_edges m =? num_edges m2) eqn:NE; [|discriminate]. cbn [negb] in E.
    destruct (num_faces m =? num_faces m2) eqn:NF; [|discriminate]. cbn [negb] in E.
    apply Nat.eqb_eq in NV, NE, NF.
    rewrite (num_vertices_ids Wm), (num_vertices_ids Wm2) in NV.
    rewrite (num_edges_ids Wm), (num_edges_ids Wm2) in NE.
    rewrite (num_faces_ids Wm), (num_faces_ids Wm2) in NF.
    inv_ok E. destruct a as [st|d].
    2:{ injection E as ->. exfalso. revert H. apply foldE_err. intros; apply iso_vertex_err. }
    clear E.
    destruct (wf_abs Wm) as [R W]. destruct (wf_abs Wm2) as [R2 W2]. fold g in W. fold g2 in W2.
    destruct (@foldE_inv _ _ (fun st v => iso_vertex cmpv cmpe cmpf c m m2 iso st v) okS extS leaving)
      with (l := vertex_ids m) (s := (@nil (nat * nat), @nil (nat * nat))) (s' := st) as (OK & _ & AL); auto.
    { intros s. split; intros k; auto. } { apply extS_trans. }
    { intros v s s' [X _] (A & B & C & D). repeat split; auto. }
    { intros s v s' I OKs Q. apply vertex_ids_live in I; auto. eapply iso_vertex_ok; eauto. }
    { split; [intros ? ? X; discriminate X|]. split; [intros ? ? X; discriminate X|]. intros ? ? X; elim X; auto. }
    clear H. destruct OK as (OE & OF & OEF). destruct st as [ei fi]. cbn [fst snd] in *.
    assert (ALv : forall v, lvv g v = true -> leaving v (ei, fi)).
    { intros v L. apply AL. apply vertex_ids_live; auto. }
    assert (KE : forall e, lv g e = true -> assoc e ei = Some (img ei e)).
    { intros e L. destruct (ALv (og g e)) as (_ & _ & _ & X); [apply W; auto|].
      specialize (X e L eq_refl). cbn [fst] in X. unfold img. destruct (assoc e ei); congruence. }
    assert (KF : forall f, lvf g f = true -> assoc f fi = Some (img fi f)).
    { intros f L. destruct (wf_fe W f L) as [LE FE].
      assert (X : assoc f fi <> None). { apply (OEF (fe g f) f); auto. cbn [fst]. rewrite KE by auto. discriminate. }
      unfold img. destruct (assoc f fi); congruence. }
    assert (EI : forall e, lv g e = true -> lv g2 (img ei e) = true /\ og g2 (img ei e) = h (og g e) /\
      tgt g2 (img ei e) = h (tgt g e) /\ cmpe e (img ei e) = true).
    { intros e L. destruct (OE _ _ (KE e L)) as (_ & X). exact X. }
    assert (ES : forall e2, lv g2 e2 = true -> exists e, lv g e = true /\ img ei e = e2).
    { intros e2 L2. destruct (@surj_of_inj (edge_ids m) (edge_ids m2) (img ei)) with (y := e2) as (e & I & Q).
      - apply edge_ids_nodup; auto.
      - auto.
      - intros x I. apply edge_ids_live in I; auto. apply edge_ids_live; auto. apply EI; auto.
      - intros x y X Y Q. apply edge_ids_live in X, Y; auto.
        destruct (EI x X) as (_ & A1 & A2 & _). destruct (EI y Y) as (_ & B1 & B2 & _).
        apply NP; auto; apply INJ; try (apply W; auto; apply W; auto); congruence.
      - apply edge_ids_live; auto.
      - exists e. split; auto. apply edge_ids_live; auto. }
    split; [|split].
    - constructor.
      + intros v L. apply (ALv v L).
      + exact INJ.
      + intros w L2. destruct (@surj_of_inj (vertex_ids m) (vertex_ids m2) h) with (y := w) as (v & I & Q).
        * apply vertex_ids_nodup; auto.
        * auto.
        * intros x I. apply vertex_ids_live in I; auto. apply vertex_ids_live; auto. apply (ALv x I).
        * intros x y X Y Q. apply vertex_ids_live in X, Y; auto.
        * apply vertex_ids_live; auto.
        * exists v. split; auto. apply vertex_ids_live; auto.
      + intros u v Lu Lv. split.
        * intros (e & L & <- & <-). exists (img ei e). apply EI in L. tauto.
        * intros (e2 & L2 & A & B). destruct (ES e2 L2) as (e & L & <-). destruct (EI e L) as (_ & X & Y & _).
          exists e. split; auto. split; apply INJ; try (apply W; auto; apply W; auto); congruence.
      + assert (FI : forall f f', lvf g f = true -> lvf g f' = true -> img fi f = img fi f' -> f = f').
        { intros f f' L L' Q. destruct (OF _ _ (KF f L)) as (_ & _ & _ & l & l2 & B & B2 & RT).
          destruct (OF _ _ (KF f' L')) as (_ & LF2 & _ & l' & l2' & B' & B2' & RT').
          rewrite Q in B2. pose proof (boundary_face_vertices Wm2 LF2 B2) as X.
          rewrite (boundary_face_vertices Wm2 LF2 B2') in X. injection X as <-.
          eapply (boundary_determines Wm NP L L' B B').
          eapply (@rotation_map h (fun v => lvv g v = true)); [exact INJ|eapply boundary_live; eauto|eapply boundary_live; eauto|].
          eapply rotation_trans; [exact RT|]. apply rotation_sym. exact RT'. }
        exists (img fi). split; [|split; [exact FI|split]].
        * intros f L. apply (OF _ _ (KF f L)).
        * intros f2 L2. destruct (@surj_of_inj (face_ids m) (face_ids m2) (img fi)) with (y := f2) as (f & I & Q).
          -- apply face_ids_nodup; auto.
          -- auto.
          -- intros x I. apply face_ids_live in I; auto. apply face_ids_live; auto. apply (OF _ _ (KF x I)).
          -- intros x y X Y Q. apply face_ids_live in X, Y; auto.
          -- apply face_ids_live; auto.
          -- exists f. split; auto. apply face_ids_live; auto.
        * intros f l l2 L B B2. destruct (OF _ _ (KF f L)) as (_ & LF2 & _ & l' & l2' & B' & B2' & RT).
          pose proof (boundary_face_vertices Wm2 LF2 B2) as X. rewrite (boundary_face_vertices Wm2 LF2 B2') in X.
          injection X as <-.
          pose proof (boundary_face_vertices Wm L B) as Y. rewrite (boundary_face_vertices Wm L B') in Y.
          injection Y as <-. exact RT.
    - intros v L. apply (ALv v L).
    - intros e L. exists (img ei e). apply EI; auto.
  Qed.
End IsoSound.

Section ByPayload.
  Context {VP EP FP VP2 EP2 FP2 : Type}.
  Variables (same : nat -> nat -> bool).

  Lemma payload_iso_ok ws : forall vs iso used iso',
    (forall k w, assoc k iso = Some w -> In w used) ->
    (forall k k' w, assoc k iso = Some w -> assoc k' iso = Some w -> k = k') ->
    payload_iso same ws vs iso used = Some iso' ->
    (forall v, In v vs -> exists w, assoc v iso' = Some w /\ In w ws /\ same v w = true) /\
    (forall k k' w, assoc k iso' = Some w -> assoc k' iso' = Some w -> k = k') /\
    (forall k w, assoc k iso = Some w -> assoc k iso' = Some w).
  Proof.
    induction vs as [|v vs IH]; intros iso used iso' U INJ E; cbn [payload_iso] in E.
    - injection E as <-. split; [intros ? []|]. auto.
    - destruct (find (same v) ws) as [w|] eqn:F; [|discriminate].
      destruct (assoc v iso) eqn:A; [discriminate|]. destruct (mem w used) eqn:M; [discriminate|].
      assert (NM : ~ In w used). { intros X. apply mem_in in X. congruence. }
      apply find_some in F as [FI FS]. apply IH in E as (X & Y & Z).
      + split; [|split; auto].
        * intros u [<-|I]; auto. exists w. split; auto. apply Z. cbn. rewrite Nat.eqb_refl. auto.
        * intros k u K. apply Z. cbn. destruct (k =? v) eqn:Q; auto. apply Nat.eqb_eq in Q. congruence.
      + intros k u. cbn. destruct (k =? v); [intros Q; injection Q as <-; left; auto|right; eauto].
      + intros k k' u. cbn. destruct (k =? v) eqn:Q1, (k' =? v) eqn:Q2; rewrite ?Nat.eqb_eq in *; subst; auto.
        * intros Q; injection Q as <-. intros K. exfalso. eauto.
        * intros K Q; injection Q as <-. exfalso. eauto.
        * apply INJ.
  Qed.

  Lemma is_isomorphic_by_sound c (m : mesh VP EP FP) (m2 : mesh VP2 EP2 FP2) : wf m -> wf m2 -> no_parallel (abs m) ->
    is_isomorphic_by c same m m2 = Ok Equivalent ->
    exists h, isomorphism (abs m) (abs m2) h /\ forall v, lvv (abs m) v = true -> same v (h v) = true.
  Proof.
    intros Wm Wm2 NP E. unfold is_isomorphic_by in E.
    destruct (find_payload_isomorphism same m m2) as [iso|] eqn:F; [|discriminate].
    apply payload_iso_ok in F as (X & Y & _); try discriminate.
    exists (img iso).
    assert (K : forall v, lvv (abs m) v = true -> assoc v iso = Some (img iso v) /\ same v (img iso v) = true).
    { intros v L. destruct (X v) as (w & A & _ & S); [apply vertex_ids_live; auto|]. unfold img. rewrite A. auto. }
    split; [|intros v L; apply (K v L)].
    apply is_isomorphic_sound in E; auto.
    - apply E.
    - intros v w LV LW Q. destruct (K v LV) as [A _]. destruct (K w LW) as [B _]. apply (Y v w (img iso v)); congruence.
  Qed.
End ByPayload.

Section TrivialSound.
  Context {VP EP FP : Type}.
  Variables (cmpv cmpe cmpf : nat -> nat -> bool) (m m2 : mesh VP EP FP).
  Hypothesis (Wm : wf m) (Wm2 : wf m2).
  Let g := abs m.
  Let g2 := abs m2.
  Notation tgt g e := (og g (tw g e)).

  Lemma d_id_has {A} (d : dvec A) i k : d_id d i = Ok k -> d_has d i = true.
  Proof. unfold d_id, d_has. destruct (nth_error (slots d) i) as [[[k' a]|]|]; congruence. Qed.

  Lemma orelse_false x y : orelse x y = Ok false -> x = Ok false /\ y = Ok false.
  Proof. unfold orelse. intros E. inv_ok E. destruct a; [discriminate|auto]. Qed.
  Lemma negb_eqb_false a b : Ok (negb (a =? b)) = Ok false -> a = b.
  Proof. intros E. apply Ok_inj, negb_false_iff, Nat.eqb_eq in E. auto. Qed.

  Lemma foldE_unit {A} (f : unit -> A -> res (unit + difference)) (Q : A -> Prop) l :
    (forall a, In a l -> f tt a = Ok (inl tt) -> Q a) -> foldE f l tt = Ok (inl tt) -> forall a, In a l -> Q a.
  Proof.
    intros H E. destruct (@foldE_inv _ _ f (fun _ => True) (fun _ _ => True) (fun a _ => Q a)) with (l := l) (s := tt) (s' := tt)
      as (_ & _ & X); auto.
    intros [] a [] I _ F. auto.
  Qed.

  Lemma same_live (l l2 : list nat) : NoDup l -> length l = length l2 -> (forall x, In x l -> In x l2) ->
    forall x, In x l <-> In x l2.
  Proof.
    intros ND L S x. split; auto. intros I.
    destruct (@surj_of_inj l l2 (fun x => x)) with (y := x) as (y & J & <-); auto.
  Qed.
  Lemma eq_live (a b : bool) : (a = true <-> b = true) -> a = b.
  Proof. destruct a, b; intuition. Qed.

  Lemma trivially_isomorphic_sound : is_trivially_isomorphic_ex cmpv cmpe cmpf m m2 = Ok Equivalent ->
    (forall v, lvv g v = lvv g2 v) /\ (forall e, lv g e = lv g2 e) /\ (forall f, lvf g f = lvf g2 f) /\
    (forall e, lv g e = true -> og g e = og g2 e /\ tgt g e = tgt g2 e) /\
    (no_parallel g -> forall e, lv g e = true -> tw g e = tw g2 e) /\
    (forall f, lvf g f = true -> fc g (fe g2 f) = Some f).
  Proof.
    intros E. unfold is_trivially_isomorphic_ex in E.
    destruct (num_vertices m =? num_vertices m2) eqn:NV; [|discriminate]. cbn [negb] in E.
    destruct (num_edges m =? num_edges m2) eqn:NE; [|discriminate]. cbn [negb] in E.
    destruct (num_faces m =? num_faces m2) eqn:NF; [|discriminate]. cbn [negb] in E.
    apply Nat.eqb_eq in NV, NE, NF.
    rewrite (num_vertices_ids Wm), (num_vertices_ids Wm2) in NV.
    rewrite (num_edges_ids Wm), (num_edges_ids Wm2) in NE.
    rewrite (num_faces_ids Wm), (num_faces_ids Wm2) in NF.
    destruct (wf_abs Wm) as [R W]. destruct (wf_abs Wm2) as [R2 W2]. fold g in R, W. fold g2 in R2, W2.
    inv_ok E. destruct a as [[]|d].
    2:{ injection E as ->. exfalso. revert H. apply foldE_err. intros s v X. unfold tri_vertex in X. inv_ok X.
        destruct (_ || _); discriminate. }
    rename H into FV. inv_ok E. destruct a as [[]|d].
    2:{ injection E as ->. exfalso. revert H. apply foldE_err. intros s v X. unfold tri_edge in X. do 3 inv_ok X.
        destruct a1; discriminate. }
    rename H into FE. inv_ok E. destruct a as [[]|d].
    2:{ injection E as ->. exfalso. revert H. apply foldE_err. intros s v X. unfold tri_face in X. do 3 inv_ok X.
        destruct a1; discriminate. }
    rename H into FF. clear E.
    assert (V : forall v, lvv g v = lvv g2 v).
    { intros v. apply eq_live. unfold g, g2. rewrite <- !vertex_ids_live by auto. apply same_live; auto.
      - apply vertex_ids_nodup; auto.
      - apply (foldE_unit (Q := fun v => In v (vertex_ids m2))) with (2 := FV). intros x I X. unfold tri_vertex in X. inv_ok X.
        apply vertex_ids_live; auto. eapply d_id_has; eauto. }
    assert (Q : forall e, In e (edge_ids m) -> In e (edge_ids m2) /\ og g e = og g2 e /\ tgt g e = og g (nx g2 e)).
    { apply foldE_unit with (2 := FE). intros e I X. unfold tri_edge in X. do 3 inv_ok X.
      destruct a1; [discriminate|]. apply edge_ids_live in I; auto.
      pose proof (d_id_has H) as L2. split; [apply edge_ids_live; auto|].
      apply orelse_false in H1 as [_ H1]. apply orelse_false in H1 as [H1 H2]. apply orelse_false in H2 as [H2 _].
      destruct (r_edge R2 _ H0) as (_ & N2 & _ & _ & O2 & _).
      rewrite (r_gorigin Wm I) in H1. cbn [bind] in H1. rewrite (r_vchk R) in H1.
      destruct (lvv g (e_origin a0)); [|discriminate]. apply negb_eqb_false in H1. split; [unfold g in *; congruence|].
      rewrite (r_gtarget' Wm I) in H2. cbn [bind] in H2. inv_ok H2. apply negb_eqb_false in H2.
      rewrite (r_origin_id R), <- N2 in H3. destruct (lv g (nx g2 e)); [|discriminate]. cbn [bind] in H3.
      rewrite (r_vchk R) in H3. destruct (lvv g _); [|discriminate]. apply Ok_inj in H3. unfold g in *. congruence. }
    assert (L : forall e, lv g e = lv g2 e).
    { intros e. apply eq_live. unfold g, g2. rewrite <- !edge_ids_live by auto. apply same_live; auto.
      - apply edge_ids_nodup; auto.
      - intros x I. apply (Q x I). }
    assert (OT : forall e, lv g e = true -> og g e = og g2 e /\ tgt g e = tgt g2 e).
    { intros e Le. destruct (Q e) as (_ & A & B); [apply edge_ids_live; auto|]. split; auto.
      pose proof Le as L2. rewrite L in L2. pose proof (wf_nx W2 e L2) as N2.
      destruct (Q (nx g2 e)) as (_ & C & _); [apply edge_ids_live; auto; fold g; rewrite L; auto|].
      rewrite <- (wf_ognx W2 e L2). congruence. }
    assert (F0 : forall f, In f (face_ids m) -> In f (face_ids m2) /\ fc g (fe g2 f) = Some f).
    { apply foldE_unit with (2 := FF). intros f I X. unfold tri_face in X. do 3 inv_ok X.
      destruct a1; [discriminate|]. apply face_ids_live in I; auto.
      pose proof (d_id_has H) as L2. split; [apply face_ids_live; auto|].
      apply orelse_false in H1 as [_ H1]. apply orelse_false in H1 as [_ H1]. apply orelse_false in H1 as [H1 _].
      destruct (wf_fe W f I) as [LE FE']. destruct (face_traversal Wm LE) as (t & LP & _).
      destruct (face_num_edges_ok Wm I LP) as [_ E]. rewrite E in H1. cbn [bind] in H1. inv_ok H1.
      assert (FX : fe g2 f = f_edge a0).
      { destruct (r_face_live R2 _ L2) as (x & Ex & Fx & _). congruence. }
      rewrite FX. assert (L1 : lv g (f_edge a0) = true).
      { unfold edges_face in H2. rewrite (r_chk R) in H2. destruct (lv g (f_edge a0)); [auto|discriminate]. }
      destruct (face_traversal Wm L1) as (t2 & LP2 & E2 & _). rewrite E2 in H2. apply Ok_inj in H2. subst a1.
      inv_ok H1. apply Ok_inj, negb_false_iff in H1. subst a1.
      destruct (equal_up_to_rotation_ok (fe (abs m) f :: t) (f_edge a0 :: t2)) as (b & Eb & B). rewrite Eb in H2.
      apply Ok_inj in H2. apply B in H2 as [_ (l1 & l2 & A1 & A2)].
      assert (J : In (f_edge a0) (fe g f :: t)).
      { fold g in A1. rewrite A1. apply in_or_app. assert (K : In (f_edge a0) (l2 ++ l1)) by (rewrite <- A2; left; auto).
        apply in_app_iff in K as [K|K]; auto. }
      rewrite (loop_fc W (proj2 LP) LE J). auto. }
    split; [exact V|]. split; [exact L|]. split.
    { intros e. apply eq_live. unfold g, g2. rewrite <- !face_ids_live by auto. apply same_live; auto.
      - apply face_ids_nodup; auto.
      - intros x I. apply (F0 x I). }
    split; [exact OT|]. split.
    - intros NP e Le. pose proof Le as L2. rewrite L in L2.
      pose proof (wf_tw W e Le) as T1. pose proof (wf_tw W2 e L2) as T2.
      assert (T3 : lv g (tw g2 e) = true) by (rewrite L; auto).
      apply NP; auto.
      + destruct (OT e Le) as [_ ->]. destruct (OT _ T3) as [-> _]. auto.
      + rewrite (wf_twtw W e Le). destruct (OT _ T3) as [_ ->]. rewrite (wf_twtw W2 e L2). apply OT; auto.
    - intros f Lf. apply F0. apply face_ids_live; auto.
  Qed.
End TrivialSound.
