(** The builder operations as graph transformations. *)
From Coq Require Import List Arith Lia Bool.
From Verif Require Import Base DVec DVecFacts Mesh Spec Rep Splice Cycle Traverse Room.
Import ListNotations.
Set Implicit Arguments.
Unset Strict Implicit.

Definition mem (x : nat) (l : list nat) : bool := existsb (Nat.eqb x) l.
Lemma mem_in x l : mem x l = true <-> In x l.
Proof.
  unfold mem. rewrite existsb_exists. split.
  - intros (y & H & E). apply Nat.eqb_eq in E. subst; auto.
  - intros H. exists x. split; auto. apply Nat.eqb_refl.
Qed.
Lemma mem_out x l : mem x l = false <-> ~ In x l.
Proof. rewrite <- mem_in. destruct (mem x l); intuition congruence. Qed.

Ltac eqbs := repeat match goal with
  | |- context [?a =? ?b] => destruct (Nat.eqb_spec a b); try subst
  | H : context [?a =? ?b] |- _ => destruct (Nat.eqb_spec a b); try subst end.

Section Ops.
  Context {VP EP FP : Type}.
  Notation mesh := (mesh VP EP FP).
  Notation graph := (graph VP EP FP).
  Implicit Types (g : graph) (m : mesh) (c : cfg).

  (** Assign one face value to a set of half-edges. *)
  Definition gw_faces (l : list nat) (f : option nat) g :=
    mkG (lv g) (nx g) (pv g) (tw g) (og g) (fun j => if mem j l then f else fc g j) (ep g)
        (lvv g) (ve g) (vp g) (lvf g) (fe g) (fp g).

  Definition add_face (f e : nat) (y : bool * FP) (l : list nat) g :=
    gw_faces l (Some f) (gw_newface f e y g).
  Definition del_face (f : nat) (l : list nat) g := gw_delface f (gw_faces l None g).

  Lemma gw_faces_step x l f g : geq (gw_faces l f (gw_face x f g)) (gw_faces (x :: l) f g).
  Proof.
    split; intros j; simpl; auto. intros _. unfold fu. destruct (j =? x); simpl; auto. destruct (mem j l); auto.
  Qed.

  Lemma set_face_loop_ok c m qe qv qf g f first cur rest fl m' :
    rep m qe qv qf g -> chain (nx g) cur rest -> nx g (last rest cur) = first ->
    ~ In first rest -> set_face_loop c m f first cur fl = Ok m' ->
    rep m' qe qv qf (gw_faces (cur :: rest) (Some f) g) /\
    (dbg c = true -> NoDup (cur :: rest) -> forall x, In x (cur :: rest) -> fc g x = None).
  Proof.
    revert m g cur fl. induction rest as [|z rest IH]; intros m g cur fl R C L NI H.
    - destruct fl; cbn [set_face_loop] in H; apply bind_ok in H as (m1 & H1 & H); [discriminate|].
      destruct (w_set_face R H1) as (L1 & D1 & R1).
      apply bind_ok in H as (n & H2 & H). rewrite (r_next R1) in H2. cbn in H2.
      destruct (lv g cur && lv g (nx g cur)); [|discriminate]. injection H2 as <-.
      cbn in L. rewrite L, Nat.eqb_refl in H. injection H as <-. split.
      + eapply rep_geq_l; [exact R1|]. eapply geq_trans; [|apply gw_faces_step].
        split; intros; auto.
      + intros D _ x [<-|[]]. auto.
    - destruct C as [C1 C]. rewrite last_cons in L.
      destruct fl; cbn [set_face_loop] in H; apply bind_ok in H as (m1 & H1 & H); [discriminate|].
      destruct (w_set_face R H1) as (L1 & D1 & R1).
      apply bind_ok in H as (n & H2 & H). rewrite (r_next R1) in H2. cbn in H2.
      destruct (lv g cur && lv g (nx g cur)); [|discriminate]. injection H2 as <-.
      rewrite C1 in H. destruct (Nat.eqb_spec z first); [subst; exfalso; apply NI; left; auto|].
      assert (NI' : ~ In first rest) by (intros X; apply NI; right; auto).
      destruct (IH m1 (gw_face cur (Some f) g) z fl R1 C L NI' H) as [R2 D2]. split.
      + eapply rep_geq_l; [exact R2|]. apply gw_faces_step.
      + intros D ND x [<-|Hx]; auto. inversion ND as [|? ? N1 N2]; subst.
        specialize (D2 D N2 x Hx). cbn in D2. unfold fu in D2.
        destruct (Nat.eqb_spec x cur); [subst; contradiction|auto].
  Qed.

  Lemma f_set_face_loop c m qe qv qf g f first cur rest fl a b d :
    rep m qe qv qf g -> room c m a b d -> chain (nx g) cur rest -> nx g (last rest cur) = first ->
    ~ In first rest -> NoDup (cur :: rest) -> length rest < fl -> lv g first = true ->
    (forall x, In x (cur :: rest) -> lv g x = true) ->
    (dbg c = true -> forall x, In x (cur :: rest) -> fc g x = None) ->
    exists m', set_face_loop c m f first cur fl = Ok m' /\ room c m' a b d.
  Proof.
    revert m g cur fl. induction rest as [|z rest IH]; intros m g cur fl R RM C L NI ND FL LF LV FN.
    - destruct fl; [simpl in FL; lia|]. cbn [set_face_loop].
      destruct (@f_set_face _ _ _ c m qe qv qf g cur (Some f) a b d) as (m1 & -> & R1 & RM1); auto.
      { apply LV; left; auto. } { intros D; apply FN; auto; left; auto. }
      cbn [bind]. rewrite (r_next R1). cbn. cbn in L. rewrite (LV cur), L, LF by (left; auto).
      cbn. rewrite Nat.eqb_refl. eauto.
    - destruct fl; [simpl in FL; lia|]. cbn [set_face_loop].
      destruct C as [C1 C]. rewrite last_cons in L.
      destruct (@f_set_face _ _ _ c m qe qv qf g cur (Some f) a b d) as (m1 & -> & R1 & RM1); auto.
      { apply LV; left; auto. } { intros D; apply FN; auto; left; auto. }
      cbn [bind]. rewrite (r_next R1). cbn. rewrite (LV cur), C1, (LV z) by (simpl; auto).
      cbn. destruct (Nat.eqb_spec z first); [subst; exfalso; apply NI; left; auto|].
      inversion ND as [|? ? N1 N2]; subst.
      apply IH with (g := gw_face cur (Some f) g); auto.
      { intros X; apply NI; right; auto. } { simpl in FL. lia. }
      { intros x Hx. cbn. apply LV; right; auto. }
      intros D x Hx. cbn. unfold fu. destruct (Nat.eqb_spec x cur); [subst; contradiction|].
      apply FN; auto. right; auto.
  Qed.

  (** Faces on loops *)
  Lemma add_face_WF g f e y t : WF g -> is_cycle (nx g) (e :: t) -> lv g e = true -> fc g e = None ->
    lvf g f = false -> WF (add_face f e y (e :: t) g).
  Proof.
    intros W C L F D. pose proof (fun x => @cycle_closed _ _ x C) as CC.
    assert (ND : forall x f', lv g x = true -> fc g x = Some f' -> f' <> f).
    { intros x f' Lx Fx ->. apply (wf_fc W _ Lx) in Fx as [? _]. congruence. }
    split; cbn [add_face gw_faces gw_newface lv nx pv tw og fc lvv ve lvf fe]; try apply W; auto.
    - intros x Lx. destruct (mem x (e :: t)) eqn:M.
      + apply mem_in in M. apply CC in M. apply mem_in in M. rewrite M. reflexivity.
      + destruct (mem (nx g x) (e :: t)) eqn:M'; [|apply W; auto].
        exfalso. apply mem_out in M. apply M. apply mem_in in M'.
        assert (B : In (pv g (nx g x)) (e :: rev t)).
        { apply (cycle_closed (back_cycle W C L)). simpl in *. rewrite <- in_rev. auto. }
        rewrite (wf_pvnx W) in B by auto. simpl in *. rewrite <- in_rev in B. auto.
    - intros x f' Lx Fx. destruct (mem x (e :: t)) eqn:M.
      + injection Fx as <-. unfold fu. rewrite Nat.eqb_refl. split; auto.
        apply (cycle_reach x C). apply mem_in; auto.
      + pose proof (ND _ _ Lx Fx). unfold fu. destruct (Nat.eqb_spec f' f); [contradiction|].
        apply W; auto.
    - intros f' Lf. unfold fu in *. destruct (Nat.eqb_spec f' f).
      + subst. split; auto. rewrite (proj2 (mem_in e (e :: t))); auto. left; auto.
      + destruct (wf_fe W _ Lf) as [L1 F1]. split; auto.
        destruct (mem (fe g f') (e :: t)) eqn:M; auto. exfalso. apply mem_in in M.
        rewrite (loop_fc W C L M) in F1. congruence.
  Qed.

  Lemma del_face_WF g f t : WF g -> lvf g f = true -> is_cycle (nx g) (fe g f :: t) ->
    WF (del_face f (fe g f :: t) g).
  Proof.
    intros W L C. destruct (wf_fe W _ L) as [LE FE]. pose proof (fun x => @cycle_closed _ _ x C) as CC.
    assert (OWN : forall x, lv g x = true -> fc g x = Some f -> In x (fe g f :: t)).
    { intros x Lx Fx. apply (wf_fc W _ Lx) in Fx as [_ H]. apply (cycle_reach x C); auto. }
    split; cbn [del_face gw_delface gw_faces lv nx pv tw og fc lvv ve lvf fe]; try apply W; auto.
    - intros x Lx. destruct (mem x (fe g f :: t)) eqn:M.
      + apply mem_in in M. apply CC in M. apply mem_in in M. rewrite M. reflexivity.
      + destruct (mem (nx g x) (fe g f :: t)) eqn:M'; [|apply W; auto].
        exfalso. apply mem_out in M. apply M. apply OWN; auto.
        rewrite <- (wf_fcnx W) by auto. apply mem_in in M'. rewrite (loop_fc W C LE M'). auto.
    - intros x f' Lx Fx. destruct (mem x (fe g f :: t)) eqn:M; [discriminate|].
      apply mem_out in M. unfold fu. destruct (Nat.eqb_spec f' f).
      + subst. exfalso; auto. + apply W; auto.
    - intros f' Lf. unfold fu in *. destruct (Nat.eqb_spec f' f); [discriminate|].
      destruct (wf_fe W _ Lf) as [L1 F1]. split; auto.
      destruct (mem (fe g f') (fe g f :: t)) eqn:M; auto. apply mem_in in M.
      rewrite (loop_fc W C LE M) in F1. congruence.
  Qed.

  (** close_hole *)
  Lemma close_hole_ok c m g e t y cu m' f :
    rep m [] [] [] g -> WF g -> is_cycle (nx g) (e :: t) ->
    close_hole c m e y cu = Ok (m', f) ->
    lv g e = true /\ lvf g f = false /\ (dbg c = true -> fc g e = None) /\
    rep m' [] [] [] (add_face f e (cu, y) (e :: t) g).
  Proof.
    intros R W C H. unfold close_hole in H. apply bind_ok in H as ((m1 & f') & H1 & H).
    destruct (w_push_face R H1) as (D & _ & R1).
    rewrite (r_chk R1) in H. cbn [lv gw_newface] in H. destruct (lv g e) eqn:L; [|discriminate].
    apply bind_ok in H as (m2 & H2 & H). injection H as <- <-.
    pose proof C as C'. rewrite is_cycle_cons in C'. destruct C' as (ND & CH & LA).
    destruct (@set_face_loop_ok c m1 [] [] [] _ f' e e t (fuel m1) m2 R1) as [R2 FN]; auto.
    { inversion ND; auto. }
    split; auto. split; auto. split; auto. intros DB. apply (FN DB ND). left; auto.
  Qed.

  Lemma f_close_hole c m g e y cu a b d :
    rep m [] [] [] g -> WF g -> room c m a b (S d) -> lv g e = true ->
    (dbg c = true -> fc g e = None) ->
    exists m' f, close_hole c m e y cu = Ok (m', f) /\ room c m' a b d.
  Proof.
    intros R W RM L FN. unfold close_hole.
    pose proof (live_lt_cap R RM L) as NE.
    destruct (f_push_face cu y R NE RM) as (m1 & f & E & RM1). rewrite E. cbn [bind].
    destruct (w_push_face R E) as (D & _ & R1).
    rewrite (r_chk R1). cbn [lv gw_newface]. rewrite L.
    destruct (loop_exists R W L) as [t C]. pose proof C as C'. rewrite is_cycle_cons in C'.
    destruct C' as (ND & CH & LA).
    assert (LL : forall x, In x (e :: t) -> lv g x = true) by (intros x; apply (loop_live W C L)).
    assert (FU : length t < fuel m1).
    { pose proof (live_list_length R1 ND LL) as Q. unfold fuel. simpl in Q. lia. }
    destruct (@f_set_face_loop c m1 [] [] [] _ f e e t (fuel m1) a b d R1) as (m2 & -> & RM2); auto.
    { inversion ND; auto. }
    { intros DB x Hx. cbn [fc gw_newface]. rewrite (loop_fc W C L Hx). auto. }
    cbn [bind]. eauto.
  Qed.

  (** remove_face *)
  Lemma foldM_delete c l m qe qv qf g m' : rep m qe qv qf g ->
    foldM (fun m e => delete_face c m e) l m = Ok m' -> rep m' qe qv qf (gw_faces l None g).
  Proof.
    revert m g. induction l as [|x l IH]; intros m g R H; cbn [foldM] in H.
    - injection H as <-. eapply rep_geq_l; [exact R|]. split; intros; auto.
    - apply bind_ok in H as (m1 & H1 & H). destruct (w_delete_face R H1) as (_ & _ & R1).
      specialize (IH _ _ R1 H). eapply rep_geq_l; [exact IH|]. apply gw_faces_step.
  Qed.

  Lemma f_foldM_delete c l m qe qv qf g a b d : rep m qe qv qf g -> room c m a b d -> NoDup l ->
    (forall x, In x l -> lv g x = true /\ fc g x <> None) ->
    exists m', foldM (fun m e => delete_face c m e) l m = Ok m' /\ room c m' a b d.
  Proof.
    revert m g. induction l as [|x l IH]; intros m g R RM ND H; cbn [foldM]; eauto.
    destruct (H x) as [L F]; [left; auto|].
    destruct (f_delete_face R L (fun _ => F) RM) as (m1 & -> & R1 & RM1). cbn [bind].
    inversion ND; subst. apply IH with (g := gw_face x None g); auto.
    intros z Hz. cbn. unfold fu. destruct (Nat.eqb_spec z x); [subst; contradiction|].
    apply H; right; auto.
  Qed.

  Lemma remove_face_ok c m g f t m' y :
    rep m [] [] [] g -> WF g -> lvf g f = true -> is_cycle (nx g) (fe g f :: t) ->
    remove_face c m f = Ok (m', y) ->
    rep m' [] [] [] (del_face f (fe g f :: t) g) /\ exists cu, fp g f = Some (cu, y).
  Proof.
    intros R W L C H. unfold remove_face in H. apply bind_ok in H as (x & H1 & H).
    destruct (r_face_live R _ L) as (x' & H1' & FE & FPY). rewrite H1' in H1. injection H1 as ->.
    destruct (wf_fe W _ L) as [LE _]. rewrite <- FE in H.
    rewrite (edges_face_ok R W C LE) in H. cbn [bind] in H.
    apply bind_ok in H as (m1 & H2 & H). pose proof (foldM_delete R H2) as R1.
    apply bind_ok in H as (d & H3 & H). injection H as <- <-.
    destruct (w_delete_faces R1 H3) as [_ R2]. split; auto. eauto.
  Qed.

  Lemma f_remove_face c m g f a b d :
    rep m [] [] [] g -> WF g -> room c m a b d -> lvf g f = true ->
    exists m' y, remove_face c m f = Ok (m', y) /\ room c m' a b (S d).
  Proof.
    intros R W RM L. unfold remove_face.
    destruct (r_face_live R _ L) as (x & -> & FE & _). cbn [bind].
    destruct (wf_fe W _ L) as [LE FF]. rewrite <- FE.
    destruct (loop_exists R W LE) as [t C]. rewrite (edges_face_ok R W C LE). cbn [bind].
    destruct (@f_foldM_delete c (fe g f :: t) m [] [] [] g a b d) as (m1 & E & RM1); auto.
    { eapply cycle_nodup; eauto. }
    { intros z Hz. split; [eapply loop_live; eauto|]. rewrite (loop_fc W C LE Hz). congruence. }
    rewrite E. cbn [bind]. pose proof (foldM_delete R E) as R1.
    pose proof (r_f R1 f) as Q. destruct (look (faces m1) f) eqn:LK; [|cbn in Q; congruence].
    unfold d_delete. unfold look in LK. destruct (nth_error (slots (faces m1)) f) as [[[? ?]|]|] eqn:NE; try discriminate.
    cbn [bind]. do 2 eexists. split; eauto. destruct RM1 as (A & B & D).
    split; [exact A|]. split; [exact B|]. unfold spare in *. cbn [faces slots free length].
    rewrite upd_length. lia.
  Qed.

  (** Isolated vertices *)
  Lemma gw_vertex_WF g v y : WF g -> lvv g v = false -> WF (gw_vertex v None y g).
  Proof.
    intros W D.
    assert (N : forall e, lv g e = true -> og g e <> v).
    { intros e L E. apply (wf_og W) in L. congruence. }
    split; cbn [gw_vertex lv nx pv tw og fc lvv ve lvf fe]; try apply W; auto; unfold fu.
    - intros e L. destruct (og g e =? v); auto. apply W; auto.
    - intros e L. destruct (Nat.eqb_spec (og g e) v); [exfalso; eapply N; eauto|]. apply W; auto.
    - intros u e L. destruct (Nat.eqb_spec u v); [discriminate|]. apply W; auto.
  Qed.

  Lemma add_vertex_ok c m g y m' v : rep m [] [] [] g -> add_vertex c m y = Ok (m', v) ->
    lvv g v = false /\ rep m' [] [] [] (gw_vertex v None y g).
  Proof.
    intros R H. unfold add_vertex in H. apply bind_ok in H as ((m1 & v1) & H1 & H).
    apply bind_ok in H as (m2 & H2 & H). injection H as <- <-.
    destruct (w_alloc_vertex R H1) as (D & _ & R1).
    split; auto. apply (@w_set_vertex _ _ _ m1 [] [] v1 [] [] g c _ m2 R1 H2).
  Qed.

  Lemma f_add_vertex c m g y a b d : rep m [] [] [] g -> room c m a (S b) d ->
    exists m' v, add_vertex c m y = Ok (m', v) /\ room c m' a b d.
  Proof.
    intros R RM. unfold add_vertex.
    destruct (f_alloc_vertex R RM) as (m1 & v & -> & _ & _ & R1 & RM1). cbn [bind].
    destruct (@f_set_vertex _ _ _ c m1 [] [] v [] [] g (mkV None y) a b d R1 RM1) as (m2 & -> & _ & RM2).
    cbn [bind]. eauto.
  Qed.
End Ops.
