(** Meshes represented by graphs: effect of the primitive mutations. *)
From Coq Require Import List Arith Lia Bool.
From Verif Require Import Base DVec DVecFacts Mesh Spec.
Import ListNotations.
Set Implicit Arguments.

Section Rep.
  Context {VP EP FP : Type}.
  Notation mesh := (mesh VP EP FP).
  Notation graph := (graph VP EP FP).
  Implicit Types (g : graph) (m : mesh) (c : cfg).

  (** Graph-level mutations *)
  Definition fu {B} (f : nat -> B) (i : nat) (b : B) : nat -> B := fun j => if j =? i then b else f j.

  Definition gw_next e n g := mkG (lv g) (fu (nx g) e n) (pv g) (tw g) (og g) (fc g) (ep g) (lvv g) (ve g) (vp g) (lvf g) (fe g) (fp g).
  Definition gw_prev e n g := mkG (lv g) (nx g) (fu (pv g) e n) (tw g) (og g) (fc g) (ep g) (lvv g) (ve g) (vp g) (lvf g) (fe g) (fp g).
  Definition gw_twin e n g := mkG (lv g) (nx g) (pv g) (fu (tw g) e n) (og g) (fc g) (ep g) (lvv g) (ve g) (vp g) (lvf g) (fe g) (fp g).
  Definition gw_origin e n g := mkG (lv g) (nx g) (pv g) (tw g) (fu (og g) e n) (fc g) (ep g) (lvv g) (ve g) (vp g) (lvf g) (fe g) (fp g).
  Definition gw_face e f g := mkG (lv g) (nx g) (pv g) (tw g) (og g) (fu (fc g) e f) (ep g) (lvv g) (ve g) (vp g) (lvf g) (fe g) (fp g).
  Definition gw_edge e n t p o f y g :=
    mkG (fu (lv g) e true) (fu (nx g) e n) (fu (pv g) e p) (fu (tw g) e t) (fu (og g) e o) (fu (fc g) e f)
        (fu (ep g) e (Some y)) (lvv g) (ve g) (vp g) (lvf g) (fe g) (fp g).
  Definition gw_vertex v oe y g :=
    mkG (lv g) (nx g) (pv g) (tw g) (og g) (fc g) (ep g)
        (fu (lvv g) v true) (fu (ve g) v oe) (fu (vp g) v (Some y)) (lvf g) (fe g) (fp g).
  Definition gw_vedge v oe g := mkG (lv g) (nx g) (pv g) (tw g) (og g) (fc g) (ep g) (lvv g) (fu (ve g) v oe) (vp g) (lvf g) (fe g) (fp g).
  Definition gw_newface f e y g :=
    mkG (lv g) (nx g) (pv g) (tw g) (og g) (fc g) (ep g) (lvv g) (ve g) (vp g)
        (fu (lvf g) f true) (fu (fe g) f e) (fu (fp g) f (Some y)).
  Definition gw_fedge f e g := mkG (lv g) (nx g) (pv g) (tw g) (og g) (fc g) (ep g) (lvv g) (ve g) (vp g) (lvf g) (fu (fe g) f e) (fp g).
  Definition gw_delface f g := mkG (lv g) (nx g) (pv g) (tw g) (og g) (fc g) (ep g) (lvv g) (ve g) (vp g) (fu (lvf g) f false) (fe g) (fu (fp g) f None).

  Definition repE m g := forall e,
    match look (edges m) e with
    | Some x => lv g e = true /\ nx g e = e_next x /\ pv g e = e_prev x /\ tw g e = e_twin x /\
                og g e = e_origin x /\ fc g e = e_face x /\ ep g e = Some (e_pay x)
    | None => lv g e = false
    end.
  Definition repV m g := forall v,
    match look (verts m) v with
    | Some x => lvv g v = true /\ ve g v = v_edge x /\ vp g v = Some (v_pay x)
    | None => lvv g v = false
    end.
  Definition repF m g := forall f,
    match look (faces m) f with
    | Some x => lvf g f = true /\ fe g f = f_edge x /\ fp g f = Some (f_curved x, f_pay x)
    | None => lvf g f = false
    end.

  (** [m] is represented by [g], with pending (allocated, unset) ids. *)
  Record rep (m : mesh) (qe qv qf : list nat) (g : graph) : Prop := {
    rE : dv_ok (edges m) qe; rV : dv_ok (verts m) qv; rF : dv_ok (faces m) qf;
    r_e : repE m g; r_v : repV m g; r_f : repF m g }.

  Lemma rep_abs m qe qv qf : dv_ok (edges m) qe -> dv_ok (verts m) qv -> dv_ok (faces m) qf ->
    rep m qe qv qf (abs m).
  Proof.
    split; auto; intros i; simpl; rewrite has_look_b;
      destruct (look _ i) as [x|]; simpl; repeat split; auto.
  Qed.

  (** agreement of two graphs on live ids *)
  Record geq g1 g2 : Prop := {
    q_lv : forall e, lv g1 e = lv g2 e;
    q_nx : forall e, lv g1 e = true -> nx g1 e = nx g2 e;
    q_pv : forall e, lv g1 e = true -> pv g1 e = pv g2 e;
    q_tw : forall e, lv g1 e = true -> tw g1 e = tw g2 e;
    q_og : forall e, lv g1 e = true -> og g1 e = og g2 e;
    q_fc : forall e, lv g1 e = true -> fc g1 e = fc g2 e;
    q_ep : forall e, lv g1 e = true -> ep g1 e = ep g2 e;
    q_lvv : forall e, lvv g1 e = lvv g2 e;
    q_ve : forall e, lvv g1 e = true -> ve g1 e = ve g2 e;
    q_vp : forall e, lvv g1 e = true -> vp g1 e = vp g2 e;
    q_lvf : forall e, lvf g1 e = lvf g2 e;
    q_fe : forall e, lvf g1 e = true -> fe g1 e = fe g2 e;
    q_fp : forall e, lvf g1 e = true -> fp g1 e = fp g2 e }.

  Lemma rep_geq m qe qv qf g1 g2 : rep m qe qv qf g1 -> rep m qe qv qf g2 -> geq g1 g2.
  Proof.
    intros [_ _ _ E1 V1 F1] [_ _ _ E2 V2 F2].
    split; intros i; try specialize (E1 i); try specialize (E2 i); try specialize (V1 i);
      try specialize (V2 i); try specialize (F1 i); try specialize (F2 i);
      repeat match goal with H : context [match ?x with _ => _ end] |- _ => destruct x end;
      intuition congruence.
  Qed.

  Lemma rep_geq_l m qe qv qf g1 g2 : rep m qe qv qf g1 -> geq g1 g2 -> rep m qe qv qf g2.
  Proof.
    intros [? ? ? E1 V1 F1] Q. split; auto; intros i.
    - specialize (E1 i). pose proof (q_lv Q i). destruct (look (edges m) i); [|congruence].
      destruct E1 as (L & ? & ? & ? & ? & ? & ?).
      rewrite <- (q_nx Q), <- (q_pv Q), <- (q_tw Q), <- (q_og Q), <- (q_fc Q), <- (q_ep Q) by auto.
      repeat split; auto; congruence.
    - specialize (V1 i). pose proof (q_lvv Q i). destruct (look (verts m) i); [|congruence].
      destruct V1 as (L & ? & ?). rewrite <- (q_ve Q), <- (q_vp Q) by auto. repeat split; auto; congruence.
    - specialize (F1 i). pose proof (q_lvf Q i). destruct (look (faces m) i); [|congruence].
      destruct F1 as (L & ? & ?). rewrite <- (q_fe Q), <- (q_fp Q) by auto. repeat split; auto; congruence.
  Qed.

  Lemma geq_sym g1 g2 : geq g1 g2 -> geq g2 g1.
  Proof.
    intros Q. split; intros; symmetry; try apply Q; rewrite ?(q_lv Q), ?(q_lvv Q), ?(q_lvf Q); auto.
  Qed.

  Lemma geq_refl g : geq g g.
  Proof. split; auto. Qed.

  Lemma geq_trans g1 g2 g3 : geq g1 g2 -> geq g2 g3 -> geq g1 g3.
  Proof.
    intros Q R. split; intros.
    all: first [ rewrite (q_lv Q); apply R | rewrite (q_lvv Q); apply R | rewrite (q_lvf Q); apply R
               | etransitivity; [apply Q; auto|]; apply R; rewrite <- ?(q_lv Q), <- ?(q_lvv Q), <- ?(q_lvf Q); auto ].
  Qed.

  Lemma reach_ext (P : nat -> Prop) f f' a b :
    (forall x, P x -> P (f x)) -> (forall x, P x -> f x = f' x) -> P a ->
    reach f a b -> reach f' a b.
  Proof.
    intros C X Pa H. induction H; [constructor|].
    rewrite X by (eapply reach_inv; eauto). apply reach_step; auto.
  Qed.

  Lemma WF_geq g1 g2 : geq g1 g2 -> WF g1 -> WF g2.
  Proof.
    intros Q W.
    assert (L : forall e, lv g2 e = true -> lv g1 e = true) by (intros; rewrite (q_lv Q); auto).
    assert (LV : forall e, lvv g2 e = true -> lvv g1 e = true) by (intros; rewrite (q_lvv Q); auto).
    assert (LF : forall e, lvf g2 e = true -> lvf g1 e = true) by (intros; rewrite (q_lvf Q); auto).
    assert (WH : forall e, lv g1 e = true -> wheel g1 e = wheel g2 e).
    { intros. unfold wheel. rewrite (q_tw Q), (q_nx Q); auto.
      rewrite <- (q_tw Q) by auto. apply (wf_tw W); auto. }
    split; intros e; intros.
    - rewrite <- (q_lv Q), <- (q_tw Q) by auto. apply W; auto.
    - rewrite <- !(q_tw Q); try apply W; auto. rewrite <- (q_tw Q) by auto. apply W; auto.
    - rewrite <- (q_tw Q) by auto. apply W; auto.
    - rewrite <- (q_lv Q), <- (q_nx Q) by auto. apply W; auto.
    - rewrite <- (q_lv Q), <- (q_pv Q) by auto. apply W; auto.
    - rewrite <- (q_nx Q) by auto. rewrite <- (q_pv Q) by (apply W; auto). apply W; auto.
    - rewrite <- (q_pv Q) by auto. rewrite <- (q_nx Q) by (apply W; auto). apply W; auto.
    - rewrite <- (q_nx Q), <- (q_tw Q) by auto. rewrite <- !(q_og Q) by (apply W; auto). apply W; auto.
    - rewrite <- (q_nx Q) by auto. rewrite <- !(q_fc Q) by (try apply W; auto). apply W; auto.
    - rewrite <- (q_lvv Q), <- (q_og Q) by auto. apply W; auto.
    - destruct (wf_wheel W e (L _ H)) as (e0 & V & R). exists e0.
      assert (LO : lvv g1 (og g1 e) = true) by (apply W; auto).
      rewrite <- (q_og Q), <- (q_ve Q) by auto. split; auto.
      apply reach_ext with (P := fun x => lv g1 x = true) (f := wheel g1); auto.
      + intros. unfold wheel. apply W, W; auto.
      + apply (wf_ve W (og g1 e)); auto.
    - rewrite <- (q_ve Q) in H0 by auto. destruct (wf_ve W e (LV _ H) H0).
      rewrite <- (q_lv Q), <- (q_og Q) by auto. auto.
    - rewrite <- (q_fc Q) in H0 by auto. destruct (wf_fc W e (L _ H) H0) as [F R].
      rewrite <- (q_lvf Q), <- (q_fe Q) by auto. split; auto.
      apply reach_ext with (P := fun x => lv g1 x = true) (f := nx g1); auto.
      + intros; apply W; auto.
      + intros; apply Q; auto.
      + apply W; auto.
    - destruct (wf_fe W e (LF _ H)) as [A B].
      rewrite <- (q_fe Q), <- (q_lv Q), <- (q_fc Q) by auto. auto.
  Qed.

  Lemma wf_rep m : wf m <-> exists g, rep m [] [] [] g /\ WF g.
  Proof.
    split.
    - intros (A & B & C & W). exists (abs m). split; auto. apply rep_abs; auto.
    - intros (g & R & W). split; [apply R|]. split; [apply R|]. split; [apply R|].
      apply WF_geq with g; auto. eapply rep_geq; eauto. apply rep_abs; apply R.
  Qed.

  (** Reading *)
  Section Read.
    Variables (m : mesh) (qe qv qf : list nat) (g : graph).
    Hypothesis R : rep m qe qv qf g.

    Lemma r_edge e x : m_edge m e = Ok x ->
      lv g e = true /\ nx g e = e_next x /\ pv g e = e_prev x /\ tw g e = e_twin x /\
      og g e = e_origin x /\ fc g e = e_face x /\ ep g e = Some (e_pay x).
    Proof.
      intros H. unfold m_edge in H. rewrite get_look in H. apply unwrap_ok in H.
      pose proof (r_e R e) as Q. rewrite H in Q. auto.
    Qed.

    Lemma r_edge_live e : lv g e = true ->
      exists x, m_edge m e = Ok x /\ nx g e = e_next x /\ pv g e = e_prev x /\ tw g e = e_twin x /\
      og g e = e_origin x /\ fc g e = e_face x /\ ep g e = Some (e_pay x).
    Proof.
      intros H. unfold m_edge. setoid_rewrite get_look.
      pose proof (r_e R e) as Q. destruct (look (edges m) e) as [x|]; [|congruence].
      exists x. simpl. intuition.
    Qed.

    Lemma r_edge_dead e : lv g e = false -> m_edge m e = Panic.
    Proof.
      intros H. unfold m_edge. rewrite get_look.
      pose proof (r_e R e) as Q. destruct (look (edges m) e) as [x|]; [|reflexivity].
      destruct Q; congruence.
    Qed.

    Ltac rd e := unfold next_id, prev_id, twin_id, origin_id, face_id, is_boundary_self;
      destruct (lv g e) eqn:L; [destruct (r_edge_live _ L) as (x & -> & ? & ? & ? & ? & ? & ?)|
                                rewrite (r_edge_dead _ L)]; simpl; try congruence.

    Lemma r_edge_bind A e (k : edge EP -> res A) :
      lv g e = false -> bind (m_edge m e) k = Panic.
    Proof. intros L. rewrite (r_edge_dead _ L). reflexivity. Qed.

    Lemma r_chk A e (k : res A) : (let* _ := m_edge m e in k) = if lv g e then k else Panic.
    Proof. rd e; reflexivity. Qed.
    Lemma r_next_id e : next_id m e = if lv g e then Ok (nx g e) else Panic.
    Proof. rd e. Qed.
    Lemma r_prev_id e : prev_id m e = if lv g e then Ok (pv g e) else Panic.
    Proof. rd e. Qed.
    Lemma r_twin_id e : twin_id m e = if lv g e then Ok (tw g e) else Panic.
    Proof. rd e. Qed.
    Lemma r_origin_id e : origin_id m e = if lv g e then Ok (og g e) else Panic.
    Proof. rd e. Qed.
    Lemma r_face_id e : face_id m e = if lv g e then Ok (fc g e) else Panic.
    Proof. rd e. Qed.
    Lemma r_boundary e : is_boundary_self m e = if lv g e then Ok (is_none (fc g e)) else Panic.
    Proof. rd e. Qed.
    Lemma r_next e : g_next m e = if lv g e && lv g (nx g e) then Ok (nx g e) else Panic.
    Proof.
      unfold g_next. rd e. rewrite r_chk. rewrite <- H. reflexivity.
    Qed.
    Lemma r_prev e : g_prev m e = if lv g e && lv g (pv g e) then Ok (pv g e) else Panic.
    Proof.
      unfold g_prev. rd e. rewrite r_chk. rewrite <- H0. reflexivity.
    Qed.
    Lemma r_twin e : g_twin m e = if lv g e && lv g (tw g e) then Ok (tw g e) else Panic.
    Proof.
      unfold g_twin. rd e. rewrite r_chk. rewrite <- H1. reflexivity.
    Qed.
    Lemma r_target e : target_id m e = if lv g e && lv g (nx g e) then Ok (og g (nx g e)) else Panic.
    Proof.
      unfold target_id. rewrite r_next. destruct (lv g e && lv g (nx g e)) eqn:L; simpl; auto.
      rewrite r_origin_id. apply andb_prop in L as [_ ->]. reflexivity.
    Qed.

    Lemma r_vertex_live v : lvv g v = true ->
      exists x, m_vertex m v = Ok x /\ ve g v = v_edge x /\ vp g v = Some (v_pay x).
    Proof.
      intros H. unfold m_vertex. setoid_rewrite get_look.
      pose proof (r_v R v) as Q. destruct (look (verts m) v) as [x|]; [|congruence].
      exists x. simpl. intuition.
    Qed.
    Lemma r_vertex_dead v : lvv g v = false -> m_vertex m v = Panic.
    Proof.
      intros H. unfold m_vertex. rewrite get_look.
      pose proof (r_v R v) as Q. destruct (look (verts m) v) as [x|]; [|reflexivity].
      destruct Q; congruence.
    Qed.
    Lemma r_vchk A v (k : res A) : (let* _ := m_vertex m v in k) = if lvv g v then k else Panic.
    Proof.
      destruct (lvv g v) eqn:L; [destruct (r_vertex_live _ L) as (x & -> & ? & ?)|rewrite (r_vertex_dead _ L)]; reflexivity.
    Qed.
    Lemma r_gtarget e : g_target m e =
      if lv g e && lv g (nx g e) then (if lvv g (og g (nx g e)) then Ok (og g (nx g e)) else Panic) else Panic.
    Proof.
      unfold g_target. rewrite r_target. destruct (lv g e && lv g (nx g e)) eqn:L; simpl; auto.
      rewrite r_vchk. reflexivity.
    Qed.
    Lemma r_has_v v : d_has (verts m) v = lvv g v.
    Proof. rewrite has_look_b. pose proof (r_v R v). destruct (look (verts m) v); intuition. Qed.
    Lemma r_has_e v : d_has (edges m) v = lv g v.
    Proof. rewrite has_look_b. pose proof (r_e R v). destruct (look (edges m) v); intuition. Qed.
    Lemma r_has_f v : d_has (faces m) v = lvf g v.
    Proof. rewrite has_look_b. pose proof (r_f R v). destruct (look (faces m) v); intuition. Qed.
    Lemma r_vedge v : v_edge_get m v =
      if lvv g v then match ve g v with None => Ok None | Some e => if lv g e then Ok (Some e) else Panic end else Panic.
    Proof.
      unfold v_edge_get. destruct (lvv g v) eqn:L; [|rewrite (r_vertex_dead _ L); reflexivity].
      destruct (r_vertex_live _ L) as (x & -> & -> & ?). simpl.
      destruct (v_edge x); auto. apply r_chk.
    Qed.
    Lemma r_face_live f : lvf g f = true ->
      exists x, m_face m f = Ok x /\ fe g f = f_edge x /\ fp g f = Some (f_curved x, f_pay x).
    Proof.
      intros H. unfold m_face. setoid_rewrite get_look.
      pose proof (r_f R f) as Q. destruct (look (faces m) f) as [x|]; [|congruence].
      exists x. simpl. intuition.
    Qed.
    Lemma r_face_dead v : lvf g v = false -> m_face m v = Panic.
    Proof.
      intros H. unfold m_face. rewrite get_look.
      pose proof (r_f R v) as Q. destruct (look (faces m) v) as [x|]; [|reflexivity].
      destruct Q; congruence.
    Qed.
    Lemma r_bound e : lv g e = true -> e < length (slots (edges m)).
    Proof.
      intros H. pose proof (r_e R e) as Q. destruct (look (edges m) e) eqn:L; [|congruence].
      eapply look_lt; eauto.
    Qed.
  End Read.

  (** Writing *)
  Lemma upd_edge_look m qe qv qf g e f m' : rep m qe qv qf g -> upd_edge m e f = Ok m' ->
    lv g e = true /\ dv_ok (edges m') qe /\ verts m' = verts m /\ faces m' = faces m /\
    exists x, look (edges m) e = Some x /\
      forall j, look (edges m') j = if j =? e then Some (f x) else look (edges m) j.
  Proof.
    intros R H. unfold upd_edge in H. apply bind_ok in H as (d & H0 & H). injection H as <-.
    destruct (update_ok _ _ (rE R) H0) as (OK & _ & _ & x & L & LL). simpl.
    split; [pose proof (r_e R e) as Q; rewrite L in Q; apply Q|]. eauto 10.
  Qed.

  Lemma upd_vertex_look m qe qv qf g e f m' : rep m qe qv qf g -> upd_vertex m e f = Ok m' ->
    lvv g e = true /\ dv_ok (verts m') qv /\ edges m' = edges m /\ faces m' = faces m /\
    exists x, look (verts m) e = Some x /\
      forall j, look (verts m') j = if j =? e then Some (f x) else look (verts m) j.
  Proof.
    intros R H. unfold upd_vertex in H. apply bind_ok in H as (d & H0 & H). injection H as <-.
    destruct (update_ok _ _ (rV R) H0) as (OK & _ & _ & x & L & LL). simpl.
    split; [pose proof (r_v R e) as Q; rewrite L in Q; apply Q|]. eauto 10.
  Qed.

  Lemma upd_face_look m qe qv qf g e f m' : rep m qe qv qf g -> upd_face m e f = Ok m' ->
    lvf g e = true /\ dv_ok (faces m') qf /\ edges m' = edges m /\ verts m' = verts m /\
    exists x, look (faces m) e = Some x /\
      forall j, look (faces m') j = if j =? e then Some (f x) else look (faces m) j.
  Proof.
    intros R H. unfold upd_face in H. apply bind_ok in H as (d & H0 & H). injection H as <-.
    destruct (update_ok _ _ (rF R) H0) as (OK & _ & _ & x & L & LL). simpl.
    split; [pose proof (r_f R e) as Q; rewrite L in Q; apply Q|]. eauto 10.
  Qed.

  Ltac we R H :=
    let i := fresh "i" in let Q := fresh "Q" in
    destruct (upd_edge_look _ _ R H) as (L0 & OK & EV & EF & x & L & LL);
    split; [exact L0|]; split; auto; try apply R; rewrite ?EV, ?EF; try apply R;
      intros i; simpl; rewrite ?EV, ?EF; try (apply R);
      rewrite LL; pose proof (r_e R i) as Q; unfold fu;
      match goal with |- context [i =? ?e] => destruct (Nat.eqb_spec i e) end; subst; simpl;
      try (rewrite L in Q); simpl in *; intuition.

  Lemma w_set_next m qe qv qf g e n m' :
    rep m qe qv qf g -> set_next m e n = Ok m' -> lv g e = true /\ rep m' qe qv qf (gw_next e n g).
  Proof. intros R H. unfold set_next in H. we R H. Qed.
  Lemma w_set_prev m qe qv qf g e n m' :
    rep m qe qv qf g -> set_prev m e n = Ok m' -> lv g e = true /\ rep m' qe qv qf (gw_prev e n g).
  Proof. intros R H. unfold set_prev in H. we R H. Qed.
  Lemma w_set_twin m qe qv qf g e n m' :
    rep m qe qv qf g -> set_twin m e n = Ok m' -> lv g e = true /\ rep m' qe qv qf (gw_twin e n g).
  Proof. intros R H. unfold set_twin in H. we R H. Qed.
  Lemma w_set_origin m qe qv qf g e n m' :
    rep m qe qv qf g -> set_origin m e n = Ok m' -> lv g e = true /\ rep m' qe qv qf (gw_origin e n g).
  Proof. intros R H. unfold set_origin in H. we R H. Qed.
  Lemma w_upd_face m qe qv qf g e n m' :
    rep m qe qv qf g -> upd_edge m e (w_face n) = Ok m' -> lv g e = true /\ rep m' qe qv qf (gw_face e n g).
  Proof. intros R H. we R H. Qed.

  Lemma dassert_ok A c (b : res bool) (k : res A) a : dassert c b k = Ok a ->
    (dbg c = true -> b = Ok true) /\ k = Ok a.
  Proof.
    unfold dassert. destruct (dbg c); intros H; [|split; [discriminate|auto]].
    destruct b as [[|]| |]; simpl in H; try discriminate. auto.
  Qed.

  Lemma w_set_face m qe qv qf g c e f m' :
    rep m qe qv qf g -> set_face c m e f = Ok m' ->
    lv g e = true /\ (dbg c = true -> fc g e = None) /\ rep m' qe qv qf (gw_face e f g).
  Proof.
    intros R H. unfold set_face in H. apply bind_ok in H as (x & H1 & H).
    apply dassert_ok in H as [D H]. destruct (r_edge R _ H1) as (L & _ & _ & _ & _ & F & _).
    destruct (w_upd_face _ _ R H). repeat split; auto; try apply H2.
    intros DB. specialize (D DB). injection D as D. rewrite F. destruct (e_face x); [discriminate|auto].
  Qed.

  Lemma w_delete_face m qe qv qf g c e m' :
    rep m qe qv qf g -> delete_face c m e = Ok m' ->
    lv g e = true /\ (dbg c = true -> fc g e <> None) /\ rep m' qe qv qf (gw_face e None g).
  Proof.
    intros R H. unfold delete_face in H. apply bind_ok in H as (x & H1 & H).
    apply dassert_ok in H as [D H]. destruct (r_edge R _ H1) as (L & _ & _ & _ & _ & F & _).
    destruct (w_upd_face _ _ R H). repeat split; auto; try apply H2.
    intros DB. specialize (D DB). injection D as D. rewrite F. destruct (e_face x); [congruence|discriminate].
  Qed.

  Lemma w_set_vedge m qe qv qf g v oe m' :
    rep m qe qv qf g -> set_vedge m v oe = Ok m' -> lvv g v = true /\ rep m' qe qv qf (gw_vedge v oe g).
  Proof.
    intros R H. destruct (upd_vertex_look _ _ R H) as (L0 & OK & EV & EF & x & L & LL).
    split; [exact L0|]. split; auto; rewrite ?EV, ?EF; try apply R; intros i; simpl; rewrite ?EV, ?EF; try apply R.
    rewrite LL. pose proof (r_v R i) as Q. unfold fu. destruct (Nat.eqb_spec i v); subst; simpl; auto.
    rewrite L in Q; intuition.
  Qed.

  Lemma w_set_fedge m qe qv qf g f e m' :
    rep m qe qv qf g -> set_fedge m f e = Ok m' -> lvf g f = true /\ rep m' qe qv qf (gw_fedge f e g).
  Proof.
    intros R H. destruct (upd_face_look _ _ R H) as (L0 & OK & EV & EF & x & L & LL).
    split; [exact L0|]. split; auto; rewrite ?EV, ?EF; try apply R; intros i; simpl; rewrite ?EV, ?EF; try apply R.
    rewrite LL. pose proof (r_f R i) as Q. unfold fu. destruct (Nat.eqb_spec i f); subst; simpl; auto.
    rewrite L in Q; intuition.
  Qed.

  Lemma w_alloc_edge m qe qv qf g c m' e :
    rep m qe qv qf g -> alloc_edge c m = Ok (m', e) ->
    lv g e = false /\ ~ In e qe /\ rep m' (e :: qe) qv qf g.
  Proof.
    intros R H. unfold alloc_edge in H. apply bind_ok in H as ((d & i) & H1 & H). injection H as <- <-.
    destruct (alloc_ok _ (rE R) H1) as (OK & L & NI & LL & _ & _ & _).
    pose proof (r_e R i) as Q. rewrite L in Q. split; auto. split; auto.
    split; simpl; auto; try apply R. intros j. simpl. rewrite LL. apply R.
  Qed.

  Lemma w_alloc_vertex m qe qv qf g c m' v :
    rep m qe qv qf g -> alloc_vertex c m = Ok (m', v) ->
    lvv g v = false /\ ~ In v qv /\ rep m' qe (v :: qv) qf g.
  Proof.
    intros R H. unfold alloc_vertex in H. apply bind_ok in H as ((d & i) & H1 & H). injection H as <- <-.
    destruct (alloc_ok _ (rV R) H1) as (OK & L & NI & LL & _ & _ & _).
    pose proof (r_v R i) as Q. rewrite L in Q. split; auto. split; auto.
    split; simpl; auto; try apply R. intros j. simpl. rewrite LL. apply R.
  Qed.

  Lemma w_set_vertex m qe q1 v q2 qf g c x m' :
    rep m qe (q1 ++ v :: q2) qf g -> set_vertex c m v x = Ok m' ->
    rep m' qe (q1 ++ q2) qf (gw_vertex v (v_edge x) (v_pay x) g).
  Proof.
    intros R H. unfold set_vertex in H. apply bind_ok in H as (d & H1 & H). injection H as <-.
    destruct (@set_ok _ (capV c) _ q1 v q2 _ _ (rV R) H1) as (OK & NC & _ & _ & LL).
    split; simpl; auto; try apply R. intros j. simpl. rewrite LL. unfold fu.
    destruct (Nat.eqb_spec j v); subst; simpl; auto. apply R.
  Qed.

  Lemma w_insert_halfedge m q1 e q2 qv qf g c o f p t n y m' :
    rep m (q1 ++ e :: q2) qv qf g -> insert_halfedge c m e o f p t n y = Ok m' ->
    rep m' (q1 ++ q2) qv qf
      (gw_edge e (match n with Some n => n | None => t end) t
         (match p with Some p => p | None => t end) o f y g).
  Proof.
    intros R H. unfold insert_halfedge in H.
    apply assert_ok in H as [_ H]. apply assert_ok in H as [_ H]. apply assert_ok in H as [_ H].
    apply bind_ok in H as (d & H1 & H). injection H as <-.
    destruct (nth_error (slots (edges m)) e) as [[?|]|]; try discriminate.
    apply assert_ok in H1 as [_ H1]. apply assert_ok in H1 as [_ H1].
    destruct (@set_ok _ (capE c) _ q1 e q2 _ _ (rE R) H1) as (OK & NC & _ & _ & LL).
    split; simpl; auto; try apply R. intros j. simpl. rewrite LL. unfold fu.
    destruct (Nat.eqb_spec j e); subst; simpl; auto 10. apply R.
  Qed.

  Lemma w_insert_pair m qv qf g c n1 p1 o1 f1 y1 n2 p2 o2 f2 y2 m' e1 e2 :
    rep m [] qv qf g ->
    insert_pair c m n1 p1 o1 f1 y1 n2 p2 o2 f2 y2 = Ok (m', e1, e2) ->
    lv g e1 = false /\ lv g e2 = false /\ e1 <> e2 /\
    rep m' [] qv qf
      (gw_edge e2 (match n2 with Some n => n | None => e1 end) e1 (match p2 with Some n => n | None => e1 end) o2 f2 y2
      (gw_edge e1 (match n1 with Some n => n | None => e2 end) e2 (match p1 with Some n => n | None => e2 end) o1 f1 y1 g)).
  Proof.
    intros R H. unfold insert_pair in H.
    apply bind_ok in H as ((m1 & i1) & H1 & H).
    apply bind_ok in H as ((m2 & i2) & H2 & H).
    apply bind_ok in H as (m3 & H3 & H).
    apply bind_ok in H as (m4 & H4 & H). injection H as <- <- <-.
    destruct (w_alloc_edge _ R H1) as (L1 & _ & R1).
    destruct (w_alloc_edge _ R1 H2) as (L2 & N2 & R2).
    split; auto. split; auto. split; [intros ->; apply N2; left; auto|].
    pose proof (@w_insert_halfedge _ [i2] i1 [] _ _ _ _ _ _ _ _ _ _ _ R2 H3) as R3.
    exact (@w_insert_halfedge _ [] i2 [] _ _ _ _ _ _ _ _ _ _ _ R3 H4).
  Qed.

  Lemma w_push_face m qe qv qf g c e cu y m' f :
    rep m qe qv qf g -> push_face c m e cu y = Ok (m', f) ->
    lvf g f = false /\ ~ In f qf /\ rep m' qe qv qf (gw_newface f e (cu, y) g).
  Proof.
    intros R H. unfold push_face in H. apply assert_ok in H as [_ H].
    apply bind_ok in H as ((d & i) & H1 & H). injection H as <- <-.
    destruct (push_ok _ _ (rF R) H1) as (OK & NC & L & NI & LL & _).
    pose proof (r_f R i) as Q. rewrite L in Q. split; auto. split; auto.
    split; simpl; auto; try apply R. intros j. simpl. rewrite LL. unfold fu.
    destruct (Nat.eqb_spec j i); subst; simpl; auto. apply R.
  Qed.

  Lemma w_delete_faces m qe qv qf g d f :
    rep m qe qv qf g -> d_delete (faces m) f = Ok d ->
    lvf g f = true /\ rep (mkM (edges m) (verts m) d) qe qv qf (gw_delface f g).
  Proof.
    intros R H. destruct (delete_ok _ (rF R) H) as (OK & _ & _ & L & LL).
    pose proof (r_f R f) as Q. destruct (look (faces m) f) eqn:E; [|congruence].
    split; [apply Q|]. split; simpl; auto; try apply R. intros j. simpl. rewrite LL. unfold fu.
    destruct (Nat.eqb_spec j f); subst; simpl; auto. apply R.
  Qed.
End Rep.

Arguments upd_edge_look {VP EP FP m qe qv qf g e f m'} _ _.
Arguments upd_vertex_look {VP EP FP m qe qv qf g e f m'} _ _.
Arguments upd_face_look {VP EP FP m qe qv qf g e f m'} _ _.
Arguments w_set_next {VP EP FP m qe qv qf g e n m'} _ _.
Arguments w_set_prev {VP EP FP m qe qv qf g e n m'} _ _.
Arguments w_set_twin {VP EP FP m qe qv qf g e n m'} _ _.
Arguments w_set_origin {VP EP FP m qe qv qf g e n m'} _ _.
Arguments w_upd_face {VP EP FP m qe qv qf g e n m'} _ _.
Arguments w_set_face {VP EP FP m qe qv qf g c e f m'} _ _.
Arguments w_delete_face {VP EP FP m qe qv qf g c e m'} _ _.
Arguments w_set_vedge {VP EP FP m qe qv qf g v oe m'} _ _.
Arguments w_set_fedge {VP EP FP m qe qv qf g f e m'} _ _.
Arguments w_alloc_edge {VP EP FP m qe qv qf g c m' e} _ _.
Arguments w_alloc_vertex {VP EP FP m qe qv qf g c m' v} _ _.
Arguments w_set_vertex {VP EP FP m qe q1 v q2 qf g c x m'} _ _.
Arguments w_insert_halfedge {VP EP FP m q1 e q2 qv qf g c o f p t n y m'} _ _.
Arguments w_insert_pair {VP EP FP m qv qf g c n1 p1 o1 f1 y1 n2 p2 o2 f2 y2 m' e1 e2} _ _.
Arguments w_push_face {VP EP FP m qe qv qf g c e cu y m' f} _ _.
Arguments w_delete_faces {VP EP FP m qe qv qf g d f} _ _.
