(** When the builder operations do not panic, in terms of stored fields and loops. *)
From Coq Require Import List Arith Lia Bool.
From Verif Require Import Base DVec DVecFacts Mesh Spec Rep Cycle Traverse Room Splice Ops Ops2 Ops3 Ops4 Flip MeshSpec MeshMore MeshProofs.
Import ListNotations.
Set Implicit Arguments.
Unset Strict Implicit.

Section MT.
  Context {VP EP FP : Type}.
  Notation mesh := (mesh VP EP FP).
  Notation graph := (graph VP EP FP).
  Implicit Types (m : mesh) (g : graph) (c : cfg).

  Lemma t_shared c m v w : wf m -> lvv (abs m) v = true ->
    (forall e, lv (abs m) e = true -> ~ (og (abs m) e = v /\ og (abs m) (tw (abs m) e) = w)) ->
    shared_edge c m v w = Ok None.
  Proof.
    intros Wm L N. destruct (wf_abs Wm) as [R W].
    destruct (@shared_edge_ok _ _ _ m [] [] [] (abs m) c R W v w L) as ([e|] & E & P); auto.
    exfalso. destruct P as (A & B & C). eapply N; eauto.
  Qed.

  Lemma t_add_vertex c m y a b d : wf m -> fits c m a (S b) d ->
    exists m' v, add_vertex c m y = Ok (m', v) /\ fits c m' a b d.
  Proof.
    intros Wm F. destruct (wf_abs Wm) as [R W]. apply fits_room in F; auto.
    destruct (f_add_vertex y R F) as (m' & v & E & RM). exists m', v. split; auto.
    apply fits_room; auto. eapply spec_add_vertex; eauto.
  Qed.

  Lemma t_add_isolated_edge c m ya y1 yb y2 a b d : wf m -> fits c m (2 + a) (2 + b) d ->
    exists m' v0 v1, add_isolated_edge c m ya y1 yb y2 = Ok (m', v0, v1) /\ fits c m' a b d.
  Proof.
    intros Wm F. destruct (wf_abs Wm) as [R W]. apply fits_room in F; auto.
    destruct (f_add_isolated_edge ya y1 yb y2 R F) as (m' & v0 & v1 & E & RM). exists m', v0, v1. split; auto.
    apply fits_room; auto. eapply spec_add_isolated_edge; eauto.
  Qed.

  Lemma t_add_vertex_via_edge c m i y y1 y2 a b d : wf m -> fits c m (2 + a) (S b) d ->
    lv (abs m) i = true -> fc (abs m) i = None ->
    exists m' v e1 e2, add_vertex_via_edge c m i (nx (abs m) i) y y1 y2 = Ok (m', v, e1, e2) /\ fits c m' a b d.
  Proof.
    intros Wm F L FN. destruct (wf_abs Wm) as [R W]. apply fits_room in F; auto.
    pose proof (wf_nx W _ L) as LN.
    destruct (f_add_vertex_via_edge y y1 y2 R F L LN LN eq_refl) as (m' & v & e1 & e2 & E & RM).
    exists m', v, e1, e2. split; auto. apply fits_room; auto.
    exact (proj1 (spec_add_vertex_via_edge Wm (or_intror L) (fun _ => conj eq_refl FN) E)).
  Qed.

  Lemma same_back m i o s : wf m -> loop (abs m) (i :: s) -> In o (i :: s) ->
    same_face_back m i (og (abs m) (nx (abs m) o)) = Ok true.
  Proof.
    intros Wm [LL C] I. destruct (wf_abs Wm) as [R W].
    rewrite (find_og_back_ok R W _ C) by (apply LL; left; auto). f_equal. apply existsb_exists.
    exists (nx (abs m) o). split; [|apply Nat.eqb_refl].
    pose proof (cycle_closed C I) as [Q|Q]; [left; auto|right; apply in_rev in Q; auto].
  Qed.

  Lemma t_ins_conds c m i o s1 s2 : wf m -> loop (abs m) (i :: s1 ++ o :: s2) ->
    (forall e, lv (abs m) e = true -> ~ (og (abs m) e = og (abs m) (tw (abs m) i) /\ og (abs m) (tw (abs m) e) = og (abs m) (tw (abs m) o))) ->
    let g := abs m in
    i <> o /\ lv g i = true /\ lv g o = true /\
    same_face_back m i (og g (nx g o)) = Ok true /\ same_face_back m o (og g (nx g i)) = Ok true /\
    shared_edge c m (og g (nx g i)) (og g (nx g o)) = Ok None /\
    shared_edge c m (og g (nx g o)) (og g (nx g i)) = Ok None.
  Proof.
    intros Wm LP N g. destruct (wf_abs Wm) as [R W].
    assert (IO : In o (i :: s1 ++ o :: s2)) by (right; apply in_app_iff; right; left; auto).
    assert (LI : lv g i = true) by (apply LP; left; auto). assert (LO : lv g o = true) by (apply LP; auto).
    split. { intros ->. destruct LP as [_ C]. apply cycle_nodup in C. inversion C; subst. apply H1. apply in_app_iff; right; left; auto. }
    split; auto. split; auto. split; [eapply same_back; eauto|]. split; [|split].
    - destruct (loop_exists R W LO) as [t C]. assert (LP' : loop g (o :: t)) by (split; auto; intros x I; eapply loop_live; eauto).
      eapply same_back; eauto. apply (cycle_same (proj2 LP) C (x := o)); auto; left; auto.
    - apply t_shared; auto; [apply W; apply W; auto|]. intros e L. unfold g. rewrite !(wf_ognx W); auto.
    - apply t_shared; auto; [apply W; apply W; auto|]. intros e L [A B].
      unfold g in A, B. rewrite (wf_ognx W) in A, B by auto. apply (N (tw g e)); [apply W; auto|].
      unfold g. rewrite (wf_twtw W); auto.
  Qed.

  Lemma t_insert_edge c m i y1 o y2 s1 s2 a b d : wf m -> fits c m (2 + a) b d ->
    loop (abs m) (i :: s1 ++ o :: s2) -> fc (abs m) i = None ->
    (forall e, lv (abs m) e = true -> ~ (og (abs m) e = og (abs m) (tw (abs m) i) /\ og (abs m) (tw (abs m) e) = og (abs m) (tw (abs m) o))) ->
    exists m' e1 e2, insert_edge c m i y1 o y2 = Ok (m', e1, e2) /\ fits c m' a b d.
  Proof.
    intros Wm F LP FN N. destruct (wf_abs Wm) as [R W]. apply fits_room in F; auto.
    destruct (t_ins_conds c Wm LP N) as (IO & LI & LO & CC).
    destruct (f_insert_edge y1 y2 R W IO F LI LO (fun _ => CC)) as (m' & e1 & e2 & E & RM).
    exists m', e1, e2. split; auto. apply fits_room; auto.
    assert (FO : fc (abs m) o = None).
    { rewrite <- FN. apply (loop_fc W (proj2 LP)); auto. right; apply in_app_iff; right; left; auto. }
    apply (spec_insert_edge Wm (or_intror IO) FN FO E).
  Qed.

  Lemma t_close_hole c m e y cu a b d : wf m -> fits c m a b (S d) -> lv (abs m) e = true ->
    fc (abs m) e = None -> exists m' f, close_hole c m e y cu = Ok (m', f) /\ fits c m' a b d.
  Proof.
    intros Wm F L FN. destruct (wf_abs Wm) as [R W]. apply fits_room in F; auto.
    destruct (f_close_hole y cu R W F L (fun _ => FN)) as (m' & f & E & RM). exists m', f. split; auto.
    apply fits_room; auto. apply (spec_close_hole Wm (or_intror FN) E).
  Qed.

  Lemma t_close_hole_panics c m e y cu : wf m -> dbg c = true -> (lv (abs m) e = false \/ fc (abs m) e <> None) ->
    close_hole c m e y cu = Panic.
  Proof.
    intros Wm D N. destruct (close_hole c m e y cu) as [[m' f]| |] eqn:E; auto.
    - destruct (spec_close_hole Wm (or_introl D) E) as (_ & A & B & _). destruct N; congruence.
    - exfalso. destruct (wf_abs Wm) as [R W]. unfold close_hole in E.
      destruct (push_face c m e cu y) as [[m1 f]| |] eqn:P; cbn [bind] in E; try discriminate.
      2:{ unfold push_face, assert in P. destruct (negb _); [|discriminate]. unfold d_push, assert in P.
          repeat match type of P with context [match ?x with _ => _ end] => destruct x; try discriminate end. }
      assert (EQ : edges m1 = edges m).
      { unfold push_face, assert in P. destruct (negb _); [|discriminate]. apply bind_ok in P as ((d' & f') & _ & P). injection P as <- _. auto. }
      unfold m_edge in E. rewrite EQ in E.
      destruct (lv (abs m) e) eqn:L.
      + destruct (r_edge_live R _ L) as (x & EX & _ & _ & _ & _ & FX & _). unfold m_edge in EX. rewrite EX in E. cbn [bind] in E.
        assert (S : forall fl, set_face_loop c m1 f e e fl = Panic).
        { intros fl. assert (Q : set_face c m1 e (Some f) = Panic).
          { unfold set_face, m_edge. rewrite EQ, EX. cbn [bind]. unfold dassert. rewrite D. cbn [bind]. unfold assert.
            destruct N as [N|N]; [congruence|]. rewrite FX in N. destruct (e_face x); [reflexivity|congruence]. }
          destruct fl; cbn [set_face_loop]; rewrite Q; reflexivity. }
        rewrite S in E. discriminate.
      + pose proof (r_edge_dead R _ L) as EX. unfold m_edge in EX. rewrite EX in E. discriminate.
  Qed.

  Lemma t_close_face c m i y1 o y2 y cu s1 s2 a b d : wf m -> fits c m (2 + a) b (S d) ->
    loop (abs m) (i :: s1 ++ o :: s2) -> fc (abs m) i = None ->
    (forall e, lv (abs m) e = true -> ~ (og (abs m) e = og (abs m) (tw (abs m) i) /\ og (abs m) (tw (abs m) e) = og (abs m) (tw (abs m) o))) ->
    exists m' f e1 e2, close_face c m i y1 o y2 y cu = Ok (m', f, e1, e2) /\ fits c m' a b d.
  Proof.
    intros Wm F LP FN N. destruct (wf_abs Wm) as [R W]. apply fits_room in F; auto.
    destruct (t_ins_conds c Wm LP N) as (IO & LI & LO & CC).
    assert (FO : fc (abs m) o = None).
    { rewrite <- FN. apply (loop_fc W (proj2 LP)); auto. right; apply in_app_iff; right; left; auto. }
    destruct (f_close_face y1 y2 y cu R W IO F LI LO FN FO (fun _ => CC)) as (m' & f & e1 & e2 & E & RM).
    exists m', f, e1, e2. split; auto. apply fits_room; auto.
    apply (spec_close_face Wm (or_intror (conj IO (conj FN FO))) E).
  Qed.

  Lemma t_remove_face c m f a b d : wf m -> fits c m a b d -> lvf (abs m) f = true ->
    exists m' y, remove_face c m f = Ok (m', y) /\ fits c m' a b (S d).
  Proof.
    intros Wm F L. destruct (wf_abs Wm) as [R W]. apply fits_room in F; auto.
    destruct (f_remove_face R W F L) as (m' & y & E & RM). exists m', y. split; auto. apply fits_room; auto.
    apply (spec_remove_face Wm E).
  Qed.

  Lemma attach_corner g v : WF g -> attachable g v ->
    exists ca, corner_ok g v ca /\ (ca <> None -> one_corner g v).
  Proof.
    intros W (L & [N|(e & LE & O & F & U)]).
    - exists None. split; [split; auto|congruence].
    - exists (Some (pv g e, e)). split.
      + split; [apply W; auto|]. split; [apply W; auto|]. split; auto.
        rewrite <- F. rewrite <- (wf_nxpv W e LE) at 2. symmetry. apply W. apply W. auto.
      + intros _ x y Lx Ly Ox Oy Fx Fy. rewrite (U x), (U y); auto.
  Qed.

  Lemma attach_one g v : WF g -> attachable g v -> one_corner g v.
  Proof.
    intros W (L & [N|(e & LE & O & F & U)]) x y Lx Ly Ox Oy Fx Fy.
    - exfalso. destruct (wf_wheel W _ Lx) as (e0 & H & _). congruence.
    - rewrite (U x), (U y); auto.
  Qed.
  Lemma t_insert_edge_between c m v y0 w y1 a b d : wf m -> fits c m (2 + a) b d ->
    v <> w -> attachable (abs m) v -> attachable (abs m) w ->
    (dbg c = true -> forall e, lv (abs m) e = true -> ~ (og (abs m) e = v /\ og (abs m) (tw (abs m) e) = w)) ->
    exists m' e0 e1, insert_edge_between c m v y0 w y1 = Ok (m', e0, e1) /\ fits c m' a b d.
  Proof.
    intros Wm F VW AV AW N. destruct (wf_abs Wm) as [R W]. apply fits_room in F; auto.
    destruct (attach_corner W AV) as (ca & CA & UA). destruct (attach_corner W AW) as (cb & CB & UB).
    destruct (f_insert_edge_between y0 y1 R W F CA CB UA UB) as (m' & e0 & e1 & E & RM).
    - intros D. split; apply t_shared; auto; [apply AV|apply AW|]. intros e L [A B].
      apply (N D (tw (abs m) e)); [apply W; auto|]. rewrite (wf_twtw W); auto.
    - exists m', e0, e1. split; auto. apply fits_room; auto.
      apply (spec_between_any Wm VW (or_intror (conj (attach_one W AV) (attach_one W AW))) E).
  Qed.

  Lemma spec_between_attachable c m v y0 w y1 m' e0 e1 : wf m -> v <> w ->
    attachable (abs m) v -> attachable (abs m) w ->
    insert_edge_between c m v y0 w y1 = Ok (m', e0, e1) ->
    wf m' /\ exists ci co, connected (abs m) (abs m') v w ci co e0 e1 y0 y1.
  Proof.
    intros Wm VW AV AW H. pose proof (proj2 (wf_abs Wm)) as W.
    destruct (spec_between_any Wm VW (or_intror (conj (attach_one W AV) (attach_one W AW))) H) as (A & B & _). auto.
  Qed.

  Lemma t_flip_edge m e : wf m -> lv (abs m) e = true -> exists m', flip_edge m e = Ok m'.
  Proof.
    intros Wm L. destruct (wf_abs Wm) as [R W].
    destruct (f_flip_edge (c := mkCfg (length (slots (edges m))) (length (slots (verts m))) (length (slots (faces m))) true)
        (a := 0) (b := 0) (d := 0) R W L) as (m2 & E & _); eauto.
    unfold room, spare. cbn. repeat split; auto; lia.
  Qed.

  (** [close_face_vertices] does what [close_face] does. *)
  Lemma spec_close_face_vertices c m p y1 from y2 to y cu m' f e1 e2 : wf m -> dbg c = true ->
    close_face_vertices c m p y1 from y2 to y cu = Ok (m', f, e1, e2) ->
    exists i o, lv (abs m) i = true /\ og (abs m) i = p /\ og (abs m) (tw (abs m) i) = from /\
      lv (abs m) o = true /\ og (abs m) (tw (abs m) o) = to /\ i <> o /\
      fc (abs m) i = None /\ fc (abs m) o = None /\
      (forall t, loop (abs m) (o :: t) -> exists x, In x (o :: t) /\ og (abs m) x = p) /\ wf m' /\
      exists g1, WF g1 /\ edge_inserted (abs m) g1 i o e1 e2 y1 y2 /\ face_added g1 (abs m') i f y cu.
  Proof.
    intros Wm D H. destruct (wf_abs Wm) as [R W].
    destruct (close_face_vertices_ok R W H) as (i & o & LI & OI & TI & LO & TO & FO & PP & H').
    destruct (spec_close_face Wm (or_introl D) H') as (Wm' & _ & _ & IO & FI & _ & G).
    exists i, o. do 8 (split; [assumption|]). split; [|split; assumption].
    intros t [_ C]. apply PP; auto.
  Qed.
End MT.
