(** Closing faces by an extra edge. *)
From Coq Require Import List Arith Lia Bool.
From Verif Require Import Base DVec DVecFacts Mesh Spec Rep Splice Cycle Traverse Room Ops Ops2 Ops3.
Import ListNotations.
Set Implicit Arguments.
Unset Strict Implicit.

Section Ops.
  Context {VP EP FP : Type}.
  Notation mesh := (mesh VP EP FP).
  Notation graph := (graph VP EP FP).
  Implicit Types (g : graph) (m : mesh) (c : cfg).

  (** The graph without its faces. *)
  Definition erase g : graph :=
    mkG (lv g) (nx g) (pv g) (tw g) (og g) (fun _ => None) (ep g) (lvv g) (ve g) (vp g)
        (fun _ => false) (fe g) (fp g).
  Lemma erase_WF g : WF g -> WF (erase g).
  Proof. intros W. split; cbn; try apply W; intros; auto; discriminate. Qed.

  (** In debug builds [insert_edge] rejects [inside = outside]. *)
  Lemma insert_edge_ne c m g i o y1 y2 r :
    rep m [] [] [] g -> WF g -> dbg c = true -> insert_edge c m i y1 o y2 = Ok r -> i <> o.
  Proof.
    intros R W DB H <-. unfold insert_edge in H. rewrite !(r_chk R) in H.
    destruct (lv g i) eqn:Li; [|discriminate].
    rewrite !(r_gtarget R), !(r_next R), Li, (wf_nx W i Li) in H. cbn [andb bind] in H.
    rewrite (wf_og W _ (wf_nx W i Li)) in H. cbn [bind] in H.
    apply dassert_ok in H as [D1 H]. apply dassert_ok in H as [D2 H].
    apply bind_ok in H as (((m1 & e1') & e2') & H1 & H). apply bind_ok in H as (m2 & H2 & H).
    unfold insert_edge_no_update in H1. do 8 (apply dassert_ok in H1 as [_ H1]).
    destruct (w_insert_pair R H1) as (E1 & E2 & NE & R1). pose proof (relink_ok R1 H2) as R2.
    apply dassert_ok in H as [D H]. specialize (D DB).
    rewrite (r_prev R2) in D. cbn -[Nat.eqb] in D. unfold fu in D.
    rewrite !(proj2 (Nat.eqb_neq _ _) NE), !Nat.eqb_refl in D.
    pose proof (wf_nx W i Li).
    replace (e1' =? nx g i) with false in D by (symmetry; apply Nat.eqb_neq; congruence).
    replace (i =? e2') with false in D by (symmetry; apply Nat.eqb_neq; congruence).
    replace (i =? e1') with false in D by (symmetry; apply Nat.eqb_neq; congruence).
    rewrite Li in D. cbn [andb bind] in D.
    rewrite (r_next_id R2) in D. cbn -[Nat.eqb] in D. unfold fu in D.
    replace (i =? e2') with false in D by (symmetry; apply Nat.eqb_neq; congruence).
    replace (i =? e1') with false in D by (symmetry; apply Nat.eqb_neq; congruence).
    rewrite Li, Nat.eqb_refl in D. cbn [bind] in D.
    replace (e2' =? e1') with false in D by (symmetry; apply Nat.eqb_neq; congruence).
    discriminate.
  Qed.

  (** [close_face], src/halfedge/mesh/builder/halfedge.rs:247-267 *)
  Lemma close_face_ok c m g i o y1 y2 y cu m' f e1 e2 :
    rep m [] [] [] g -> WF g ->
    (dbg c = true \/ (i <> o /\ fc g i = None /\ fc g o = None)) ->
    close_face c m i y1 o y2 y cu = Ok (m', f, e1, e2) ->
    lv g i = true /\ lv g o = true /\ i <> o /\ fc g i = None /\ fc g o = None /\
    lv g e1 = false /\ lv g e2 = false /\ e1 <> e2 /\ lvf g f = false /\
    (exists t, is_cycle (nx (ins_edge i o e1 e2 y1 y2 g)) (i :: t) /\
      rep m' [] [] [] (add_face f i (cu, y) (i :: t) (ins_edge i o e1 e2 y1 y2 g)) /\
      WF (add_face f i (cu, y) (i :: t) (ins_edge i o e1 e2 y1 y2 g))) /\
    (dbg c = true -> same_face_back m i (og g (nx g o)) = Ok true /\
       same_face_back m o (og g (nx g i)) = Ok true /\
       shared_edge c m (og g (nx g i)) (og g (nx g o)) = Ok None /\
       shared_edge c m (og g (nx g o)) (og g (nx g i)) = Ok None).
  Proof.
    intros R W U H. unfold close_face in H.
    apply bind_ok in H as (((m1 & e1') & e2') & H1 & H).
    apply bind_ok in H as ((m2 & f') & H2 & H). injection H as <- <- <- <-.
    assert (NE : i <> o). { destruct U as [DB|[? _]]; auto. eapply insert_edge_ne; eauto. }
    destruct (insert_edge_ok R W NE H1) as (Li & Lo & D1 & D2 & N12 & R1 & DD).
    assert (WE : WF (ins_edge i o e1' e2' y1 y2 (erase g))).
    { apply ins_edge_WF; cbn; auto. apply erase_WF; auto. }
    assert (RE : exists t, is_cycle (nx (ins_edge i o e1' e2' y1 y2 g)) (i :: t)).
    { change (nx (ins_edge i o e1' e2' y1 y2 g)) with (nx (ins_edge i o e1' e2' y1 y2 (erase g))).
      destruct (@cycle_exists (nx (ins_edge i o e1' e2' y1 y2 (erase g)))
        (fun x => lv (ins_edge i o e1' e2' y1 y2 g) x = true) (length (slots (edges m1)))) with (x := i) as (t & C & _); eauto.
      - intros x; apply (wf_nx WE). - apply (r_bound R1). - intros x z; apply (nx_inj WE).
      - cbn. unfold fu. eqcase. }
    destruct RE as [t C].
    assert (FN : fc g i = None /\ fc g o = None).
    { destruct U as [DB|(_ & F1 & F2)]; auto.
      unfold close_hole in H2. apply bind_ok in H2 as ((m3 & f3) & H3 & H2).
      destruct (w_push_face R1 H3) as (D & _ & R3). rewrite (r_chk R3) in H2.
      destruct (lv _ i) in H2; [|discriminate].
      apply bind_ok in H2 as (m4 & H4 & H2).
      pose proof C as C'. rewrite is_cycle_cons in C'. destruct C' as (ND & CH & LA).
      destruct (@set_face_loop_ok _ _ _ c m3 [] [] [] _ f3 i i t (fuel m3) m4 R3) as [_ FN]; auto.
      { inversion ND; auto. }
      specialize (FN DB ND).
      pose proof (@ins_edge_facts _ _ _ g i o e1' e2' y1 y2 W Li Lo NE D1 D2 N12) as (F1 & F2 & FL).
      cbv zeta in *. destruct F1 as (_ & _ & F4 & F5 & _).
      assert (I1 : In e1' (i :: t)). { rewrite <- F5. eapply cycle_closed; eauto. left; auto. }
      assert (I2 : In (nx g o) (i :: t)). { rewrite <- F4. eapply cycle_closed; eauto. }
      pose proof (FN i (or_introl eq_refl)) as Q1. pose proof (FN _ I2) as Q2.
      pose proof (wf_nx W o Lo) as Lno.
      cbn -[Nat.eqb] in Q1, Q2. rewrite <- (wf_fcnx W o Lo).
      revert Q1 Q2. eqcase. }
    destruct FN as [Fi Fo].
    assert (W1 : WF (ins_edge i o e1' e2' y1 y2 g)) by (apply ins_edge_WF; auto).
    destruct (close_hole_ok R1 W1 C H2) as (L1 & DF & _ & R2).
    repeat (split; auto). exists t. split; auto. split; auto.
    apply add_face_WF; auto. cbn -[Nat.eqb]. eqcase.
  Qed.

  Lemma f_close_face c m g i o y1 y2 y cu a b d :
    rep m [] [] [] g -> WF g -> i <> o -> room c m (2 + a) b (S d) ->
    lv g i = true -> lv g o = true -> fc g i = None -> fc g o = None ->
    (dbg c = true -> same_face_back m i (og g (nx g o)) = Ok true /\
       same_face_back m o (og g (nx g i)) = Ok true /\
       shared_edge c m (og g (nx g i)) (og g (nx g o)) = Ok None /\
       shared_edge c m (og g (nx g o)) (og g (nx g i)) = Ok None) ->
    exists m' f e1 e2, close_face c m i y1 o y2 y cu = Ok (m', f, e1, e2) /\ room c m' a b d.
  Proof.
    intros R W NE RM Li Lo Fi Fo DD. unfold close_face.
    destruct (@f_insert_edge _ _ _ c m g i o y1 y2 a b (S d) R W NE RM Li Lo DD) as (m1 & e1 & e2 & E & RM1).
    rewrite E. cbn [bind].
    destruct (insert_edge_ok R W NE E) as (_ & _ & D1 & D2 & N12 & R1 & _).
    assert (W1 : WF (ins_edge i o e1 e2 y1 y2 g)) by (apply ins_edge_WF; auto).
    destruct (@f_close_hole _ _ _ c m1 _ i y cu a b d R1 W1 RM1) as (m2 & f & -> & RM2).
    { cbn. unfold fu. eqcase. } { intros _. cbn -[Nat.eqb]. eqcase. }
    cbn [bind]. do 4 eexists. eauto.
  Qed.

  Lemma mapM_inv {A B} (f : A -> res B) l bs : mapM f l = Ok bs ->
    forall x, In x l -> exists b, f x = Ok b.
  Proof.
    revert bs. induction l as [|a l IH]; cbn; intros bs H x Hx; [destruct Hx|].
    apply bind_ok in H as (b & H1 & H). apply bind_ok in H as (bs' & H2 & H).
    destruct Hx as [<-|Hx]; eauto.
  Qed.

  (** [close_face_vertices], src/halfedge/mesh/builder/halfedge.rs:269-302 *)
  Lemma close_face_vertices_ok c m g pr y1 from y2 to y cu m' f e1 e2 :
    rep m [] [] [] g -> WF g ->
    close_face_vertices c m pr y1 from y2 to y cu = Ok (m', f, e1, e2) ->
    exists i o, lv g i = true /\ og g i = pr /\ og g (tw g i) = from /\
      lv g o = true /\ og g (tw g o) = to /\ fc g o = None /\
      (forall t, is_cycle (nx g) (o :: t) -> exists x, In x (o :: t) /\ og g x = pr) /\
      close_face c m i y1 o y2 y cu = Ok (m', f, e1, e2).
  Proof.
    intros R W H. unfold close_face_vertices in H.
    apply bind_ok in H as (s & H1 & H). apply bind_ok in H as (i & H2 & H).
    apply unwrap_ok in H2. subst s. apply dassert_ok in H as [_ H].
    apply bind_ok in H as (r & H2 & H). apply bind_ok in H as (o & H3 & H). apply unwrap_ok in H3. subst r.
    destruct (lvv g pr) eqn:LP; [|erewrite shared_edge_dead in H1 by eauto; discriminate].
    destruct (@shared_edge_ok _ _ _ m [] [] [] g c R W pr from LP) as (oi & E & SP). rewrite E in H1. injection H1 as ->.
    destruct SP as (Li & Oi & Ti).
    destruct (lvv g to) eqn:LT.
    2:{ unfold edges_in_find, edges_out_find in H2. rewrite (r_vedge R), LT in H2. discriminate. }
    destruct (edges_in_ok c R W LT) as (l & OL & _ & EI & FI). pose proof (in_tw_out W OL) as IN.
    assert (GOOD : exists p, (forall x, In x (map (tw g) l) ->
      (let* b := is_boundary_self m x in if b then let* o := origin_id m i in same_face m x o else Ok false) = Ok (p x)) /\
      forall x, p x = true -> In x (map (tw g) l) -> fc g x = None /\ forall t, is_cycle (nx g) (x :: t) -> exists z, In z (x :: t) /\ og g z = pr).
    { exists (fun x => is_none (fc g x) && match same_face m x pr with Ok b => b | _ => false end). split.
      - intros x Hx. apply IN in Hx as [Lx _]. rewrite (r_boundary R), Lx. cbn [bind].
        destruct (is_none (fc g x)); auto. rewrite (r_origin_id R), Li, Oi. cbn [bind andb].
        destruct (loop_exists R W Lx) as [t C]. rewrite (find_og_ok R W _ C Lx). reflexivity.
      - intros x P Hx. apply IN in Hx as [Lx _]. apply andb_prop in P as [P1 P2].
        split; [apply is_none_true; auto|]. intros t C. rewrite (find_og_ok R W _ C Lx) in P2.
        apply existsb_exists in P2 as (z & Hz & Ez). apply Nat.eqb_eq in Ez. eauto. }
    destruct GOOD as (p & G1 & G2).
    rewrite (FI _ p) in H2 by exact G1. injection H2 as H2. apply find_in in H2 as [Io Po].
    destruct (G2 _ Po Io) as [Fo CY]. apply IN in Io as [Lo Oo].
    exists i, o. repeat (split; auto).
  Qed.
End Ops.
