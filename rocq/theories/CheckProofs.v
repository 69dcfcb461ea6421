(** Proofs about the checker, size hints and pair enumeration. *)
From Coq Require Import List Arith Lia Bool Permutation.
From Verif Require Import Base DVec DVecFacts Mesh Spec Rep Cycle Traverse MeshSpec MeshMore MeshProofs.
Import ListNotations.
Set Implicit Arguments.
Unset Strict Implicit.

Lemma none_found_true {A} (P : A -> res bool) l :
  none_found P l = Ok true <-> forall x, In x l -> P x = Ok false.
Proof.
  induction l as [|a l IH]; simpl; [split; auto; tauto|].
  destruct (P a) as [[]| |] eqn:E; cbn [bind]; split; intros H; try discriminate.
  - rewrite (H a) in E by auto. discriminate.
  - intros x [<-|I]; auto. apply IH; auto.
  - apply IH. auto.
  - rewrite (H a) in E by auto. discriminate.
  - rewrite (H a) in E by auto. discriminate.
Qed.

Lemma none_found_total {A} (P : A -> res bool) l : (forall x, In x l -> exists b, P x = Ok b) ->
  exists b, none_found P l = Ok b.
Proof.
  induction l as [|a l IH]; simpl; eauto. intros H. destruct (H a) as [b ->]; auto. cbn [bind].
  destruct b; eauto.
Qed.

Lemma chk_and (a b : res bool) :
  (let* x := a in if negb x then Ok false else b) = Ok true <-> a = Ok true /\ b = Ok true.
Proof. destruct a as [[]| |]; simpl; split; intros H; try discriminate; try (destruct H; discriminate); intuition. Qed.

Lemma oeqb_eq a b : oeqb a b = true <-> a = b.
Proof.
  destruct a, b; simpl; split; intros; try discriminate; auto.
  - apply Nat.eqb_eq in H. congruence.
  - injection H as ->. apply Nat.eqb_refl.
Qed.

Section Check.
  Context {VP EP FP : Type}.
  Variables (m : mesh VP EP FP).
  Notation g := (abs m).
  Hypothesis DE : dv_ok (edges m) [].
  Hypothesis DV : dv_ok (verts m) [].
  Hypothesis DF : dv_ok (faces m) [].

  Let R : rep m [] [] [] g.
  Proof. apply rep_abs; auto. Qed.

  Lemma in_iter_has (A : Type) (d : dvec A) i : dv_ok d [] -> (In i (map fst (d_iter d)) <-> d_has d i = true).
  Proof.
    intros OK. rewrite (iter_ids OK), filter_In, in_seq. split; [tauto|]. intros H. split; auto.
    unfold d_has in H. destruct (nth_error (slots d) i) eqn:E; [|discriminate].
    assert (i < length (slots d)) by (apply nth_error_Some; congruence). lia.
  Qed.
  Lemma in_edge_ids e : In e (edge_ids m) <-> lv g e = true.
  Proof. apply in_iter_has; auto. Qed.
  Lemma in_vertex_ids e : In e (vertex_ids m) <-> lvv g e = true.
  Proof. apply in_iter_has; auto. Qed.
  Lemma in_face_ids e : In e (face_ids m) <-> lvf g e = true.
  Proof. apply in_iter_has; auto. Qed.

  Definition links : Prop := forall e, lv g e = true ->
      lv g (nx g e) = true /\ lv g (pv g e) = true /\ pv g (nx g e) = e /\ nx g (pv g e) = e.

  Section Links.
    Hypothesis K : links.
    Let P x := lv g x = true.

    Lemma k_loop e : lv g e = true -> exists t, is_cycle (nx g) (e :: t) /\ length (e :: t) <= length (slots (edges m)).
    Proof.
      intros L. apply (@cycle_exists (nx g) P (length (slots (edges m)))); auto.
      - intros x Px. apply K; auto.
      - apply (r_bound R).
      - intros x y Px Py E. destruct (K Px) as (_ & _ & A & _). destruct (K Py) as (_ & _ & B & _). congruence.
    Qed.
    Lemma k_live e t x : is_cycle (nx g) (e :: t) -> lv g e = true -> In x (e :: t) -> lv g x = true.
    Proof.
      intros C L H. apply (cycle_reach x C) in H.
      eapply reach_inv with (P := P); [|apply L|apply H]. intros y Py; apply K; auto.
    Qed.
    Lemma k_len e t : is_cycle (nx g) (e :: t) -> lv g e = true -> length (e :: t) <= fuel m.
    Proof.
      intros C L. destruct (k_loop L) as (t' & C' & B). unfold fuel.
      assert (length (e :: t) <= length (e :: t')); [|lia].
      apply NoDup_incl_length; [eapply cycle_nodup; eauto|]. intros x I. apply (cycle_set C C'). auto.
    Qed.
    Lemma k_next x : lv g x = true -> g_next m x = Ok (nx g x).
    Proof. intros L. rewrite (r_next R), L. destruct (K L) as (-> & _). reflexivity. Qed.
    Lemma k_prev x : lv g x = true -> g_prev m x = Ok (pv g x).
    Proof. intros L. rewrite (r_prev R), L. destruct (K L) as (_ & -> & _). reflexivity. Qed.
    Lemma k_edges_face e t : is_cycle (nx g) (e :: t) -> lv g e = true -> edges_face m e = Ok (e :: t).
    Proof.
      intros C L. unfold edges_face. rewrite (r_chk R), L.
      apply walk_collect with (f := nx g); auto.
      - intros y Hy. apply k_next. eapply k_live; eauto.
      - eapply k_len; eauto.
    Qed.
    Lemma k_same_face e t v : is_cycle (nx g) (e :: t) -> lv g e = true ->
      same_face m e v = Ok (existsb (fun x => og g x =? v) (e :: t)).
    Proof.
      intros C L. unfold same_face. rewrite (r_chk R), L.
      rewrite walk_find with (f := nx g) (p := fun x => og g x =? v) (t := t); auto.
      - cbn [bind]. rewrite find_existsb. reflexivity.
      - intros y Hy. apply k_next. eapply k_live; eauto.
      - intros y Hy. rewrite (r_origin_id R), (k_live C L Hy). reflexivity.
      - eapply k_len; eauto.
    Qed.
    Lemma k_same_face_back e t v : is_cycle (nx g) (e :: t) -> lv g e = true ->
      same_face_back m e v = Ok (existsb (fun x => og g x =? v) (e :: rev t)).
    Proof.
      intros C L. unfold same_face_back. rewrite (r_chk R), L.
      assert (B : is_cycle (pv g) (e :: rev t)).
      { apply cycle_inverse with (f := nx g); auto. intros y Hy. apply K. eapply k_live; eauto. }
      assert (LL : forall y, In y (e :: rev t) -> P y).
      { intros y Hy. eapply k_live; eauto. simpl in *. rewrite <- in_rev in Hy. auto. }
      rewrite walk_find with (f := pv g) (p := fun x => og g x =? v) (t := rev t); auto.
      - cbn [bind]. rewrite find_existsb. reflexivity.
      - intros y Hy. apply k_prev. apply LL; auto.
      - intros y Hy. rewrite (r_origin_id R), (LL y Hy). reflexivity.
      - simpl. rewrite rev_length. apply (k_len C L).
    Qed.

    Lemma k_are_loops : (forall e, lv g e = true -> og g (nx g e) = og g (tw g e)) ->
      check_edges_are_loops m = Ok true.
    Proof.
      intros T. unfold check_edges_are_loops. apply chk_and. split; apply none_found_true; intros e I; apply in_edge_ids in I.
      - rewrite (k_next I), (r_origin_id R), I. cbn [bind].
        destruct (K I) as (L1 & L2 & E1 & E2). destruct (k_loop L1) as (t & C & _).
        rewrite (k_same_face _ C L1). cbn [bind]. replace (existsb _ _) with true; auto.
        symmetry. apply existsb_exists. exists e. split; [|apply Nat.eqb_refl].
        destruct (k_loop I) as (t' & C' & _).
        assert (X : In (nx g e) (e :: t')) by (apply (cycle_reach _ C'), reach_one).
        apply (cycle_same C' C (x := nx g e)); auto; left; auto.
      - rewrite (k_prev I), (r_target R), I. destruct (K I) as (L1 & L2 & E1 & E2). rewrite L1. cbn [bind andb].
        destruct (k_loop L2) as (t & C & _).
        rewrite (k_same_face_back _ C L2). cbn [bind]. replace (existsb _ _) with true; auto.
        symmetry. apply existsb_exists. exists (nx g e). split; [|apply Nat.eqb_refl].
        assert (X : In (nx g e) (pv g e :: t)).
        { apply (cycle_reach _ C). rewrite <- E2 at 2. apply reach_step, reach_one. }
        destruct X as [X|X]; [left; auto|right; apply in_rev in X; auto].
    Qed.
  End Links.

  Ltac ifs H := repeat match type of H with context [if ?b then _ else _] =>
    let E := fresh "E" in destruct b eqn:E; cbn [bind] in H; try discriminate H end.

  Lemma neg_eqb a b : Ok (negb (a =? b)) = Ok false <-> a = b.
  Proof.
    destruct (Nat.eqb_spec a b); simpl; split; intros; auto; try discriminate; congruence.
  Qed.

  Theorem check_iff : check m = Ok true <-> doc_inv g.
  Proof.
    unfold check. rewrite !chk_and. unfold check_edge_invariants. rewrite !chk_and.
    unfold check_face_invariants, check_vertex_invariants, check_faces_nondegenerate, check_edges_have_face.
    split.
    - intros ((H1 & H2 & H3 & H4) & H5 & H6 & _ & H7 & H8).
      rewrite none_found_true in H1, H2, H3, H4, H5, H6, H7, H8.
      setoid_rewrite in_edge_ids in H1. setoid_rewrite in_edge_ids in H2. setoid_rewrite in_edge_ids in H3.
      setoid_rewrite in_edge_ids in H4. setoid_rewrite in_edge_ids in H8.
      setoid_rewrite in_face_ids in H5. setoid_rewrite in_vertex_ids in H6. setoid_rewrite in_face_ids in H7.
      assert (T : forall e, lv g e = true -> lv g (tw g e) = true /\ tw g (tw g e) = e).
      { intros e L. specialize (H1 e L). rewrite (r_twin R), L in H1. cbn [andb] in H1.
        destruct (lv g (tw g e)) eqn:LT; [|discriminate H1]. cbn [bind] in H1.
        rewrite (r_twin_id R), LT in H1. cbn [bind] in H1. apply neg_eqb in H1. auto. }
      assert (K : links).
      { intros e L. specialize (H2 e L). rewrite (r_next R), L in H2. cbn [andb] in H2.
        destruct (lv g (nx g e)) eqn:LN; [|discriminate H2]. cbn [bind] in H2.
        rewrite (r_prev R), LN in H2. cbn [andb] in H2.
        destruct (lv g (pv g (nx g e))) eqn:LP; [|discriminate H2]. cbn [bind] in H2.
        destruct (Nat.eqb_spec (pv g (nx g e)) e); [|discriminate H2]. cbn [negb] in H2.
        rewrite (r_prev R), L in H2. cbn [andb] in H2.
        destruct (lv g (pv g e)) eqn:LQ; [|discriminate H2]. cbn [bind] in H2.
        rewrite (r_next_id R), LQ in H2. cbn [bind] in H2. apply neg_eqb in H2. auto. }
      split; auto.
      + intros e L. specialize (H3 e L). destruct (K e L) as (LN & _).
        unfold g_face in H3. rewrite (r_face_id R), L in H3. cbn [bind] in H3.
        assert (GF : forall e x, g_face m e = Ok x -> x = fc g e /\ forall f, fc g e = Some f -> lvf g f = true).
        { clear - R. intros e x. unfold g_face. rewrite (r_face_id R). destruct (lv g e); cbn [bind]; [|discriminate].
          destruct (fc g e) as [f|]; [|intros [= <-]; split; auto; discriminate].
          intros H. destruct (lvf g f) eqn:LF.
          - destruct (r_face_live R _ LF) as (y & E & _). rewrite E in H. cbn in H. injection H as <-. split; auto.
            intros f' [= <-]; auto.
          - rewrite (r_face_dead R _ LF) in H. discriminate. }
        apply bind_ok in H3 as (x & G1 & H3). apply bind_ok in H3 as (n & N & H3). apply bind_ok in H3 as (y & G2 & H3).
        rewrite (k_next K L) in N. injection N as <-. destruct (GF _ _ G2) as [-> _].
        assert (G1' : g_face m e = Ok x) by (unfold g_face; rewrite (r_face_id R), L; exact G1).
        destruct (GF _ _ G1') as [-> LF]. split; auto.
        injection H3 as H3. apply negb_false_iff, oeqb_eq in H3. auto.
      + intros e L. specialize (H4 e L). destruct (K e L) as (LN & _). destruct (T e L) as [LT _].
        rewrite (k_next K L) in H4. cbn [bind] in H4. rewrite (r_origin_id R), LN, (r_twin R), L, LT in H4.
        cbn [bind andb] in H4. rewrite (r_origin_id R), LT in H4. cbn [bind] in H4.
        destruct (Nat.eqb_spec (og g (nx g e)) (og g (tw g e))); auto; discriminate.
      + intros v e L V. specialize (H6 v L). rewrite (r_vedge R), L, V in H6. destruct (lv g e) eqn:LE; [|discriminate].
        cbn [bind] in H6. rewrite (r_origin_id R), LE in H6. cbn [bind] in H6. apply neg_eqb in H6. auto.
      + intros f L. specialize (H5 f L). destruct (r_face_live R _ L) as (x & E & FE & _). rewrite E in H5. cbn [bind] in H5.
        rewrite <- FE in H5. destruct (lv g (fe g f)) eqn:LE.
        * destruct (r_edge_live R _ LE) as (y & EY & _ & _ & _ & _ & FY & _). rewrite EY in H5. cbn [bind] in H5.
          rewrite <- FY in H5. injection H5 as H5. apply negb_false_iff, oeqb_eq in H5. auto.
        * rewrite (r_edge_dead R _ LE) in H5. discriminate.
      + intros f l L [LL C]. specialize (H7 f L). destruct (r_face_live R _ L) as (x & E & FE & _).
        unfold face_edges in H7. rewrite E in H7. cbn [bind] in H7. rewrite <- FE in H7.
        rewrite (k_edges_face K C) in H7 by (apply LL; left; auto). cbn [bind] in H7. injection H7 as H7.
        apply Nat.ltb_ge in H7. auto.
      + intros e L. specialize (H8 e L). destruct (T e L) as [LT _]. rewrite (r_boundary R), L in H8. cbn [bind] in H8.
        destruct (fc g e) eqn:F; [left; congruence|]. cbn [is_none] in H8. right.
        rewrite (r_twin R), L, LT in H8. cbn [bind andb] in H8. rewrite (r_boundary R), LT in H8. injection H8 as H8.
        apply is_none_false; auto.
    - intros D. assert (K : links) by exact (di_links D).
      assert (GF : forall e, lv g e = true -> g_face m e = Ok (fc g e)).
      { intros e L. unfold g_face. rewrite (r_face_id R), L. cbn [bind]. destruct (fc g e) as [f|] eqn:F; auto.
        destruct (r_face_live R f) as (y & -> & _); auto. apply (di_face D L); auto. }
      split; [split; [|split; [|split]]|split; [|split; [|split; [|split]]]];
        try (apply k_are_loops; auto; apply D); apply none_found_true; try (intros e I; apply in_edge_ids in I as L).
      + destruct (di_twin D L) as [LT E]. rewrite (r_twin R), L, LT. cbn [bind andb].
        rewrite (r_twin_id R), LT. cbn [bind]. rewrite E, Nat.eqb_refl. auto.
      + destruct (K e L) as (LN & LP & E1 & E2). rewrite (k_next K L). cbn [bind]. rewrite (k_prev K LN). cbn [bind].
        rewrite E1, Nat.eqb_refl. cbn [negb]. rewrite (k_prev K L). cbn [bind]. rewrite (r_next_id R), LP. cbn [bind].
        rewrite E2, Nat.eqb_refl. auto.
      + destruct (K e L) as (LN & _). rewrite (GF _ L). cbn [bind]. rewrite (k_next K L). cbn [bind]. rewrite (GF _ LN). cbn [bind].
        destruct (di_face D L) as [-> _]. replace (oeqb _ _) with true; auto. symmetry. apply oeqb_eq; auto.
      + destruct (K e L) as (LN & _). destruct (di_twin D L) as [LT _].
        rewrite (k_next K L). cbn [bind]. rewrite (r_origin_id R), LN, (r_twin R), L, LT. cbn [bind andb].
        rewrite !(r_origin_id R), LT. cbn [bind]. rewrite (di_target D L), Nat.eqb_refl. cbn [negb].
        rewrite (r_target R), L, LN. cbn [bind andb]. rewrite (di_target D L), Nat.eqb_refl. auto.
      + intros f I. apply in_face_ids in I as L.
        destruct (r_face_live R _ L) as (x & E & FE & _). rewrite E. cbn [bind]. rewrite <- FE.
        destruct (di_frep D L) as [LE FC]. destruct (r_edge_live R _ LE) as (y & EY & _ & _ & _ & _ & FY & _).
        rewrite EY. cbn [bind]. rewrite <- FY, FC. cbn. rewrite Nat.eqb_refl. auto.
      + intros v I. apply in_vertex_ids in I as L. rewrite (r_vedge R), L. destruct (ve g v) as [e|] eqn:V; auto.
        destruct (di_vertex D L V) as [LE O]. rewrite LE. cbn [bind]. rewrite (r_origin_id R), LE. cbn [bind].
        rewrite O, Nat.eqb_refl. auto.
      + intros f I. apply in_face_ids in I as L. unfold face_edges. destruct (r_face_live R _ L) as (x & E & FE & _).
        rewrite E. cbn [bind]. rewrite <- FE. destruct (di_frep D L) as [LE FC]. destruct (k_loop K LE) as (t & C & _).
        rewrite (k_edges_face K C LE). cbn [bind]. f_equal. apply Nat.ltb_ge. apply (di_size D L). split; auto.
        intros y. apply (k_live K C LE).
      + destruct (di_twin D L) as [LT _]. rewrite (r_boundary R), L. cbn [bind]. destruct (fc g e) as [f|] eqn:F; auto. cbn [is_none].
        rewrite (r_twin R), L, LT. cbn [bind andb]. rewrite (r_boundary R), LT. f_equal. apply is_none_false.
        destruct (di_sides D L); auto; congruence.
  Qed.

  (** termination *)
  Ltac nd := repeat match goal with
    | |- context [if ?b then _ else _] => destruct b eqn:?; cbn [bind]; try discriminate
    | |- context [match ?b with Some _ => _ | None => _ end] => destruct b eqn:?; cbn [bind]; try discriminate
    end.
  Lemma nd_bind (A B : Type) (x : res A) (k : A -> res B) : x <> Diverge -> (forall a, x = Ok a -> k a <> Diverge) ->
    bind x k <> Diverge.
  Proof. destruct x; simpl; auto. congruence. Qed.
  Lemma nd_found (A : Type) (P : A -> res bool) l : (forall x, In x l -> P x <> Diverge) -> none_found P l <> Diverge.
  Proof.
    induction l as [|a l IH]; simpl; intros H; [discriminate|]. apply nd_bind; auto.
    intros [] _; [discriminate|]. apply IH. auto.
  Qed.
  Lemma nd_next e : g_next m e <> Diverge. Proof. rewrite (r_next R). nd. Qed.
  Lemma nd_prev e : g_prev m e <> Diverge. Proof. rewrite (r_prev R). nd. Qed.
  Lemma nd_twin e : g_twin m e <> Diverge. Proof. rewrite (r_twin R). nd. Qed.
  Lemma nd_next_id e : next_id m e <> Diverge. Proof. rewrite (r_next_id R). nd. Qed.
  Lemma nd_twin_id e : twin_id m e <> Diverge. Proof. rewrite (r_twin_id R). nd. Qed.
  Lemma nd_origin_id e : origin_id m e <> Diverge. Proof. rewrite (r_origin_id R). nd. Qed.
  Lemma nd_target_id e : target_id m e <> Diverge. Proof. rewrite (r_target R). nd. Qed.
  Lemma nd_bself e : is_boundary_self m e <> Diverge. Proof. rewrite (r_boundary R). nd. Qed.
  Lemma nd_get (A : Type) (d : dvec A) e : d_get d e <> Diverge.
  Proof. rewrite get_look. destruct (look d e); discriminate. Qed.
  Lemma nd_face e : g_face m e <> Diverge.
  Proof.
    unfold g_face. rewrite (r_face_id R). destruct (lv g e); cbn [bind]; [|discriminate].
    destruct (fc g e); [|discriminate]. apply nd_bind; [apply nd_get|discriminate].
  Qed.
  Lemma nd_vedge v : v_edge_get m v <> Diverge.
  Proof. rewrite (r_vedge R). nd. Qed.
  Ltac nds := repeat first [discriminate | apply nd_next | apply nd_prev | apply nd_twin | apply nd_next_id |
    apply nd_twin_id | apply nd_origin_id | apply nd_target_id | apply nd_bself | apply nd_get | apply nd_face |
    apply nd_vedge | apply nd_found; intros ? ?
    | apply nd_bind; [|intros ? ?]
    | match goal with |- context [if ?b then _ else _] => destruct b end
    | match goal with |- context [match ?b with Some _ => _ | None => _ end] => destruct b end].

  Lemma check_edge_links : check_edge_invariants m = Ok true -> links.
  Proof.
    unfold check_edge_invariants. rewrite !chk_and. intros (_ & H2 & _) e L.
    rewrite none_found_true in H2. specialize (H2 e (proj2 (in_edge_ids e) L)).
    rewrite (r_next R), L in H2. cbn [andb] in H2.
    destruct (lv g (nx g e)) eqn:LN; [|discriminate H2]. cbn [bind] in H2.
    rewrite (r_prev R), LN in H2. cbn [andb] in H2.
    destruct (lv g (pv g (nx g e))) eqn:LP; [|discriminate H2]. cbn [bind] in H2.
    destruct (Nat.eqb_spec (pv g (nx g e)) e); [|discriminate H2]. cbn [negb] in H2.
    rewrite (r_prev R), L in H2. cbn [andb] in H2.
    destruct (lv g (pv g e)) eqn:LQ; [|discriminate H2]. cbn [bind] in H2.
    rewrite (r_next_id R), LQ in H2. cbn [bind] in H2. apply neg_eqb in H2. auto.
  Qed.

  Theorem check_terminates : check m <> Diverge.
  Proof.
    unfold check. apply nd_bind; [unfold check_edge_invariants; nds|]. intros a E. destruct a; [|discriminate]. cbn [negb].
    pose proof (check_edge_links E) as K. clear E.
    apply nd_bind; [unfold check_face_invariants; nds; try apply nd_get|]. intros a _. destruct a; [|discriminate]. cbn [negb].
    apply nd_bind; [unfold check_vertex_invariants; nds|]. intros a _. destruct a; [|discriminate]. cbn [negb].
    apply nd_bind.
    { unfold check_edges_are_loops. apply nd_bind.
      - apply nd_found. intros e _. apply nd_bind; [nds|]. intros n _. apply nd_bind; [nds|]. intros o _.
        apply nd_bind; [|discriminate]. destruct (lv g n) eqn:L.
        + destruct (k_loop K L) as (t & C & _). rewrite (k_same_face K _ C L). discriminate.
        + unfold same_face. rewrite (r_chk R), L. discriminate.
      - intros a _. destruct a; [|discriminate]. cbn [negb].
        apply nd_found. intros e _. apply nd_bind; [nds|]. intros n _. apply nd_bind; [nds|]. intros o _.
        apply nd_bind; [|discriminate]. destruct (lv g n) eqn:L.
        + destruct (k_loop K L) as (t & C & _). rewrite (k_same_face_back K _ C L). discriminate.
        + unfold same_face_back. rewrite (r_chk R), L. discriminate. }
    intros a _. destruct a; [|discriminate]. cbn [negb].
    apply nd_bind.
    { apply nd_found. intros f _. apply nd_bind; [|discriminate]. unfold face_edges. apply nd_bind; [apply nd_get|].
      intros x _. destruct (lv g (f_edge x)) eqn:L.
      + destruct (k_loop K L) as (t & C & _). rewrite (k_edges_face K C L). discriminate.
      + unfold edges_face. rewrite (r_chk R), L. discriminate. }
    intros a _. destruct a; [|discriminate]. cbn [negb]. unfold check_edges_have_face. nds.
  Qed.
End Check.

Section CheckWf.
  Context {VP EP FP : Type}.
  Implicit Types m : mesh VP EP FP.

  Lemma wf_doc_inv m : wf m ->
    (forall f l, lvf (abs m) f = true -> loop (abs m) (fe (abs m) f :: l) -> 3 <= length (fe (abs m) f :: l)) ->
    (forall e, lv (abs m) e = true -> fc (abs m) e <> None \/ fc (abs m) (tw (abs m) e) <> None) ->
    doc_inv (abs m).
  Proof.
    intros (_ & _ & _ & W) H3 HS. split; auto.
    - intros e L. split; apply W; auto.
    - intros e L. do 3 (split; [apply W; auto|]). apply W; auto.
    - intros e L. split; [apply W; auto|]. intros f F. eapply wf_fc; eauto.
    - intros e L. apply W; auto.
    - intros v e L V. eapply wf_ve; eauto.
    - intros f L. apply W; auto.
  Qed.

  (** On consistent meshes the checker gives a definite answer. *)
  Lemma check_wf m : wf m -> exists b, check m = Ok b.
  Proof.
    intros Wm. destruct (wf_abs Wm) as [R W]. destruct Wm as (DE & DV & DF & _).
    set (g := abs m) in *.
    assert (K : links m).
    { intros e L. do 3 (split; [apply W; auto|]). apply W; auto. }
    assert (AND : forall a b : res bool, (exists x, a = Ok x) -> (exists x, b = Ok x) ->
      exists x, (let* x := a in if negb x then Ok false else b) = Ok x).
    { intros a b [x ->] [y ->]. destruct x; cbn; eauto. }
    assert (GF : forall e, lv g e = true -> g_face m e = Ok (fc g e)).
    { intros e L. unfold g_face. rewrite (r_face_id R), L. cbn [bind]. destruct (fc g e) as [f|] eqn:F; auto.
      destruct (r_face_live R f) as (y & -> & _); auto. eapply wf_fc; eauto. }
    unfold check. apply AND; [|apply AND; [|apply AND; [|apply AND; [|apply AND]]]].
    - unfold check_edge_invariants. apply AND; [|apply AND; [|apply AND]]; apply none_found_total; intros e I; apply (in_edge_ids DE) in I; fold g in I.
      + rewrite (twin_step R W I). cbn [bind]. rewrite (r_twin_id R), (wf_tw W e I). cbn [bind]. eauto.
      + rewrite (next_step R W I). cbn [bind]. rewrite (prev_step R W (wf_nx W e I)). cbn [bind].
        destruct (negb _); eauto. rewrite (prev_step R W I). cbn [bind]. rewrite (r_next_id R), (wf_pv W e I). cbn [bind]. eauto.
      + rewrite (GF _ I). cbn [bind]. rewrite (next_step R W I). cbn [bind]. rewrite (GF _ (wf_nx W e I)). cbn [bind]. eauto.
      + rewrite (next_step R W I). cbn [bind]. rewrite (r_origin_id R), (wf_nx W e I). cbn [bind].
        rewrite (twin_step R W I). cbn [bind]. rewrite (r_origin_id R), (wf_tw W e I). cbn [bind].
        destruct (negb _); eauto. rewrite (target_step R W I). cbn [bind]. eauto.
    - apply none_found_total. intros f I. apply (in_face_ids DF) in I. fold g in I.
      destruct (r_face_live R _ I) as (x & -> & FE & _). cbn [bind]. rewrite <- FE.
      destruct (wf_fe W _ I) as [LE _]. destruct (r_edge_live R _ LE) as (y & -> & _). cbn [bind]. eauto.
    - apply none_found_total. intros v I. apply (in_vertex_ids DV) in I. fold g in I.
      rewrite (r_vedge R), I. destruct (ve g v) as [e|] eqn:V; cbn [bind]; eauto.
      destruct (wf_ve W _ I V) as [LE _]. rewrite LE. cbn [bind]. rewrite (r_origin_id R), LE. cbn [bind]. eauto.
    - exists true. apply k_are_loops; auto. intros; apply W; auto.
    - apply none_found_total. intros f I. apply (in_face_ids DF) in I. fold g in I. unfold face_edges.
      destruct (r_face_live R _ I) as (x & -> & FE & _). cbn [bind]. rewrite <- FE.
      destruct (wf_fe W _ I) as [LE _]. destruct (loop_exists R W LE) as (t & C). rewrite (edges_face_ok R W C LE). cbn [bind]. eauto.
    - apply none_found_total. intros e I. apply (in_edge_ids DE) in I; fold g in I. rewrite (r_boundary R), I. cbn [bind].
      destruct (is_none _); eauto. rewrite (twin_step R W I). cbn [bind]. rewrite (r_boundary R), (wf_tw W e I). eauto.
  Qed.
End CheckWf.
