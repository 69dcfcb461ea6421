(** Traversals and queries on consistent meshes. *)
From Coq Require Import List Arith Lia Bool.
From Verif Require Import Base DVec DVecFacts Mesh Spec Rep Cycle.
Import ListNotations.
Set Implicit Arguments.
Unset Strict Implicit.

Lemma is_none_true {A} (o : option A) : is_none o = true <-> o = None.
Proof. destruct o; simpl; split; congruence. Qed.
Lemma is_none_false {A} (o : option A) : is_none o = false <-> o <> None.
Proof. destruct o; simpl; split; congruence. Qed.

Lemma mapM_ok {A B} (f : A -> res B) (h : A -> B) l :
  (forall x, In x l -> f x = Ok (h x)) -> mapM f l = Ok (map h l).
Proof.
  induction l as [|a l IH]; simpl; intros H; auto.
  rewrite H by auto. simpl. rewrite IH by auto. reflexivity.
Qed.

Lemma filter_combine {A} (p : A -> bool) l :
  map fst (filter snd (combine l (map p l))) = filter p l.
Proof. induction l as [|a l IH]; simpl; auto. destruct (p a); simpl; congruence. Qed.

Lemma find_existsb {A} (p : A -> bool) l : negb (is_none (find p l)) = existsb p l.
Proof. induction l as [|a l IH]; simpl; auto. destruct (p a); auto. Qed.

Lemma find_in {A} (p : A -> bool) l x : find p l = Some x -> In x l /\ p x = true.
Proof. apply find_some. Qed.

Lemma find_map_tw {A B} (h : A -> B) (p : B -> bool) l :
  find p (map h l) = option_map h (find (fun x => p (h x)) l).
Proof. induction l as [|a l IH]; simpl; auto. destruct (p (h a)); auto. Qed.

Section Trav.
  Context {VP EP FP : Type}.
  Variables (m : mesh VP EP FP) (qe qv qf : list nat) (g : graph VP EP FP) (c : cfg).
  Hypothesis R : rep m qe qv qf g.
  Hypothesis W : WF g.

  Let P (x : nat) := lv g x = true.
  Let N := length (slots (edges m)).

  Lemma nx_inj x y : P x -> P y -> nx g x = nx g y -> x = y.
  Proof. unfold P. intros. rewrite <- (wf_pvnx W x), <- (wf_pvnx W y) by auto. congruence. Qed.
  Lemma tw_inj x y : P x -> P y -> tw g x = tw g y -> x = y.
  Proof. unfold P. intros. rewrite <- (wf_twtw W x), <- (wf_twtw W y) by auto. congruence. Qed.
  Lemma wheel_live x : P x -> P (wheel g x).
  Proof. unfold P, wheel. intros. apply W, W; auto. Qed.
  Lemma wheel_inj x y : P x -> P y -> wheel g x = wheel g y -> x = y.
  Proof.
    unfold wheel. intros. apply tw_inj; auto. apply nx_inj; auto; apply W; auto.
  Qed.
  Lemma wheel_og x : P x -> og g (wheel g x) = og g x.
  Proof.
    unfold P, wheel. intros. rewrite (wf_ognx W) by (apply W; auto). rewrite (wf_twtw W); auto.
  Qed.
  Lemma P_bound x : P x -> x < N.
  Proof. apply (r_bound R). Qed.

  Lemma live_list_length l : NoDup l -> (forall x, In x l -> P x) -> length l <= N.
  Proof.
    intros ND H. rewrite <- (seq_length N 0). apply NoDup_incl_length; auto.
    intros x Hx. apply in_seq. pose proof (P_bound (H x Hx)). lia.
  Qed.

  Lemma loop_exists e : lv g e = true -> exists t, is_cycle (nx g) (e :: t).
  Proof.
    intros L. destruct (@cycle_exists (nx g) P N) with (x := e) as (t & C & _); eauto.
    - intros; apply W; auto. - apply P_bound. - apply nx_inj.
  Qed.

  Lemma wheel_exists e : lv g e = true -> exists t, is_cycle (wheel g) (e :: t).
  Proof.
    intros L. destruct (@cycle_exists (wheel g) P N) with (x := e) as (t & C & _); eauto.
    - apply wheel_live. - apply P_bound. - apply wheel_inj.
  Qed.

  Lemma loop_live e t x : is_cycle (nx g) (e :: t) -> lv g e = true -> In x (e :: t) -> lv g x = true.
  Proof.
    intros C L H. apply (cycle_reach x C) in H.
    eapply reach_inv with (P := P); [|apply L|apply H]. intros; apply W; auto.
  Qed.

  Lemma wheel_list_live e t x : is_cycle (wheel g) (e :: t) -> lv g e = true -> In x (e :: t) ->
    lv g x = true /\ og g x = og g e.
  Proof.
    intros C L H. apply (cycle_reach x C) in H.
    eapply reach_inv with (P := fun x => P x /\ og g x = og g e); [|split; auto; apply L|apply H].
    intros y [Py Oy]. split; [apply wheel_live; auto|]. rewrite wheel_og; auto.
  Qed.

  Lemma loop_fc e t x : is_cycle (nx g) (e :: t) -> lv g e = true -> In x (e :: t) -> fc g x = fc g e.
  Proof.
    intros C L H. apply (cycle_reach x C) in H.
    assert (G : P x /\ fc g x = fc g e); [|apply G].
    eapply reach_inv with (P := fun x => P x /\ fc g x = fc g e); [|split; auto; apply L|apply H].
    intros y [Py Oy]. split; [apply W; auto|]. rewrite (wf_fcnx W); auto.
  Qed.

  Lemma next_step x : lv g x = true -> g_next m x = Ok (nx g x).
  Proof. intros L. rewrite (r_next R), L, (wf_nx W) by auto. reflexivity. Qed.
  Lemma prev_step x : lv g x = true -> g_prev m x = Ok (pv g x).
  Proof. intros L. rewrite (r_prev R), L, (wf_pv W) by auto. reflexivity. Qed.
  Lemma twin_step x : lv g x = true -> g_twin m x = Ok (tw g x).
  Proof. intros L. rewrite (r_twin R), L, (wf_tw W) by auto. reflexivity. Qed.
  Lemma target_step x : lv g x = true -> target_id m x = Ok (og g (tw g x)).
  Proof. intros L. rewrite (r_target R), L, (wf_nx W) by auto. simpl. rewrite (wf_ognx W); auto. Qed.

  Lemma wheel_step_ok first x : lv g x = true -> lv g first = true -> og g x = og g first ->
    wheel_step c m first x = Ok (wheel g x).
  Proof.
    intros L LF O. unfold wheel_step. rewrite twin_step by auto. simpl.
    rewrite next_step by (apply W; auto). simpl. unfold dassert.
    destruct (dbg c); auto. rewrite !(r_origin_id R).
    change (nx g (tw g x)) with (wheel g x). rewrite (wheel_live L). simpl.
    rewrite LF. simpl. rewrite wheel_og, O, Nat.eqb_refl by auto. reflexivity.
  Qed.

  Lemma cycle_fuel (l : list nat) : NoDup l -> (forall x, In x l -> P x) -> length l <= fuel m.
  Proof. intros. unfold fuel. fold N. pose proof (live_list_length H H0). lia. Qed.

  Lemma edges_face_ok e t : is_cycle (nx g) (e :: t) -> lv g e = true -> edges_face m e = Ok (e :: t).
  Proof.
    intros C L. unfold edges_face. rewrite (r_chk R), L.
    apply walk_collect with (f := nx g); auto.
    - intros y Hy. apply next_step. eapply loop_live; eauto.
    - apply cycle_fuel. { eapply cycle_nodup; eauto. } intros x Hx. eapply loop_live; eauto.
  Qed.

  Lemma back_cycle e t : is_cycle (nx g) (e :: t) -> lv g e = true -> is_cycle (pv g) (e :: rev t).
  Proof.
    intros C L. apply cycle_inverse with (f := nx g); auto.
    intros y Hy. apply W. eapply loop_live; eauto.
  Qed.

  Lemma edges_face_back_ok e t : is_cycle (nx g) (e :: t) -> lv g e = true ->
    edges_face_back m e = Ok (e :: rev t).
  Proof.
    intros C L. unfold edges_face_back. rewrite (r_chk R), L.
    pose proof (back_cycle C L) as B.
    assert (LL : forall y, In y (e :: rev t) -> P y).
    { intros y Hy. eapply loop_live; eauto. simpl in *. rewrite <- in_rev in Hy. auto. }
    apply walk_collect with (f := pv g); auto.
    - intros y Hy. apply prev_step. apply LL; auto.
    - apply cycle_fuel; auto. eapply cycle_nodup; eauto.
  Qed.

  Lemma find_og_ok e t v : is_cycle (nx g) (e :: t) -> lv g e = true ->
    same_face m e v = Ok (existsb (fun x => og g x =? v) (e :: t)).
  Proof.
    intros C L. unfold same_face. rewrite (r_chk R), L.
    rewrite walk_find with (f := nx g) (p := fun x => og g x =? v) (t := t); auto.
    - cbn [bind]. rewrite find_existsb. reflexivity.
    - intros y Hy. apply next_step. eapply loop_live; eauto.
    - intros y Hy. rewrite (r_origin_id R), (loop_live C L Hy). reflexivity.
    - apply cycle_fuel. { eapply cycle_nodup; eauto. } intros x Hx. eapply loop_live; eauto.
  Qed.

  Lemma find_og_back_ok e t v : is_cycle (nx g) (e :: t) -> lv g e = true ->
    same_face_back m e v = Ok (existsb (fun x => og g x =? v) (e :: rev t)).
  Proof.
    intros C L. unfold same_face_back. rewrite (r_chk R), L.
    pose proof (back_cycle C L) as B.
    assert (LL : forall y, In y (e :: rev t) -> P y).
    { intros y Hy. eapply loop_live; eauto. simpl in *. rewrite <- in_rev in Hy. auto. }
    rewrite walk_find with (f := pv g) (p := fun x => og g x =? v) (t := rev t); auto.
    - cbn [bind]. rewrite find_existsb. reflexivity.
    - intros y Hy. apply prev_step. apply LL; auto.
    - intros y Hy. rewrite (r_origin_id R), (LL _ Hy). reflexivity.
    - apply cycle_fuel; auto. eapply cycle_nodup; eauto.
  Qed.

  (** The half-edges leaving a vertex, without repetition. *)
  Definition out_list (v : nat) (l : list nat) : Prop :=
    NoDup l /\ forall x, In x l <-> lv g x = true /\ og g x = v.

  Lemma wheel_out e t : is_cycle (wheel g) (e :: t) -> lv g e = true ->
    ve g (og g e) = Some e -> out_list (og g e) (e :: t).
  Proof.
    intros C L V. split; [eapply cycle_nodup; eauto|]. intros x; split.
    - intros H. eapply wheel_list_live; eauto.
    - intros [Lx Ox]. destruct (wf_wheel W _ Lx) as (e0 & V0 & R0).
      rewrite Ox, V in V0. injection V0 as <-. apply (cycle_reach x C). auto.
  Qed.

  Lemma edges_out_ok v : lvv g v = true ->
    exists l, out_list v l /\ edges_out c m v = Ok l /\
      (forall Pr p, (forall x, In x l -> Pr x = Ok (p x)) -> edges_out_find c m v Pr = Ok (find p l)).
  Proof.
    intros L. unfold edges_out, edges_out_find. rewrite (r_vedge R), L.
    destruct (ve g v) as [e|] eqn:V.
    - destruct (wf_ve W _ L V) as [LE O]. rewrite LE. cbn [bind].
      destruct (wheel_exists LE) as [t C]. exists (e :: t).
      assert (OL : out_list v (e :: t)) by (subst v; apply wheel_out; auto).
      assert (LL : forall y, In y (e :: t) -> lv g y = true /\ og g y = v) by (intros; apply OL; auto).
      assert (ST : forall y, In y (e :: t) -> wheel_step c m e y = Ok (wheel g y)).
      { intros y Hy. destruct (LL _ Hy). apply wheel_step_ok; auto. congruence. }
      assert (FL : length (e :: t) <= fuel m).
      { apply cycle_fuel. apply OL. intros x Hx. apply LL; auto. }
      split; auto. split.
      + apply walk_collect with (f := wheel g); auto.
      + intros. apply walk_find with (f := wheel g); auto.
    - simpl. exists []. split; [|split; auto].
      split; [constructor|]. intros x; split; [intros []|]. intros [Lx Ox].
      destruct (wf_wheel W _ Lx) as (e0 & V0 & _). congruence.
  Qed.

  Lemma edges_in_ok v : lvv g v = true ->
    exists l, out_list v l /\ edges_out c m v = Ok l /\ edges_in c m v = Ok (map (tw g) l) /\
      (forall Pr p, (forall x, In x (map (tw g) l) -> Pr x = Ok (p x)) ->
         edges_in_find c m v Pr = Ok (find p (map (tw g) l))).
  Proof.
    intros L. destruct (edges_out_ok L) as (l & OL & E & F). exists l. split; auto. split; auto.
    assert (LL : forall x, In x l -> lv g x = true) by (intros; apply OL; auto).
    split.
    - unfold edges_in. rewrite E. simpl. apply mapM_ok. intros x Hx. apply twin_step. auto.
    - intros Pr p H. unfold edges_in_find.
      rewrite F with (p := fun x => p (tw g x)).
      + simpl. rewrite find_map_tw. destruct (find _ l) eqn:Q; simpl; auto.
        apply find_in in Q as [Hn _]. rewrite twin_step by auto. reflexivity.
      + intros x Hx. rewrite twin_step by auto. simpl. apply H. apply in_map; auto.
  Qed.

  Lemma in_tw_out v l : out_list v l -> forall x, In x (map (tw g) l) <-> lv g x = true /\ og g (tw g x) = v.
  Proof.
    intros [ND OL] x. rewrite in_map_iff. split.
    - intros (y & <- & Hy). apply OL in Hy as [Ly Oy]. split; [apply W; auto|].
      rewrite (wf_twtw W); auto.
    - intros [Lx Ox]. exists (tw g x). split; [apply W; auto|]. apply OL. split; auto. apply W; auto.
  Qed.

  Lemma boundary_of_ok l : (forall x, In x l -> lv g x = true) ->
    boundary_of m l = Ok (filter (fun x => is_none (fc g x)) l).
  Proof.
    intros H. unfold boundary_of.
    rewrite (@mapM_ok _ _ _ (fun x => is_none (fc g x))).
    - simpl. rewrite filter_combine. reflexivity.
    - intros x Hx. rewrite (r_boundary R), (H x Hx). reflexivity.
  Qed.

  Lemma shared_edge_ok v w : lvv g v = true ->
    exists o, shared_edge c m v w = Ok o /\
      match o with
      | Some e => lv g e = true /\ og g e = v /\ og g (tw g e) = w
      | None => forall e, lv g e = true -> og g e = v -> og g (tw g e) <> w
      end.
  Proof.
    intros L. unfold shared_edge. destruct (edges_out_ok L) as (l & OL & E & F).
    rewrite F with (p := fun e => og g (tw g e) =? w).
    - exists (find (fun e => og g (tw g e) =? w) l). split; auto. destruct (find _ l) eqn:Q.
      + apply find_in in Q as [Hn Q]. apply OL in Hn. apply Nat.eqb_eq in Q. tauto.
      + intros e Le Oe C. assert (I : In e l) by (apply OL; auto).
        apply (find_none _ _ Q) in I. rewrite C, Nat.eqb_refl in I. discriminate.
    - intros x Hx. apply OL in Hx as [Lx _]. rewrite target_step by auto. reflexivity.
  Qed.

  Lemma shared_edge_dead v w : lvv g v = false -> shared_edge c m v w = Panic.
  Proof. intros L. unfold shared_edge, edges_out_find. rewrite (r_vedge R), L. reflexivity. Qed.

  Lemma exactly_one_filter {A} (p : A -> bool) l : exactly_one (filter p l) = true ->
    forall x y, In x l -> In y l -> p x = true -> p y = true -> x = y.
  Proof.
    unfold exactly_one. intros H x y Hx Hy Px Py. apply Nat.eqb_eq in H.
    assert (In x (filter p l)) by (apply filter_In; auto).
    assert (In y (filter p l)) by (apply filter_In; auto).
    destruct (filter p l) as [|z [|? ?]]; simpl in *; try discriminate.
    destruct H0 as [<-|[]], H1 as [<-|[]]. reflexivity.
  Qed.

  (** In debug builds a boundary edge found at a vertex is the only one. *)
  Lemma outgoing_ok v o : lvv g v = true -> outgoing_boundary_edge c m v = Ok o ->
    match o with
    | Some e => lv g e = true /\ og g e = v /\ fc g e = None /\
        (dbg c = true -> forall x, lv g x = true -> og g x = v -> fc g x = None -> x = e)
    | None => forall x, lv g x = true -> og g x = v -> fc g x <> None
    end.
  Proof.
    intros L H. unfold outgoing_boundary_edge in H. apply dassert_ok in H as [D H].
    destruct (edges_out_ok L) as (l & OL & E & F).
    assert (LL : forall x, In x l -> lv g x = true) by (intros; apply OL; auto).
    rewrite F with (p := fun x => is_none (fc g x)) in H.
    2:{ intros x Hx. rewrite (r_boundary R), (LL x Hx). reflexivity. }
    injection H as <-. rewrite E in D. simpl in D. rewrite boundary_of_ok in D by auto.
    destruct (find _ l) eqn:Q.
    - apply find_in in Q as [Hn Q]. pose proof Hn as Hn'. apply OL in Hn as [Ln On].
      apply is_none_true in Q. repeat split; auto.
      intros DB x Lx Ox Fx. specialize (D DB).
      assert (In x l) by (apply OL; auto).
      destruct (length l =? 0) eqn:Z; [destruct l; [destruct Hn'|discriminate]|].
      injection D as D. eapply exactly_one_filter; eauto; apply is_none_true; auto.
    - intros x Lx Ox Fx. assert (In x l) by (apply OL; auto).
      apply (find_none _ _ Q) in H. rewrite Fx in H. discriminate.
  Qed.

  Lemma ingoing_ok v o : lvv g v = true -> ingoing_boundary_edge c m v = Ok o ->
    match o with
    | Some e => lv g e = true /\ og g (tw g e) = v /\ fc g e = None /\
        (dbg c = true -> forall x, lv g x = true -> og g (tw g x) = v -> fc g x = None -> x = e)
    | None => forall x, lv g x = true -> og g (tw g x) = v -> fc g x <> None
    end.
  Proof.
    intros L H. unfold ingoing_boundary_edge in H. apply dassert_ok in H as [D H].
    destruct (edges_in_ok L) as (l & OL & _ & E & F).
    pose proof (in_tw_out OL) as IN.
    assert (LL : forall x, In x (map (tw g) l) -> lv g x = true) by (intros; apply IN; auto).
    rewrite F with (p := fun x => is_none (fc g x)) in H.
    2:{ intros x Hx. rewrite (r_boundary R), (LL x Hx). reflexivity. }
    injection H as <-. rewrite E in D. simpl in D. rewrite boundary_of_ok in D by auto.
    destruct (find _ (map (tw g) l)) eqn:Q.
    - apply find_in in Q as [Hn Q]. apply is_none_true in Q.
      pose proof (proj1 (IN n) Hn) as [Ln On]. repeat split; auto.
      intros DB x Lx Ox Fx. specialize (D DB). injection D as D.
      eapply exactly_one_filter; eauto; try (apply is_none_true; auto). apply IN; auto.
    - intros x Lx Ox Fx. assert (In x (map (tw g) l)) by (apply IN; auto).
      apply (find_none _ _ Q) in H. rewrite Fx in H. discriminate.
  Qed.
End Trav.
