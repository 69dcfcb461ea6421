(** How the indexed face set grows with every step of a construction. *)
From Coq Require Import List Arith Lia Bool Permutation.
From Verif Require Import Base DVec DVecFacts Mesh Spec Rep Splice Cycle Traverse Room Ops MeshSpec MeshProofs
  MeshMore MeshTotal MeshFacts NetProofs BuildSpec Solid SolidSpec BuildStep PathProofs ApexProofs LoftProofs TriProofs.
Import ListNotations.
Set Implicit Arguments.
Unset Strict Implicit.

Local Arguments abs : simpl never.

(** * lists *)
Lemma cyc_map A B (h : A -> B) l : cyc (map h l) = map (fun p => (h (fst p), h (snd p))) (cyc l).
Proof.
  unfold cyc. assert (E : tl (map h l) ++ firstn 1 (map h l) = map h (tl l ++ firstn 1 l)) by (destruct l; cbn; auto; rewrite map_app; auto).
  rewrite E. clear E. generalize (tl l ++ firstn 1 l). induction l as [|a l IH]; intros [|b k]; cbn; f_equal; auto.
Qed.
Lemma cyc_length A (l : list A) : length (cyc l) = length l.
Proof. unfold cyc. rewrite combine_length. destruct l; auto. cbn [tl firstn]. rewrite app_length. cbn [length]. lia. Qed.
Lemma combine_map A B C D (f : A -> C) (h : B -> D) l : forall k,
  combine (map f l) (map h k) = map (fun p => (f (fst p), h (snd p))) (combine l k).
Proof. induction l; intros [|b k]; cbn; f_equal; auto. Qed.
Lemma fans_map A B (h : A -> B) us v : fans (map h us) (h v) = map (map h) (fans us v).
Proof. unfold fans. rewrite cyc_map, !map_map. reflexivity. Qed.
Lemma quads_map A B (h : A -> B) us ws : quads (map h us) (map h ws) = map (map h) (quads us ws).
Proof. unfold quads. rewrite !cyc_map, combine_map, !map_map. reflexivity. Qed.
Lemma stands_map A B (h : A -> B) us ws : stands (map h us) (map h ws) = map (map h) (stands us ws).
Proof. unfold stands. rewrite !cyc_map, combine_map, !map_map. reflexivity. Qed.
Lemma hangs_map A B (h : A -> B) us ws : hangs (map h us) (map h ws) = map (map h) (hangs us ws).
Proof. unfold hangs. rewrite !cyc_map, combine_map, !map_map. reflexivity. Qed.
Lemma turn_map A B (h : A -> B) l : turn (map h l) = map h (turn l).
Proof. destruct l; cbn; auto. rewrite map_rev. auto. Qed.
Lemma turn_length A (l : list A) : length (turn l) = length l.
Proof. destruct l; cbn; auto. rewrite rev_length. auto. Qed.
Lemma fans_length A us (v : A) : length (fans us v) = length us.
Proof. unfold fans. rewrite map_length. apply cyc_length. Qed.
Lemma quads_length A (us ws : list A) : length us = length ws -> length (quads us ws) = length us.
Proof. intros E. unfold quads. rewrite map_length, combine_length, !cyc_length. lia. Qed.
Lemma stands_length A (us ws : list A) : length us = length ws -> length (stands us ws) = length us.
Proof. intros E. unfold stands. rewrite map_length, combine_length, !cyc_length. lia. Qed.
Lemma hangs_length A (us ws : list A) : length us = length ws -> length (hangs us ws) = length us.
Proof. intros E. unfold hangs. rewrite map_length, combine_length, !cyc_length. lia. Qed.

Lemma nth_seq_app A (d : A) (a b : list A) : map (fun i => nth i (a ++ b) d) (seq 0 (length a)) = a.
Proof.
  transitivity (map (fun i => nth i a d) (seq 0 (length a))).
  - apply map_ext_in. intros i I. apply in_seq in I. apply app_nth1. lia.
  - induction a as [|x a IH]; cbn; f_equal. rewrite <- seq_shift, map_map. exact IH.
Qed.
Lemma nth_seq_mid A (d : A) (p a b : list A) k n : k = length p -> n = length a ->
  map (fun i => nth i (p ++ a ++ b) d) (seq k n) = a.
Proof.
  intros -> ->. rewrite <- (nth_seq_app d a b) at 2.
  replace (seq (length p) (length a)) with (map (fun i => length p + i) (seq 0 (length a))).
  - rewrite map_map. apply map_ext. intros i. rewrite app_nth2 by lia. f_equal. lia.
  - clear. generalize (length a). induction n; auto. rewrite !seq_S, map_app, IHn. reflexivity.
Qed.

Lemma exactly_added live live' l N : exactly live l -> added live live' N -> exactly live' (l ++ N).
Proof.
  intros [ND E] (NN & F & I). split.
  - apply nd_app; auto. intros x A B. apply E in A. apply F in B. congruence.
  - intros x. rewrite I, in_app_iff, E. tauto.
Qed.
Lemma exactly_perm live l l' : Permutation l l' -> exactly live l -> exactly live l'.
Proof.
  intros P [ND E]. split; [eapply Permutation_NoDup; eauto|]. intros x. rewrite E. split; apply Permutation_in; auto using Permutation_sym.
Qed.

Section Part.
  Context {VP EP FP : Type}.
  Notation graph := (graph VP EP FP).
  Notation mesh := (mesh VP EP FP).
  Implicit Types (g : graph) (m : mesh).
  Variable (dE : EP) (dF : FP).

  Lemma lt_ogs g es : forall vs w, leads_through g es (vs ++ [w]) -> map (og g) es = vs.
  Proof.
    induction es as [|e es IH]; intros vs w H.
    - destruct vs as [|v [|]]; cbn in *; auto; tauto.
    - destruct vs as [|v vs]; cbn [app] in H; [destruct H|]. cbn [map].
      destruct vs as [|v' vs]; cbn [app leads_through] in H; destruct H as [(_ & O & _) H]; rewrite O; f_equal.
      + apply (IH [] w). exact H.
      + apply (IH (v' :: vs) w). exact H.
  Qed.
  Lemma lt_ogs' g es vs : leads_through g es (vs ++ firstn 1 vs) -> vs <> [] -> map (og g) es = vs.
  Proof. destruct vs; [congruence|]. intros H _. eapply lt_ogs. exact H. Qed.

  Lemma gr_fc_keep m g' L E V F e f : wf m -> grown (abs m) g' L E V F -> (forall x, In x L -> fc (abs m) x = None) ->
    lv (abs m) e = true -> fc (abs m) e = Some f -> fc g' e = Some f.
  Proof.
    intros Wm G FN Le Fe. destruct (face_traversal Wm Le) as (t & Hl & _).
    destruct (gr_loops G Hl) as [_ K].
    - intros x I J. assert (fc (abs m) x = Some f); [|rewrite (FN x J) in *; discriminate].
      rewrite <- Fe. symmetry. pose proof (wfW Wm) as W. clear - Hl I W.
      assert (A : forall l, (forall x, In x l -> lv (abs m) x = true) -> forall e, lv (abs m) e = true ->
        (forall p a b q, e :: l = p ++ a :: b :: q -> nx (abs m) a = b) -> forall x, In x (e :: l) -> fc (abs m) e = fc (abs m) x).
      { induction l as [|a l IH]; intros LL e0 L0 NX y [<-|J]; auto; [destruct J|].
        rewrite <- (wf_fcnx W _ L0), (NX [] e0 a l eq_refl). apply IH; auto.
        - intros z Z. apply LL. right; auto.
        - apply LL; left; auto.
        - intros p b c q Q. apply (NX (e0 :: p) b c q). cbn. rewrite Q. auto. }
      apply (A t); auto.
      + intros z Z. apply Hl. right; auto.
      + apply Hl. left; auto.
      + intros p a b q Q. apply (loop_nx_at (p := p) (q := q) Hl Q).
    - rewrite K; auto. left; auto.
  Qed.

  Lemma face_fc g f l y cu x : face_is g f l y cu -> In x l -> fc g x <> None.
  Proof. intros (_ & _ & _ & A) I. rewrite (A x I). discriminate. Qed.

  Lemma poly_keep g g' L E V F y f l : grown g g' L E V F -> (forall x, In x L -> fc g x = None) ->
    poly g y f l -> poly g' y f l.
  Proof.
    intros G FN (es & FI & <-). exists es. split; [eapply gr_face_keep; eauto|].
    apply map_ext_in. intros e I. apply (gr_og G). apply FI; auto.
  Qed.

  (** [g] has exactly these vertices, faces and number of edges; only [hs] may be without a face. *)
  Record part g (vs : list nat) (ne : nat) (fs : list nat) (polys : list (list nat)) (hs : list nat) : Prop := {
    pa_v : exactly (lvv g) vs;
    pa_e : exists es, exactly (lv g) es /\ length es = 2 * ne;
    pa_f : exactly (lvf g) fs;
    pa_polys : Forall2 (poly g dF) fs polys;
    pa_open : forall e, lv g e = true -> fc g e = None -> In e hs
  }.

  Lemma part_empty : part (abs empty_mesh) [] 0 [] [] [].
  Proof.
    assert (E : forall A, exactly (fun i => d_has (@d_new A) i) []).
    { intros A. split; [constructor|]. intros x. split; [|intros []]. destruct x; discriminate. }
    split; auto.
    - apply E.
    - exists []. split; auto. apply E.
    - apply E.
    - intros e L. apply (proj2 (E _)) in L. destruct L.
  Qed.

  Lemma part_grow m g' vs ne fs polys L hs' hs NE NV NF polys' k : wf m -> part (abs m) vs ne fs polys hs' ->
    (forall x, In x L -> fc (abs m) x = None) -> grown (abs m) g' L NE NV NF -> length NE = 2 * k ->
    Forall2 (poly g' dF) NF polys' ->
    (forall e, In e hs' -> fc (abs m) e = None -> fc g' e = None -> In e hs) ->
    (forall e, In e NE -> fc g' e = None -> In e hs) ->
    part g' (vs ++ NV) (ne + k) (fs ++ NF) (polys ++ polys') hs.
  Proof.
    intros Wm P FN G LK FP' HO HN. split.
    - eapply exactly_added; [apply P|apply G].
    - destruct (pa_e P) as (es & E & LE). exists (es ++ NE). split; [eapply exactly_added; [exact E|apply G]|].
      rewrite app_length. lia.
    - eapply exactly_added; [apply P|apply G].
    - apply Forall2_app; auto. pose proof (pa_polys P) as Q. revert Q. clear - G FN. induction 1; constructor; auto.
      eapply poly_keep; eauto.
    - intros e Le Fe. apply (gr_e G) in Le as [Le|Le]; auto.
      destruct (fc (abs m) e) eqn:Q; [rewrite (gr_fc_keep Wm G FN Le Q) in Fe; discriminate|].
      apply HO; auto. apply (pa_open P); auto.
  Qed.

  Lemma part_weaken g vs ne fs polys hs hs' : part g vs ne fs polys hs -> (forall e, In e hs -> In e hs') ->
    part g vs ne fs polys hs'.
  Proof. intros P I. split; try apply P. intros e Le Fe. apply I, (pa_open P); auto. Qed.

  (** * fans *)
  Lemma fan_polys g v y es : forall ps fs o, fan g v y es ps fs -> og g (last ps 0) = o ->
    Forall2 (poly g y) fs (map (fun p => [fst p; snd p; v]) (combine (map (og g) es) (tl (map (og g) es) ++ [o]))).
  Proof.
    induction es as [|e es IH]; intros ps fs o FA LO.
    - destruct ps as [|p [|]], fs; cbn in FA; try tauto. constructor.
    - destruct ps as [|p [|q r]], fs as [|f fs]; cbn [fan] in FA; try tauto. destruct FA as ((_ & _ & TP) & FI & FA).
      cbn [map tl].
      assert (OQ : exists z, combine (map (og g) es) (tl (map (og g) es) ++ [o]) = combine (map (og g) es) z /\ map (og g) es ++ [o] = og g q :: z).
      { destruct es as [|e' es].
        - destruct r as [|]; cbn in FA; [|destruct fs; tauto]. cbn in LO. subst o. exists []. auto.
        - destruct r as [|q' r], fs as [|f' fs]; cbn [fan] in FA; try tauto. destruct FA as ((_ & OQ & _) & _).
          rewrite OQ. exists (map (og g) es ++ [o]). auto. }
      destruct OQ as (z & E1 & E2). rewrite E2. cbn [combine map fst snd]. constructor.
      + exists [e; q; tw g p]. split; auto. cbn. f_equal. f_equal. f_equal. exact TP.
      + rewrite <- E1. apply (IH (q :: r)); auto.
  Qed.
  Lemma fan_fc g v y es : forall ps fs, fan g v y es ps fs ->
    (forall e, In e es -> fc g e <> None) /\ (forall p, In p (tl ps) -> fc g p <> None) /\
    (forall p, In p (removelast ps) -> fc g (tw g p) <> None).
  Proof.
    induction es as [|e es IH]; intros ps fs FA.
    - destruct ps as [|p [|]], fs; cbn in FA; try (exfalso; exact FA). repeat split; intros x [].
    - destruct ps as [|p [|q r]], fs as [|f fs]; cbn [fan] in FA; try tauto. destruct FA as (_ & FI & FA).
      destruct (IH _ _ FA) as (A & B & C). split; [|split].
      + intros x [<-|I]; auto. apply (face_fc FI). left; auto.
      + cbn [tl]. intros x [<-|I]; auto. apply (face_fc FI). right; left; auto.
      + change (removelast (p :: q :: r)) with (p :: removelast (q :: r)). intros x [<-|I]; auto.
        apply (face_fc FI). right; right; left; auto.
  Qed.
  Lemma ring_all {A} (ps : list A) (P Q : A -> Prop) : (forall p, In p (tl (ps ++ firstn 1 ps)) -> P p) ->
    (forall p, In p (removelast (ps ++ firstn 1 ps)) -> Q p) -> forall p, In p ps -> P p /\ Q p.
  Proof.
    intros H1 H2 p I. destruct ps as [|a ps]; [destruct I|]. cbn [app firstn tl] in *. split.
    - apply H1. apply in_app_iff. destruct I as [<-|I]; [right; left; auto|auto].
    - apply H2. rewrite app_comm_cons, removelast_last. exact I.
  Qed.

  Lemma part_apex m g' vs ne fs polys L hs v x ps fs' : wf m -> part (abs m) vs ne fs polys (L ++ hs) -> hole (abs m) L ->
    L <> [] -> apex_built (abs m) g' L v x dF ps fs' ->
    part g' (vs ++ [v]) (ne + length L) (fs ++ fs') (polys ++ fans (map (og (abs m)) L) v) hs.
  Proof.
    intros Wm P H NL A. pose proof (ab_grown A) as G.
    destruct (fan_length (ab_fan A)) as (LP & _). destruct (fan_fc (ab_fan A)) as (F1 & F2 & F3).
    assert (OG : map (og g') L = map (og (abs m)) L).
    { apply map_ext_in. intros e I. apply (gr_og G), (hole_live H I). }
    destruct L as [|e L]; [congruence|]. destruct ps as [|p ps]; [cbn in LP; lia|].
    pose proof (ring_all F2 F3) as FR. rewrite app_length in LP. cbn [firstn length] in LP.
    eapply (part_grow Wm P); [apply H|exact G|..].
    - rewrite app_length, map_length. cbn [length]. lia.
    - rewrite <- OG. eapply fan_polys; [apply (ab_fan A)|]. cbn [firstn]. rewrite last_last.
      pose proof (ab_fan A) as FA. destruct (ps ++ firstn 1 (p :: ps)) as [|q r] eqn:E; [destruct ps; discriminate|].
      cbn [app] in FA. rewrite E in FA. destruct fs' as [|f' fs']; cbn [fan] in FA; [tauto|]. apply FA.
    - intros e0 I FN FN'. apply in_app_iff in I as [I|I]; auto. exfalso. apply (F1 _ I FN').
    - intros e0 I FN'. exfalso. apply in_app_iff in I as [I|I].
      + apply (proj1 (FR _ I) FN').
      + apply in_map_iff in I as (p' & <- & I). apply (proj2 (FR _ I) FN').
  Qed.

  (** * quads *)
  Lemma band_polys g y es : forall ps ts fs o ws w, band g y es ps ts fs -> og g (last ps 0) = o ->
    leads_through g ts (ws ++ [w]) ->
    Forall2 (poly g y) fs (map (fun p => [fst (fst p); snd (fst p); snd (snd p); fst (snd p)])
      (combine (combine (map (og g) es) (tl (map (og g) es) ++ [o])) (combine ws (tl ws ++ [w])))).
  Proof.
    induction es as [|e es IH]; intros ps ts fs o ws w FA LO LT.
    - destruct ps as [|p [|]], ts, fs; cbn in FA; try tauto. constructor.
    - destruct ps as [|p [|q r]], ts as [|t ts], fs as [|f fs]; cbn [band] in FA; try tauto.
      destruct FA as ((_ & _ & TP) & FI & FA). cbn [map tl].
      assert (OQ : exists z, combine (map (og g) es) (tl (map (og g) es) ++ [o]) = combine (map (og g) es) z /\ map (og g) es ++ [o] = og g q :: z).
      { destruct es as [|e' es].
        - destruct r as [|], ts; cbn in FA; try (destruct fs; tauto). cbn in LO. subst o. exists []. auto.
        - destruct r as [|q' r], ts as [|t' ts], fs as [|f' fs]; cbn [band] in FA; try tauto. destruct FA as ((_ & OQ & _) & _).
          rewrite OQ. exists (map (og g) es ++ [o]). auto. }
      destruct OQ as (z & E1 & E2). rewrite E2.
      destruct ws as [|w1 ws]; cbn [app] in LT; [destruct LT|].
      assert (LT' : exists w2 ws', ws ++ [w] = w2 :: ws' /\ leads g t w1 w2 /\ leads_through g ts (w2 :: ws')).
      { destruct ws as [|w2 ws]; cbn [app] in LT; destruct LT as [A B]; [exists w, []|exists w2, (ws ++ [w])]; auto. }
      destruct LT' as (w2 & ws' & EW & (_ & OT & TT) & LT').
      cbn [tl]. rewrite EW. cbn [combine map fst snd]. constructor.
      + exists [e; q; tw g t; tw g p]. split; auto. cbn. do 2 f_equal. change (og g (tw g t)) with (target g t).
        change (og g (tw g p)) with (target g p). rewrite TT, TP, OT. auto.
      + rewrite <- E1. rewrite <- EW in LT'.
        assert (Q : ws' = tl ws ++ [w] \/ ws = []) by (destruct ws; cbn in *; [auto|left; congruence]).
        destruct Q as [-> | ->].
        * apply (IH (q :: r) ts); auto.
        * cbn [app] in LT'. destruct ts as [|t' ts]; [|cbn in LT'; tauto].
          destruct es as [|e' es], r as [|q' r], fs as [|f' fs]; cbn [band] in FA; try tauto. constructor.
  Qed.
  Lemma band_fc g y es : forall ps ts fs, band g y es ps ts fs ->
    (forall e, In e es -> fc g e <> None) /\ (forall p, In p (tl ps) -> fc g p <> None) /\
    (forall p, In p (removelast ps) -> fc g (tw g p) <> None) /\ (forall t, In t ts -> fc g (tw g t) <> None).
  Proof.
    induction es as [|e es IH]; intros ps ts fs FA.
    - destruct ps as [|p [|]], ts, fs; cbn in FA; try (exfalso; exact FA). repeat split; intros x [].
    - destruct ps as [|p [|q r]], ts as [|t ts], fs as [|f fs]; cbn [band] in FA; try tauto. destruct FA as (_ & FI & FA).
      destruct (IH _ _ _ FA) as (A & B & C & D). split; [|split; [|split]].
      + intros x [<-|I]; auto. apply (face_fc FI). left; auto.
      + cbn [tl]. intros x [<-|I]; auto. apply (face_fc FI). right; left; auto.
      + change (removelast (p :: q :: r)) with (p :: removelast (q :: r)). intros x [<-|I]; auto.
        apply (face_fc FI). right; right; right; left; auto.
      + intros x [<-|I]; auto. apply (face_fc FI). right; right; left; auto.
  Qed.

  Lemma cyc_closed {A} (a : A) l : cyc (a :: l) = combine (a :: l) (l ++ [a]).
  Proof. reflexivity. Qed.

  Lemma part_band m g' vs ne fs polys L hs xs ps ts vs' fs' : wf m -> part (abs m) vs ne fs polys (L ++ hs) -> hole (abs m) L ->
    L <> [] -> band_built (abs m) g' L xs dF ps ts vs' fs' ->
    part g' (vs ++ vs') (ne + 2 * length L) (fs ++ fs') (polys ++ quads (map (og (abs m)) L) vs') (ts ++ hs).
  Proof.
    intros Wm P H NL A. pose proof (bb_grown A) as G.
    destruct (band_length (bb_band A)) as (LP & LT & LF). destruct (band_fc (bb_band A)) as (F1 & F2 & F3 & F4).
    assert (OG : map (og g') L = map (og (abs m)) L).
    { apply map_ext_in. intros e I. apply (gr_og G), (hole_live H I). }
    destruct L as [|e L]; [congruence|]. destruct ps as [|p ps]; [cbn in LP; lia|].
    pose proof (ring_all F2 F3) as FR. rewrite app_length in LP. cbn [firstn length] in LP.
    pose proof (lt_length (bb_rim A)) as LV. rewrite app_length in LV.
    destruct vs' as [|v vs']; [cbn in LV; lia|].
    eapply (part_grow Wm P); [apply H|exact G|..].
    - rewrite app_length, map_length, app_length. cbn [length] in *. lia.
    - rewrite <- OG. unfold quads. cbn [map]. rewrite !cyc_closed.
      change (combine (og g' e :: map (og g') L) (map (og g') L ++ [og g' e])) with
        (combine (map (og g') (e :: L)) (tl (map (og g') (e :: L)) ++ [og g' e])).
      change (combine (v :: vs') (vs' ++ [v])) with (combine (v :: vs') (tl (v :: vs') ++ [v])).
      eapply band_polys; [apply (bb_band A)| |apply (bb_rim A)]. cbn [firstn]. rewrite last_last.
      pose proof (bb_band A) as FA. destruct (ps ++ firstn 1 (p :: ps)) as [|q r] eqn:E; [destruct ps; discriminate|].
      cbn [app] in FA. rewrite E in FA. destruct ts as [|t' ts], fs' as [|f' fs']; cbn [band] in FA; try tauto. apply FA.
    - intros e0 I FN FN'. apply in_app_iff in I as [I|I]; [|apply in_app_iff; auto]. exfalso. apply (F1 _ I FN').
    - intros e0 I FN'. apply in_app_iff in I as [I|I].
      + apply in_app_iff in I as [I|I]; [|apply in_app_iff; auto]. exfalso. apply (proj1 (FR _ I) FN').
      + exfalso. apply in_map_iff in I as (p' & <- & I). apply in_app_iff in I as [I|I].
        * apply (proj2 (FR _ I) FN').
        * apply (F4 _ I FN').
  Qed.

  (** * triangles *)
  Lemma tband_polys g y es : forall ps ds ts fs hs o ws w, tband g false y es ps ds ts fs hs -> og g (last ps 0) = o ->
    leads_through g ts (ws ++ [w]) ->
    let cs := combine (combine (map (og g) es) (tl (map (og g) es) ++ [o])) (combine ws (tl ws ++ [w])) in
    (WF g -> Forall2 (poly g y) fs (map (fun p => [fst (fst p); snd (fst p); fst (snd p)]) cs)) /\
    Forall2 (poly g y) hs (map (fun p => [snd (fst p); snd (snd p); fst (snd p)]) cs).
  Proof.
    induction es as [|e es IH]; intros ps ds ts fs hs o ws w FA LO LT.
    - destruct ps as [|p [|]], ds, ts, fs, hs; cbn in FA; try tauto. split; constructor.
    - destruct ps as [|p [|q r]], ds as [|d ds], ts as [|t ts], fs as [|f fs], hs as [|h hs]; cbn [tband] in FA; try tauto.
      destruct FA as ((_ & _ & TP) & ((_ & OD & TD) & FI & FH) & FA). cbn [map tl].
      assert (OQ : exists z, combine (map (og g) es) (tl (map (og g) es) ++ [o]) = combine (map (og g) es) z /\ map (og g) es ++ [o] = og g q :: z).
      { destruct es as [|e' es].
        - destruct r as [|], ds, ts; cbn in FA; try (destruct fs, hs; tauto). cbn in LO. subst o. exists []. auto.
        - destruct r as [|q' r], ds as [|d' ds], ts as [|t' ts], fs as [|f' fs], hs as [|h' hs]; cbn [tband] in FA; try tauto.
          destruct FA as ((_ & OQ & _) & _).
          rewrite OQ. exists (map (og g) es ++ [o]). auto. }
      destruct OQ as (z & E1 & E2). rewrite E2.
      destruct ws as [|w1 ws]; cbn [app] in LT; [destruct LT|].
      assert (LT' : exists w2 ws', ws ++ [w] = w2 :: ws' /\ leads g t w1 w2 /\ leads_through g ts (w2 :: ws')).
      { destruct ws as [|w2 ws]; cbn [app] in LT; destruct LT as [A B]; [exists w, []|exists w2, (ws ++ [w])]; auto. }
      destruct LT' as (w2 & ws' & EW & (_ & OT & TT) & LT').
      cbn [tl]. rewrite EW. cbn [combine map fst snd].
      assert (R : (WF g -> Forall2 (poly g y) fs (map (fun p => [fst (fst p); snd (fst p); fst (snd p)])
          (combine (combine (map (og g) es) z) (combine ws ws')))) /\
        Forall2 (poly g y) hs (map (fun p => [snd (fst p); snd (snd p); fst (snd p)])
          (combine (combine (map (og g) es) z) (combine ws ws')))).
      { rewrite <- E1. rewrite <- EW in LT'.
        assert (Q : ws' = tl ws ++ [w] \/ ws = []) by (destruct ws; cbn in *; [auto|left; congruence]).
        destruct Q as [-> | ->].
        * apply (IH (q :: r) ds ts); auto.
        * cbn [app] in LT'. destruct ts as [|t' ts]; [|cbn in LT'; tauto].
          destruct es as [|e' es], r as [|q' r], ds as [|d' ds], fs as [|f' fs], hs as [|h' hs]; cbn [tband] in FA; try tauto. split; constructor. }
      destruct R as [R1 R2]. split; [intros W|]; constructor; auto.
      + exists [e; d; tw g p]. split; auto. cbn.
        assert (Q : og g d = og g q).
        { rewrite OD. destruct FI as (_ & _ & Hl & _). rewrite <- OD. rewrite (loop_og W Hl).
          destruct FH as (_ & _ & Hh & _).
          assert (LD : lv g d = true) by (apply Hl; right; left; auto).
          assert (NT : nx g (tw g d) = q) by (apply (loop_nx_wrap (p := [tw g t]) Hh); auto).
          rewrite <- NT. rewrite (wf_ognx W _ (wf_tw W _ LD)), (wf_twtw W _ LD). symmetry. apply (loop_og W Hl). }
        do 2 f_equal; auto. f_equal. change (og g (tw g p)) with (target g p). rewrite TP; auto.
      + exists [q; tw g t; tw g d]. split; auto. cbn. f_equal.
        change (og g (tw g t)) with (target g t). change (og g (tw g d)) with (target g d). rewrite TT, TD, OT. auto.
  Qed.
  Lemma tband_fc g y es : forall ps ds ts fs hs, tband g false y es ps ds ts fs hs ->
    (forall e, In e es -> fc g e <> None) /\ (forall p, In p (tl ps) -> fc g p <> None) /\
    (forall p, In p (removelast ps) -> fc g (tw g p) <> None) /\ (forall t, In t ts -> fc g (tw g t) <> None) /\
    (forall d, In d ds -> fc g d <> None /\ fc g (tw g d) <> None).
  Proof.
    induction es as [|e es IH]; intros ps ds ts fs hs FA.
    - destruct ps as [|p [|]], ds, ts, fs, hs; cbn in FA; try (exfalso; exact FA). repeat split; intros; cbn in *; tauto.
    - destruct ps as [|p [|q r]], ds as [|d ds], ts as [|t ts], fs as [|f fs], hs as [|h hs]; cbn [tband] in FA; try tauto.
      destruct FA as (_ & (_ & FI & FH) & FA).
      destruct (IH _ _ _ _ _ FA) as (A & B & C & D & X). split; [|split; [|split; [|split]]].
      + intros x [<-|I]; auto. apply (face_fc FI). left; auto.
      + cbn [tl]. intros x [<-|I]; auto. apply (face_fc FH). left; auto.
      + change (removelast (p :: q :: r)) with (p :: removelast (q :: r)). intros x [<-|I]; auto.
        apply (face_fc FI). right; right; left; auto.
      + intros x [<-|I]; auto. apply (face_fc FH). right; left; auto.
      + intros x [<-|I]; auto. split; [apply (face_fc FI)|apply (face_fc FH)]; [right; left; auto|right; right; left; auto].
  Qed.

  Lemma part_tband m g' vs ne fs polys L hs xs ps ds ts vs' fs' hs' : wf m -> part (abs m) vs ne fs polys (L ++ hs) -> hole (abs m) L ->
    L <> [] -> WF g' -> tband_built (abs m) g' false L xs dF ps ds ts vs' fs' hs' ->
    part g' (vs ++ vs') (ne + 3 * length L) (fs ++ fs' ++ hs')
      (polys ++ stands (map (og (abs m)) L) vs' ++ hangs (map (og (abs m)) L) vs') (ts ++ hs).
  Proof.
    intros Wm P H NL W' A. pose proof (tb_grown A) as G.
    destruct (tband_length (tb_band A)) as (LP & LD & LT & LF & LH). destruct (tband_fc (tb_band A)) as (F1 & F2 & F3 & F4 & F5).
    assert (OG : map (og g') L = map (og (abs m)) L).
    { apply map_ext_in. intros e I. apply (gr_og G), (hole_live H I). }
    destruct L as [|e L]; [congruence|]. destruct ps as [|p ps]; [cbn in LP; lia|].
    pose proof (ring_all F2 F3) as FR. rewrite app_length in LP. cbn [firstn length] in LP.
    pose proof (lt_length (tb_rim A)) as LV. rewrite app_length in LV.
    destruct vs' as [|v vs']; [cbn in LV; lia|].
    eapply (part_grow Wm P); [apply H|exact G|..].
    - rewrite app_length, map_length, !app_length. cbn [length] in *. lia.
    - rewrite <- OG. unfold stands, hangs. cbn [map]. rewrite !cyc_closed.
      change (combine (og g' e :: map (og g') L) (map (og g') L ++ [og g' e])) with
        (combine (map (og g') (e :: L)) (tl (map (og g') (e :: L)) ++ [og g' e])).
      change (combine (v :: vs') (vs' ++ [v])) with (combine (v :: vs') (tl (v :: vs') ++ [v])).
      assert (LO : og g' (last ((p :: ps) ++ firstn 1 (p :: ps)) 0) = og g' e).
      { cbn [firstn]. rewrite last_last.
        pose proof (tb_band A) as FA. destruct (ps ++ firstn 1 (p :: ps)) as [|q r] eqn:E; [destruct ps; discriminate|].
        cbn [app] in FA. rewrite E in FA.
        destruct ds as [|d' ds], ts as [|t' ts], fs' as [|f' fs'], hs' as [|h' hs']; cbn [tband] in FA; try tauto. apply FA. }
      destruct (tband_polys (tb_band A) LO (tb_rim A)) as [Q1 Q2]. apply Forall2_app; auto.
    - intros e0 I FN FN'. apply in_app_iff in I as [I|I]; [|apply in_app_iff; auto]. exfalso. apply (F1 _ I FN').
    - intros e0 I FN'. apply in_app_iff in I as [I|I].
      + apply in_app_iff in I as [I|I]; [exfalso; apply (proj1 (FR _ I) FN')|].
        apply in_app_iff in I as [I|I]; [exfalso; apply (proj1 (F5 _ I) FN')|apply in_app_iff; auto].
      + exfalso. apply in_map_iff in I as (p' & <- & I). apply in_app_iff in I as [I|I].
        * apply (proj2 (FR _ I) FN').
        * apply in_app_iff in I as [I|I]; [apply (proj2 (F5 _ I) FN')|apply (F4 _ I FN')].
  Qed.

  (** * caps, rings, polygons *)
  Lemma part_cap m g' vs ne fs polys L l hs f : wf m -> part (abs m) vs ne fs polys (l ++ hs) -> hole (abs m) l ->
    grown (abs m) g' L [] [] [f] -> (forall x, In x L -> In x l) -> face_is g' f l dF false ->
    part g' vs ne (fs ++ [f]) (polys ++ [map (og (abs m)) l]) hs.
  Proof.
    intros Wm P H G I FI.
    assert (Q : part g' (vs ++ []) (ne + 0) (fs ++ [f]) (polys ++ [map (og (abs m)) l]) hs).
    { eapply (part_grow Wm P); [|exact G|auto| |..].
      - intros x J. apply H. auto.
      - constructor; auto. exists l. split; auto. apply map_ext_in. intros e J. apply (gr_og G), (hole_live H J).
      - intros e J FN FN'. apply in_app_iff in J as [J|J]; auto. exfalso. apply (face_fc FI J FN').
      - intros e []. }
    rewrite app_nil_r, Nat.add_0_r in Q. exact Q.
  Qed.

  Lemma part_ring g' es vs ys : ring_built (abs empty_mesh) g' es vs ys [] ->
    part g' vs (length es) [] [] (es ++ map (tw g') es).
  Proof.
    intros B. apply (part_grow (L := []) (k := length es) (hs' := []) (polys' := []) (NV := vs) (NF := []) (NE := es ++ map (tw g') es) empty_wf part_empty);
      auto; try (intros x []).
    - apply B.
    - rewrite app_length, map_length. lia.
  Qed.
  Lemma turn_rev g es vs : WF g -> vs <> [] -> leads_through g es (vs ++ firstn 1 vs) -> map (og g) (rev (map (tw g) es)) = turn vs.
  Proof.
    intros W NV LT. rewrite map_rev, map_map. destruct vs as [|v vs]; [congruence|]. cbn [firstn] in LT.
    assert (A : forall es v vs, leads_through g es (v :: vs) -> map (fun x => og g (tw g x)) es = vs).
    { clear. induction es as [|e es IH]; intros v [|w vs] H; cbn in H; try tauto; auto. destruct H as [(_ & _ & T) H].
      cbn. f_equal; [exact T|apply (IH w); exact H]. }
    rewrite (A _ _ _ LT). cbn [turn]. rewrite rev_app_distr. reflexivity.
  Qed.
  Lemma part_polygon g' es vs ys f : WF g' -> vs <> [] -> ring_built (abs empty_mesh) g' es vs ys [f] ->
    face_is g' f (rev (map (tw g') es)) dF false -> part g' vs (length es) [f] [turn vs] es.
  Proof.
    intros W NV B FI. apply (part_grow (L := []) (k := length es) (hs' := []) (polys' := [turn vs]) (NV := vs) (NF := [f]) (NE := es ++ map (tw g') es) empty_wf part_empty);
      auto; try (intros x []).
    - apply B.
    - rewrite app_length, map_length. lia.
    - constructor; auto. exists (rev (map (tw g') es)). split; auto. apply turn_rev; auto. apply B.
    - intros e I FN. apply in_app_iff in I as [I|I]; auto. exfalso. apply (face_fc FI (x := e)); auto. rewrite <- in_rev. auto.
  Qed.

  Lemma part_solid g vs ne fs polys ipolys pts : part g vs ne fs polys [] -> map (vp g) vs = map Some pts ->
    polys = map (map (fun i => nth i vs 0)) ipolys -> solid g dF pts ipolys ne.
  Proof.
    intros P PV ->. destruct (pa_e P) as (es & E & LE). exists vs, fs, es.
    split; [apply P|]. split; auto. split; [apply P|]. split; [apply P|]. split; auto. split; auto.
    intros e Le Fe. apply (pa_open P Le Fe).
  Qed.
End Part.
