(** Flattening curved edges. *)
From Coq Require Import List Arith Lia Bool Permutation.
From Verif Require Import Base DVec DVecFacts Mesh Spec Rep MeshMore MeshSpec BuildSpec RefineSpec FlattenSpec Cycle MeshProofs
  BuildStep DivideProofs NetProofs PathBProofs Alg Transform TransProofs Flatten.
Import ListNotations.
Set Implicit Arguments.
Unset Strict Implicit.
Local Arguments abs : simpl never.

Lemma fm_app {A B} (f : A -> list B) a b : flat_map f (a ++ b) = flat_map f a ++ flat_map f b.
Proof. induction a; cbn; auto. rewrite IHa, app_assoc. auto. Qed.
Lemma fm_ext {A B} (f h : A -> list B) l : (forall x, In x l -> f x = h x) -> flat_map f l = flat_map h l.
Proof. induction l; cbn; auto. intros H. rewrite H, IHl; auto. Qed.

Section Step.
  Context {VP EP FP : Type}.
  Notation graph := (graph VP EP FP).
  Implicit Types (g : graph).

  (** * one division, with the payload of the divided half-edge replaced *)
  Record straightened g (h : graph) (e : nat) (es vs : list nat) (y : EP) (ys : list VP) : Prop := {
    st_e : added (lv g) (lv h) (es ++ map (tw h) es);
    st_v : added (lvv g) (lvv h) vs;
    st_f : forall f, keep_face g h f;
    st_twin : forall x, In x es -> tw h (tw h x) = x;
    st_path : leads_through h (es ++ [e]) (og g e :: vs ++ [target g e]);
    st_pay1 : forall x, In x (es ++ [e]) -> ep h x = Some y;
    st_pay2 : forall x, In x es -> ep h (tw h x) = Some y;
    st_pay : map (vp h) vs = map Some ys;
    st_face : forall x, In x es -> fc h x = fc g e /\ fc h (tw h x) = fc g (tw g e);
    st_old_e : forall x, lv g x = true ->
      tw h x = tw g x /\ fc h x = fc g x /\ (x <> e -> ep h x = ep g x /\ og h x = og g x);
    st_old_v : forall v, lvv g v = true -> vp h v = vp g v;
    st_loop_e : forall s, loop g (e :: s) -> ~ In (tw g e) s -> loop h (e :: s ++ es);
    st_loop_t : forall s, loop g (tw g e :: s) -> ~ In e s -> loop h (tw g e :: rev (map (tw h) es) ++ s);
    st_loop_both : forall s1 s2, loop g (e :: s1 ++ tw g e :: s2) ->
      loop h (e :: s1 ++ tw g e :: rev (map (tw h) es) ++ s2 ++ es);
    st_loops : forall l, loop g l -> ~ In e l -> ~ In (tw g e) l -> loop h l
  }.

  Lemma straighten g g1 h e es vs y ys : WF g -> WF g1 -> lv g e = true ->
    edge_divided g g1 e es vs (map (fun v => (y, y, v)) ys) -> repaid g1 h e y -> straightened g h e es vs y ys.
  Proof.
    intros W W1 L D P.
    assert (LE : forall x, In x es -> lv g1 x = true).
    { intros x I. apply (proj2 (proj2 (ed_e D))). right. apply in_app_iff; auto. }
    assert (LT : forall x, In x es -> lv g1 (tw g1 x) = true) by (intros x I; apply (wf_tw W1); auto).
    assert (LO : forall x, lv g x = true -> lv g1 x = true) by (intros x Lx; apply (proj2 (proj2 (ed_e D))); auto).
    assert (N : forall x, In x es -> x <> e /\ tw g1 x <> e).
    { intros x I. destruct (ed_e D) as (_ & K & _). split; intros Q; rewrite <- Q in L.
      - rewrite K in L; [discriminate|]. apply in_app_iff; auto.
      - rewrite K in L; [discriminate|]. apply in_app_iff; right. apply in_map; auto. }
    assert (MT : map (tw h) es = map (tw g1) es) by (eapply rp_map_tw; eauto).
    split.
    - rewrite MT. destruct (ed_e D) as (A & B & C). do 2 (split; auto). intros x. rewrite (rp_lv P). auto.
    - destruct (ed_v D) as (A & B & C). do 2 (split; auto). intros x. rewrite (proj1 (rp_v P x)). auto.
    - intros f. destruct (ed_f D f) as [A B]. destruct (rp_f P f) as [A' B']. split; [congruence|].
      intros Lf. destruct (B Lf) as [B1 B2]. rewrite <- A in Lf. destruct (B' Lf) as [B1' B2']. split; congruence.
    - intros x I. rewrite (rp_tw P (LE _ I)), (rp_tw P (LT _ I)). apply (ed_twin D); auto.
    - eapply rp_lt; eauto. apply D.
    - intros x I. apply in_app_iff in I as [I|[<-|[]]]; [|apply (rp_new P)].
      rewrite (rp_old P (LE _ I)) by (apply N; auto).
      assert (Q : In (ep g1 x) (map (ep g1) es)) by (apply in_map; auto).
      rewrite (ed_pay1 D), map_map in Q. apply in_map_iff in Q as (z & <- & _). auto.
    - intros x I. rewrite (rp_tw P (LE _ I)), (rp_old P (LT _ I)) by (apply N; auto).
      assert (Q : In (ep g1 (tw g1 x)) (map (ep g1) (map (tw g1) es))) by (apply in_map, in_map; auto).
      rewrite (ed_pay2 D), map_map in Q. apply in_map_iff in Q as (z & <- & _). auto.
    - pose proof (ed_pay D) as Q. rewrite map_map in Q. cbn in Q. transitivity (map (vp g1) vs); [|exact Q].
      apply map_ext_in. intros v I. apply (rp_v P). apply (proj2 (proj2 (ed_v D))); auto.
    - intros x I. destruct (ed_face D I) as [<- <-]. rewrite (rp_tw P (LE _ I)). split; apply (rp_e P); auto.
    - intros x Lx. destruct (ed_old_e D Lx) as (A & B & C & O). destruct (rp_e P (LO _ Lx)) as (_ & A' & O' & B').
      split; [congruence|]. split; [congruence|]. intros NE. split; [rewrite (rp_old P (LO _ Lx)); auto|].
      rewrite O'. auto.
    - intros v Lv. rewrite <- (proj1 (ed_old_v D Lv)). apply (rp_v P). apply (proj2 (proj2 (ed_v D))); auto.
    - intros s H K. eapply rp_loop; eauto. apply D; auto.
    - intros s H K. rewrite MT. eapply rp_loop; eauto. apply D; auto.
    - intros s1 s2 H. rewrite MT. eapply rp_loop; eauto. apply D; auto.
    - intros l H K K'. eapply rp_loop; eauto. apply (ed_loops D); auto.
  Qed.

  (** * the other half-edges keep exactly two half-edges at their origin *)
  Lemma lt_in g es vs x : leads_through g es vs -> In x es -> exists v w, leads g x v w /\ In v vs /\ In w (tl vs).
  Proof.
    revert vs. induction es as [|e es IH]; intros vs H I; [destruct I|].
    destruct vs as [|v [|w vs]]; cbn in H; try contradiction. destruct H as [H1 H2]. destruct I as [<-|I].
    - exists v, w. cbn. auto.
    - destruct (IH _ H2 I) as (a & b & A & B & C). exists a, b. cbn in *. auto.
  Qed.
  Lemma two_edges_kept g h e es vs y ys e' : WF g -> lv g e = true -> lv g e' = true -> e' <> e ->
    straightened g h e es vs y ys -> two_edges g e' -> two_edges h e'.
  Proof.
    intros W L L' NE S (x & XN & XL & XO & XA).
    assert (LO : forall z, lv g z = true -> lv h z = true) by (intros z Lz; apply (proj2 (proj2 (st_e S))); auto).
    assert (OG : forall z, lv g z = true -> z <> e -> og h z = og g z) by (intros z Lz N; apply (st_old_e S Lz); auto).
    assert (NV : forall v, In v vs -> lvv g v = false) by (apply (st_v S)).
    assert (LV : lvv g (og g e') = true) by (apply (wf_og W); auto).
    (* the half-edges at an old vertex *)
    assert (HD : es = [] /\ og h e = og g e \/ exists e1 es', es = e1 :: es' /\ og h e1 = og g e /\ lv h e1 = true /\
      (forall z, In z es' -> In (og h z) vs) /\ In (og h e) vs).
    { pose proof (st_path S) as P. destruct es as [|e1 es'].
      - left. split; auto. cbn in P. destruct vs; cbn in P; apply P.
      - right. exists e1, es'. cbn in P. destruct vs as [|v vs']; cbn in P.
        { destruct P as [P1 P2]. destruct (es' ++ [e]) eqn:Q; [destruct es'; discriminate|]. destruct P2. }
        destruct P as [(P0 & P1 & _) P2].
        split; auto. split; auto. split; auto.
        assert (K : forall z, In z (es' ++ [e]) -> In (og h z) (v :: vs')).
        { clear - P2. intros z I. revert v vs' P2. generalize (target g e). intros tg.
          revert I. generalize (es' ++ [e]). intros l.
          induction l as [|a l IH]; intros I v vs' P; [destruct I|].
          destruct vs' as [|w vs']; cbn in P.
          - destruct P as [(_ & A & _) B]. destruct I as [<-|I]; [left; auto|]. destruct l; [destruct I|destruct B].
          - destruct P as [(_ & A & _) B]. destruct I as [<-|I]; [left; auto|]. right. apply IH; auto. }
        split; [intros z I; apply K, in_app_iff; auto|apply K, in_app_iff; right; left; auto]. }
    assert (TW : forall z, In z es -> In (og h (tw h z)) vs).
    { intros z I. pose proof (st_path S) as P. revert P I. generalize (og g e). generalize es. clear.
      intros es. revert vs. induction es as [|a es IH]; intros vs o P I; [destruct I|].
      destruct vs as [|v vs]; cbn in P.
      - destruct P as [_ P]. destruct (es ++ [e]) eqn:Q; [destruct es; discriminate|destruct P].
      - destruct P as [(_ & _ & A) B]. destruct I as [<-|I]; [left; auto|]. right. apply (IH _ v); auto. }
    assert (O' : og h e' = og g e') by (apply OG; auto).
    destruct (Nat.eq_dec x e) as [->|XE].
    - (* the divided half-edge was the other one *)
      destruct HD as [[HE HO]|(e1 & es' & HE & HO & H1 & H2 & H3)].
      + exists e. rewrite O', HO. do 3 (split; auto). intros z Lz Oz.
        apply (proj2 (proj2 (st_e S))) in Lz as [Lz|Lz]; [|subst es; destruct Lz].
        destruct (Nat.eq_dec z e); auto. apply XA; auto. rewrite <- OG; auto.
      + exists e1. rewrite O', HO. split.
        { intros ->. destruct (st_e S) as (_ & K & _). rewrite K in L'; [discriminate|]. subst es. left; auto. }
        do 2 (split; auto). intros z Lz Oz.
        apply (proj2 (proj2 (st_e S))) in Lz as [Lz|Lz].
        * destruct (Nat.eq_dec z e) as [->|Ze].
          { apply NV in H3. rewrite Oz in H3. congruence. }
          destruct (XA z Lz) as [-> | ->]; auto; [|congruence]. rewrite <- OG; auto.
        * apply in_app_iff in Lz as [Lz|Lz].
          { subst es. destruct Lz as [<-|Lz]; auto. apply H2, NV in Lz. rewrite Oz in Lz. congruence. }
          apply in_map_iff in Lz as (w & <- & Lz). apply TW, NV in Lz. rewrite Oz in Lz. congruence.
    - (* it was not *)
      assert (OE : og g e <> og g e') by (intros Q; destruct (XA e L Q); congruence).
      exists x. rewrite O', OG by auto. do 3 (split; auto). intros z Lz Oz.
      apply (proj2 (proj2 (st_e S))) in Lz as [Lz|Lz].
      + destruct (Nat.eq_dec z e) as [->|Ze].
        { exfalso. destruct HD as [[HE HO]|(e1 & es' & HE & HO & H1 & H2 & H3)]; [congruence|].
          apply NV in H3. rewrite Oz in H3. congruence. }
        apply XA; auto. rewrite <- OG; auto.
      + exfalso. apply in_app_iff in Lz as [Lz|Lz].
        * destruct HD as [[HE HO]|(e1 & es' & HE & HO & H1 & H2 & H3)]; [subst es; destruct Lz|].
          subst es. destruct Lz as [<-|Lz]; [congruence|]. apply H2, NV in Lz. rewrite Oz in Lz. congruence.
        * apply in_map_iff in Lz as (w & <- & Lz). apply TW, NV in Lz. rewrite Oz in Lz. congruence.
  Qed.

  (** * all divisions *)
  Lemma divided_start g y ps : WF g -> divided_all g g y [] (fun _ => []) (fun _ => []) ps.
  Proof.
    intros W. split; cbn; try tauto; auto.
    - apply added_nil; auto.
    - apply added_nil; auto.
    - intros f. split; auto.
    - intros l H. replace (flat_map (pieces g g (fun _ => [])) l) with l; auto.
      clear. induction l; cbn; auto. congruence.
  Qed.

  Lemma fu_same {A} (f : nat -> A) e v : fu f e v e = v.
  Proof. unfold fu. rewrite Nat.eqb_refl. auto. Qed.
  Lemma fu_other {A} (f : nat -> A) e v x : x <> e -> fu f e v x = f x.
  Proof. unfold fu. intros N. apply Nat.eqb_neq in N. rewrite N. auto. Qed.

  Lemma pieces_rot g g' es l1 l2 : loop g' (flat_map (pieces g g' es) (l1 ++ l2)) -> loop g' (flat_map (pieces g g' es) (l2 ++ l1)).
  Proof. rewrite !fm_app. apply loop_rot. Qed.

  Lemma divided_step g g1 h y L es vs ps e es0 vs0 ys : WF g -> WF g1 -> lv g e = true -> ~ In e L -> ~ In (tw g e) L ->
    (forall x, In x L -> lv g x = true) ->
    divided_all g g1 y L es vs ps -> straightened g1 h e es0 vs0 y ys ->
    divided_all g h y (L ++ [e]) (fu es e es0) (fu vs e vs0) (fu ps e ys).
  Proof.
    intros W W1 Le NL NT LL D S.
    assert (LO : forall x, lv g x = true -> lv g1 x = true) by (intros x Lx; apply (proj2 (proj2 (da_e D))); auto).
    assert (LN : forall a x, In a L -> In x (es a) -> lv g1 x = true /\ lv g x = false).
    { intros a x Ia Ix. assert (I : In x (flat_map (fun e => es e ++ map (tw g1) (es e)) L)).
      { apply in_flat_map. exists a. split; auto. apply in_app_iff; auto. }
      split; [apply (proj2 (proj2 (da_e D))); auto|apply (da_e D); auto]. }
    assert (LN2 : forall a x, In a L -> In x (es a) -> lv g1 (tw g1 x) = true /\ lv g (tw g1 x) = false).
    { intros a x Ia Ix. assert (I : In (tw g1 x) (flat_map (fun e => es e ++ map (tw g1) (es e)) L)).
      { apply in_flat_map. exists a. split; auto. apply in_app_iff; right. apply in_map; auto. }
      split; [apply (proj2 (proj2 (da_e D))); auto|apply (da_e D); auto]. }
    assert (MT : forall a, map (tw h) (es a) = map (tw g1) (es a)).
    { intros a. destruct (in_dec Nat.eq_dec a L) as [I|N].
      - apply map_ext_in. intros x Ix. apply (st_old_e S). apply (LN a); auto.
      - rewrite (da_none D N). auto. }
    assert (TE : tw g1 e = tw g e) by (apply (da_old_e D Le)).
    assert (OE : og g1 e = og g e) by (apply (da_old_e D Le); auto).
    assert (LT : lv g (tw g e) = true) by (apply (wf_tw W); auto).
    assert (TG : target g1 e = target g e) by (unfold target; rewrite TE; apply (da_old_e D LT); auto).
    assert (NE : forall a, In a L -> a <> e) by (intros a I ->; auto).
    assert (VN : forall a v, In a L -> In v (vs a) -> lvv g1 v = true).
    { intros a v Ia Iv. apply (proj2 (proj2 (da_v D))). right. apply in_flat_map. eauto. }
    assert (NX : forall a x, In a L -> In x (es a) -> x <> e /\ tw g1 x <> e).
    { intros a x Ia Ix. destruct (LN a x Ia Ix) as [_ A]. destruct (LN2 a x Ia Ix) as [_ B]. split; congruence. }
    split.
    - rewrite fm_app. cbn [flat_map]. rewrite app_nil_r, fu_same. eapply added_app; [|apply (st_e S)].
      pose proof (da_e D) as Q. erewrite fm_ext; [exact Q|]. intros a I. cbn beta. rewrite fu_other, MT; auto.
    - rewrite fm_app. cbn [flat_map]. rewrite app_nil_r, fu_same. eapply added_app; [|apply (st_v S)].
      pose proof (da_v D) as Q. erewrite fm_ext; [exact Q|]. intros a I. rewrite fu_other; auto.
    - intros f. destruct (da_f D f) as [A B]. destruct (st_f S f) as [A' B']. split; [congruence|].
      intros Lf. destruct (B Lf) as [B1 B2]. rewrite <- A in Lf. destruct (B' Lf) as [B1' B2']. split; congruence.
    - intros a I. apply in_app_iff in I as [I|[<-|[]]].
      + rewrite !fu_other by auto. pose proof (da_path D I) as P. pose proof (LL _ I) as La.
        assert (K : forall x, In x (es a ++ [a]) -> lv g1 x = true /\ x <> e /\ tw g1 x <> e).
        { intros x Ix. apply in_app_iff in Ix as [Ix|[<-|[]]].
          - split; [apply (LN a); auto|]. apply (NX a); auto.
          - split; auto. split; auto. destruct (da_old_e D La) as (-> & _). intros Q. apply NT. rewrite <- Q, (wf_twtw W); auto. }
        revert P K. generalize (es a ++ [a]), (og g a :: vs a ++ [target g a]). clear - S W1. intros l.
        induction l as [|x l IH]; intros w P K; destruct w as [|p [|q w]]; cbn in *; auto.
        destruct P as [(A & B & C) P]. split; [|apply IH; auto].
        destruct (K x (or_introl eq_refl)) as (Lx & N1 & N2).
        split; [apply (proj2 (proj2 (st_e S))); auto|]. split; [rewrite <- B; apply (st_old_e S); auto|].
        unfold target in *. destruct (st_old_e S Lx) as (-> & _). rewrite <- C. apply (st_old_e S); auto. apply (wf_tw W1); auto.
      + rewrite !fu_same. rewrite <- OE, <- TG. apply (st_path S).
    - intros a I. apply in_app_iff in I as [I|[<-|[]]].
      + rewrite !fu_other by auto. rewrite <- (da_pos D I). apply map_ext_in. intros v Iv. apply (st_old_v S). eauto.
      + rewrite !fu_same. apply (st_pay S).
    - intros a x I. apply in_app_iff in I as [I|[<-|[]]].
      + rewrite fu_other by auto. intros Ix. rewrite <- (da_pay D I Ix). apply in_app_iff in Ix as [Ix|[<-|[]]].
        * destruct (LN a x I Ix) as [Lx _]. apply (st_old_e S Lx). apply (NX a); auto.
        * apply (st_old_e S); auto.
      + rewrite fu_same. apply (st_pay1 S).
    - intros a x I. apply in_app_iff in I as [I|[<-|[]]].
      + rewrite fu_other by auto. intros Ix. rewrite <- (da_back D I Ix).
        destruct (LN a x I Ix) as [Lx _]. destruct (st_old_e S Lx) as (-> & _).
        destruct (LN2 a x I Ix) as [Lt _]. apply (st_old_e S Lt). apply (NX a); auto.
      + rewrite fu_same. apply (st_pay2 S).
    - intros a x I. apply in_app_iff in I as [I|[<-|[]]].
      + rewrite fu_other by auto. intros Ix. destruct (da_face D I Ix) as [<- <-].
        destruct (LN a x I Ix) as [Lx _]. destruct (st_old_e S Lx) as (-> & -> & _). split; auto.
        destruct (LN2 a x I Ix) as [Lt _]. apply (st_old_e S Lt).
      + rewrite fu_same. intros Ix. destruct (st_face S Ix) as [-> ->]. rewrite TE. split; [apply (da_old_e D Le)|apply (da_old_e D LT)].
    - intros a N. rewrite in_app_iff in N. cbn in N. rewrite fu_other by (intros ->; tauto). apply (da_none D). tauto.
    - intros x Lx. destruct (da_old_e D Lx) as (A & B & C). destruct (st_old_e S (LO _ Lx)) as (A' & B' & C').
      split; [congruence|]. split; [congruence|]. rewrite in_app_iff. cbn. intros N.
      assert (N1 : ~ In x L) by tauto. assert (N2 : x <> e) by (intros ->; tauto).
      destruct (C N1) as [C1 C2]. destruct (C' N2) as [C3 C4]. split; congruence.
    - intros v Lv. rewrite <- (da_old_v D Lv). apply (st_old_v S). apply (proj2 (proj2 (da_v D))); auto.
    - (* loops *)
      assert (PO : forall x, lv g x = true -> x <> e -> x <> tw g e -> pieces g h (fu es e es0) x = pieces g g1 es x).
      { intros x Lx N1 N2. unfold pieces. rewrite fu_other by auto. rewrite fu_other; [rewrite MT; auto|].
        intros Q. apply N2. rewrite <- Q, (wf_twtw W); auto. }
      assert (PE : pieces g h (fu es e es0) e = es0 ++ [e]).
      { unfold pieces. rewrite fu_same. rewrite fu_other by (apply (wf_twne W); auto). rewrite (da_none D NT). auto. }
      assert (PT : pieces g h (fu es e es0) (tw g e) = tw g e :: rev (map (tw h) es0)).
      { unfold pieces. rewrite fu_other by (apply (wf_twne W); auto). rewrite (da_none D NT), (wf_twtw W), fu_same; auto. }
      assert (PE1 : pieces g g1 es e = [e]).
      { unfold pieces. rewrite (da_none D NT), (da_none D NL). auto. }
      assert (PT1 : pieces g g1 es (tw g e) = [tw g e]).
      { unfold pieces. rewrite (wf_twtw W), (da_none D NT), (da_none D NL); auto. }
      assert (IN : forall x l, lv g x = true -> In x (flat_map (pieces g g1 es) l) -> In x l).
      { intros x l Lx I. apply in_flat_map in I as (a & Ia & I). unfold pieces in I.
        assert (EM : forall b, In b L \/ es b = []).
        { intros b. destruct (in_dec Nat.eq_dec b L); auto. right. apply (da_none D); auto. }
        apply in_app_iff in I as [I|[<-|I]]; auto.
        - destruct (EM a) as [Q|Q]; [|rewrite Q in I; destruct I]. destruct (LN a x Q I). congruence.
        - apply in_rev, in_map_iff in I as (z & <- & I).
          destruct (EM (tw g a)) as [Q|Q]; [|rewrite Q in I; destruct I]. destruct (LN2 _ z Q I). congruence. }
      assert (SAME : forall l, (forall x, In x l -> lv g x = true) -> ~ In e l -> ~ In (tw g e) l ->
        flat_map (pieces g h (fu es e es0)) l = flat_map (pieces g g1 es) l).
      { intros l Ll N1 N2. apply fm_ext. intros x I. apply PO; auto; congruence. }
      intros l Q. pose proof (da_loops D Q) as Q1. destruct Q as [Ll C]. apply cycle_nodup in C.
      destruct (in_dec Nat.eq_dec e l) as [I|I].
      + apply in_split in I as (l1 & l2 & ->). apply pieces_rot. apply (pieces_rot (l1 := l1)) in Q1.
        change (e :: l2) with ([e] ++ l2) in *. rewrite <- !app_assoc in *. cbn [app] in *.
        assert (ND : NoDup (e :: l2 ++ l1)).
        { eapply Permutation_NoDup; [|exact C]. apply (Permutation_app_comm l1 (e :: l2)). }
        assert (Lr : forall x, In x (l2 ++ l1) -> lv g x = true).
        { intros x I. apply Ll. apply in_app_iff in I. apply in_app_iff. cbn. tauto. }
        revert Q1 ND Lr. generalize (l2 ++ l1). clear l1 l2 Ll C. intros l Q1 ND Lr. apply NoDup_cons_iff in ND as [ND1 ND2].
        cbn [flat_map] in *. rewrite PE. rewrite PE1 in Q1. cbn [app] in Q1.
        destruct (in_dec Nat.eq_dec (tw g e) l) as [J|J].
        * apply in_split in J as (s1 & s2 & ->). rewrite !fm_app in *. cbn [flat_map] in *. rewrite PT. rewrite PT1 in Q1.
          rewrite <- TE in Q1. cbn [app] in Q1. apply (st_loop_both S) in Q1.
          apply NoDup_remove_2 in ND2. rewrite in_app_iff in ND1, ND2. cbn in ND1.
          rewrite !SAME; try tauto; try (intros x I; apply Lr, in_app_iff; cbn; tauto).
          rewrite TE in Q1. rewrite <- app_assoc. apply (loop_rot (l2 := es0)). cbn [app]. rewrite <- ?app_assoc. cbn [app]. rewrite <- ?app_assoc. exact Q1.
        * rewrite SAME by auto. rewrite <- app_assoc. apply (loop_rot (l2 := es0)). cbn [app]. apply (st_loop_e S Q1).
          rewrite TE. intros K. apply J, IN; auto.
      + destruct (in_dec Nat.eq_dec (tw g e) l) as [J|J].
        * apply in_split in J as (l1 & l2 & ->). apply pieces_rot. apply (pieces_rot (l1 := l1)) in Q1.
          assert (ND : NoDup (tw g e :: l2 ++ l1)).
          { eapply Permutation_NoDup; [|exact C]. apply (Permutation_app_comm l1 (tw g e :: l2)). }
          assert (Lr : forall x, In x (l2 ++ l1) -> lv g x = true).
          { intros x K. apply Ll. apply in_app_iff in K. apply in_app_iff. cbn. tauto. }
          assert (NI : ~ In e (l2 ++ l1)) by (rewrite in_app_iff in *; cbn in I; tauto).
          cbn [app] in *. revert Q1 ND Lr NI. generalize (l2 ++ l1). clear - S SAME PT PT1 TE IN Le. intros l Q1 ND Lr NI.
          apply NoDup_cons_iff in ND as [ND1 ND2]. cbn [flat_map] in *. rewrite PT1 in Q1. rewrite PT. cbn [app] in *.
          rewrite SAME by auto. rewrite <- TE in Q1. apply (st_loop_t S) in Q1; [|intros K; apply NI, IN; auto].
          rewrite TE in Q1. exact Q1.
        * rewrite SAME by auto. apply (st_loops S Q1); [|rewrite TE]; intros K; [apply I|apply J]; apply IN; auto.
  Qed.
End Step.

Section Fold.
  Variables (R : Type) (zero : R).
  Context {FP : Type}.
  Notation vec := (vec R).
  Notation curve := (curve R).
  Notation graph := (graph (pnu R) curve FP).
  Notation mesh := (mesh (pnu R) curve FP).
  Implicit Types (g : graph) (m : mesh).
  Variable flat : curve -> vec -> vec -> res (list vec).

  Definition some_pts (pts : nat -> list vec) (e : nat) : bool := negb (length (pts e) =? 0).
  Lemma some_pts_iff pts e : some_pts pts e = true <-> pts e <> [].
  Proof. unfold some_pts. destruct (pts e); cbn; intuition discriminate. Qed.
  Lemma divided_ps g g' (y : curve) L es vs ps ps' : (forall e, In e L -> ps e = ps' e) -> divided_all g g' y L es vs ps -> divided_all g g' y L es vs ps'.
  Proof. intros H D. destruct D. split; auto. intros e I. rewrite <- H; auto. Qed.

  Lemma linear_dec g e : lv g e = true -> forall x, ep g e = Some x -> curved g e /\ is_linear x = false \/ ~ curved g e /\ is_linear x = true.
  Proof.
    intros L x E. destruct x; cbn; [right|left|left]; split; auto.
    - intros (_ & cv & Q & N). congruence.
    - split; auto. eexists. split; [exact E|discriminate].
    - split; auto. eexists. split; [exact E|discriminate].
  Qed.

  Lemma flatten_fold c m0 pts : wf m0 -> (forall e, curved (abs m0) e -> inner flat (abs m0) e (pts e)) ->
    (forall e, ~ curved (abs m0) e -> pts e = []) ->
    (forall e, pts e <> [] -> two_edges (abs m0) e) -> (forall e, pts e <> [] -> ~ curved (abs m0) (tw (abs m0) e)) ->
    forall l m L es vs a b d, NoDup (L ++ l) -> (forall e, In e (L ++ l) -> lv (abs m0) e = true) -> (forall e, In e L -> pts e <> []) ->
    (forall e, In e l -> pts e <> [] -> two_edges (abs m) e) -> wf m ->
    fits c m (2 * list_sum (map (fun e => length (pts e)) l) + a) (list_sum (map (fun e => length (pts e)) l) + b) d ->
    divided_all (abs m0) (abs m) (Linear R) L es vs (fun e => map (u_from_pos zero) (pts e)) ->
    exists m' es' vs', foldM (fun m e => flatten_edge zero flat c m e) l m = Ok m' /\ wf m' /\ fits c m' a b d /\
      divided_all (abs m0) (abs m') (Linear R) (L ++ filter (some_pts pts) l) es' vs' (fun e => map (u_from_pos zero) (pts e)).
  Proof.
    intros Wm0 IN NC TE CC l. set (g := abs m0) in *. pose proof (wfW Wm0) as W0. fold g in W0.
    induction l as [|e l IH]; intros m L es vs a b d ND LL LP TW Wm F D.
    - exists m, es, vs. cbn [foldM filter]. rewrite app_nil_r. cbn in F. auto.
    - cbn [foldM]. destruct (wf_abs Wm) as [Rm W].
      assert (Le : lv g e = true) by (apply LL, in_app_iff; right; left; auto).
      assert (Lm : forall x, lv g x = true -> lv (abs m) x = true) by (intros x Lx; apply (proj2 (proj2 (da_e D))); auto).
      assert (NL : ~ In e L) by (intros I; apply NoDup_remove_2 in ND; apply ND, in_app_iff; auto).
      assert (ND' : NoDup (L ++ l)) by (apply NoDup_remove_1 in ND; auto).
      assert (LL' : forall x, In x (L ++ l) -> lv g x = true) by (intros x I; apply LL; apply in_app_iff in I; apply in_app_iff; cbn; tauto).
      destruct (r_edge_live Rm _ (Lm _ Le)) as (x & EX & _ & _ & _ & _ & _ & PX).
      assert (PG : ep g e = Some (e_pay x)) by (rewrite <- PX; symmetry; apply (da_old_e D Le); auto).
      unfold flatten_edge at 1. rewrite EX. cbn [bind].
      destruct (linear_dec Le PG) as [[CU IL]|[CU IL]]; rewrite IL.
      2: { cbn [bind]. assert (PN := NC _ CU). cbn [filter]. unfold some_pts at 1. rewrite PN. cbn [length Nat.eqb negb].
        cbn [map list_sum fold_right] in F. rewrite PN in F. cbn in F. apply IH with es vs; auto. intros z I. apply TW; right; auto. }
      (* the ends are those of the old mesh *)
      assert (NT : ~ In (tw g e) L).
      { intros I. apply (CC _ (LP _ I)). rewrite (wf_twtw W0); auto. }
      assert (LT : lv g (tw g e) = true) by (apply (wf_tw W0); auto).
      assert (OG : og (abs m) e = og g e) by (apply (da_old_e D Le); auto).
      assert (TG : target (abs m) e = target g e).
      { unfold target. replace (tw (abs m) e) with (tw g e) by (symmetry; apply (da_old_e D Le)). apply (da_old_e D LT); auto. }
      destruct (ends_ok Wm (Lm _ Le)) as (u & v & EU & EV & EE). rewrite EE. cbn [bind].
      destruct (IN _ CU) as (_ & p & q & cv & (PE & pu & pv & PU & PV & -> & ->) & FL).
      assert (cv = e_pay x) as -> by congruence.
      assert (LU : lvv g (og g e) = true) by (apply (wf_og W0); auto).
      assert (LV : lvv g (target g e) = true) by (apply (wf_og W0); auto).
      assert (v_pay u = pu) as EPU.
      { rewrite OG in EU. destruct (r_vertex_live Rm (og g e)) as (u' & EU' & _ & PU').
        { apply (proj2 (proj2 (da_v D))); auto. } rewrite (da_old_v D LU) in PU'. congruence. }
      assert (v_pay v = pv) as EPV.
      { rewrite TG in EV. destruct (r_vertex_live Rm (target g e)) as (u' & EU' & _ & PU').
        { apply (proj2 (proj2 (da_v D))); auto. } rewrite (da_old_v D LV) in PU'. congruence. }
      rewrite EPU, EPV, FL. cbn [bind]. cbn [map list_sum fold_right] in F. cbn [filter]. unfold some_pts at 1.
      pose proof (TW e (or_introl eq_refl)) as TW2. fold (list_sum (map (fun e => length (pts e)) l)) in F.
      set (ls := list_sum (map (fun e => length (pts e)) l)) in *.
      destruct (pts e) as [|q0 qs] eqn:EQ.
      + cbn in F. cbn [length Nat.eqb negb bind]. apply IH with es vs; auto. intros z I. apply TW; right; auto.
      + cbn [length Nat.eqb negb]. rewrite <- EQ in *.
        assert (PN : pts e <> []) by (rewrite EQ; discriminate).
        destruct (insert_vertices_divides (c := c) (e := e) (ps := map (fun v => (Linear R, Linear R, v)) (map (u_from_pos zero) (pts e)))
          (a := 2 * ls + a) (b := ls + b) (d := d) Wm (Lm _ Le) (TW2 PN)) as (m1 & es0 & vs0 & E1 & Wm1 & F1 & D1).
        { rewrite !map_length. eapply fits_le; [exact Wm|exact F| | |]; lia. }
        rewrite map_map in E1. rewrite E1. cbn [bind].
        assert (L1 : lv (abs m1) e = true) by (apply (proj2 (proj2 (ed_e D1))); auto).
        assert (P1 : ep (abs m1) e = Some (e_pay x)) by (rewrite <- PX; apply (ed_old_e D1); auto).
        destruct (do_pay (fun _ => Linear R) Wm1 F1 L1 P1) as (m2 & E2 & Wm2 & F2 & RP).
        unfold setpay in E2. rewrite E2. cbn [bind].
        pose proof (straighten W (wfW Wm1) (Lm _ Le) D1 RP) as S.
        assert (D2 := divided_step W0 W Le NL NT (fun z I => LL' z (in_or_app _ _ _ (or_introl I))) D S).
        assert (D3 : divided_all g (abs m2) (Linear R) (L ++ [e]) (fu es e es0) (fu vs e vs0) (fun e => map (u_from_pos zero) (pts e))).
        { eapply divided_ps; [|exact D2]. intros z I. cbn beta. unfold fu. destruct (Nat.eqb_spec z e) as [->|]; auto. }
        edestruct (IH m2 (L ++ [e])) as (m' & es' & vs' & E' & Wm' & F' & D'); [| | | | |exact F2|exact D3|].
        * rewrite <- app_assoc. exact ND.
        * rewrite <- app_assoc. exact LL.
        * intros z I. apply in_app_iff in I as [I|[<-|[]]]; auto.
        * intros z I Pz. apply two_edges_kept with (abs m) e es0 vs0 (Linear R) (map (u_from_pos zero) (pts e)); auto.
          -- apply Lm, LL'. apply in_app_iff; auto.
          -- intros ->. apply NoDup_remove_2 in ND. apply ND, in_app_iff; auto.
          -- apply TW; [right|]; auto.
        * exact Wm2.
        * exists m', es', vs'. split; [exact E'|]. do 2 (split; auto). rewrite <- app_assoc in D'. exact D'.
  Qed.

  Theorem flatten_ok c m pts a b d : wf m -> (forall e, curved (abs m) e -> inner flat (abs m) e (pts e)) ->
    (forall e, ~ curved (abs m) e -> pts e = []) ->
    (forall e, pts e <> [] -> two_edges (abs m) e /\ ~ curved (abs m) (tw (abs m) e)) ->
    fits c m (2 * list_sum (map (fun e => length (pts e)) (edge_ids m)) + a) (list_sum (map (fun e => length (pts e)) (edge_ids m)) + b) d ->
    exists m' L es vs, flatten_curved_edges zero flat c m = Ok m' /\ wf m' /\ fits c m' a b d /\
      (forall e, In e L <-> pts e <> []) /\
      divided_all (abs m) (abs m') (Linear R) L es vs (fun e => map (u_from_pos zero) (pts e)).
  Proof.
    intros Wm IN NC TE F. pose proof (wfW Wm) as W.
    destruct (@flatten_fold c m pts Wm IN NC (fun e P => proj1 (TE e P)) (fun e P => proj2 (TE e P)) (edge_ids m) m [] (fun _ => []) (fun _ => []) a b d)
      as (m' & es & vs & E & Wm' & F' & D); auto.
    - apply edge_ids_nodup; auto.
    - intros e I. apply edge_ids_live; auto.
    - intros e _ P. apply TE; auto.
    - apply divided_start; auto.
    - exists m', (filter (some_pts pts) (edge_ids m)), es, vs. do 3 (split; auto). split; auto.
      intros e. rewrite filter_In, some_pts_iff, edge_ids_live by auto. split; [tauto|]. intros P. split; auto.
      destruct (lv (abs m) e) eqn:L; auto. exfalso. apply P, NC. intros [Q _]. congruence.
  Qed.

  (** What is still curved afterwards. *)
  Theorem flatten_left m m' pts L es vs : wf m -> wf m' -> (forall e, curved (abs m) e -> inner flat (abs m) e (pts e)) ->
    (forall e, ~ curved (abs m) e -> pts e = []) -> (forall e, In e L <-> pts e <> []) ->
    divided_all (abs m) (abs m') (Linear R) L es vs (fun e => map (u_from_pos zero) (pts e)) ->
    forall e, curved (abs m') e <-> curved (abs m) e /\ pts e = [].
  Proof.
    intros Wm Wm' IN NC IL D e. assert (LL : forall e, pts e = [] <-> ~ In e L).
    { intros z. rewrite IL. destruct (pts z); intuition congruence. }
    rewrite LL. split.
    - intros (Lx & cv & E & N). apply (proj2 (proj2 (da_e D))) in Lx as [Lx|Lx].
      + destruct (in_dec Nat.eq_dec e L) as [I|I].
        { exfalso. apply N. rewrite (da_pay D I (x := e)) in E; [congruence|]. apply in_app_iff; right; left; auto. }
        split; auto. split; auto. exists cv. split; auto. rewrite <- E. symmetry. apply (da_old_e D Lx); auto.
      + exfalso. apply in_flat_map in Lx as (a & Ia & Lx). apply in_app_iff in Lx as [Lx|Lx].
        * apply N. rewrite (da_pay D Ia (x := e)) in E; [congruence|]. apply in_app_iff; auto.
        * apply in_map_iff in Lx as (z & <- & Lx). apply N. rewrite (da_back D Ia Lx) in E. congruence.
    - intros ((Lx & cv & E & N) & I). split; [apply (proj2 (proj2 (da_e D))); auto|]. exists cv. split; auto.
      rewrite <- E. apply (da_old_e D Lx); auto.
  Qed.
  Theorem has_curved_iff m : wf m -> (has_curved_edges m = true <-> exists e, curved (abs m) e).
  Proof.
    intros Wm. destruct (wf_abs Wm) as [Rm W]. unfold has_curved_edges. rewrite existsb_exists. split.
    - intros ([i x] & I & B). cbn in B. apply (iter_look (proj1 Wm)) in I. exists i. unfold curved, abs. cbn. rewrite has_look_b, I. cbn.
      split; auto. exists (e_pay x). split; auto. intros Q. rewrite Q in B. discriminate.
    - intros (e & L & cv & E & N). destruct (look (edges m) e) as [x|] eqn:Q; [|unfold abs in L; cbn in L; rewrite has_look_b, Q in L; discriminate].
      exists (e, x). split; [apply (iter_look (proj1 Wm)); auto|]. cbn. unfold abs in E. cbn in E. rewrite Q in E. cbn in E.
      injection E as <-. destruct (e_pay x); cbn; congruence.
  Qed.
  Theorem flatten_left_has m m' pts L es vs : wf m -> wf m' -> (forall e, curved (abs m) e -> inner flat (abs m) e (pts e)) ->
    (forall e, ~ curved (abs m) e -> pts e = []) -> (forall e, In e L <-> pts e <> []) ->
    divided_all (abs m) (abs m') (Linear R) L es vs (fun e => map (u_from_pos zero) (pts e)) ->
    (forall e, curved (abs m') e <-> curved (abs m) e /\ pts e = []) /\
    (has_curved_edges m' = true <-> exists e, curved (abs m) e /\ pts e = []).
  Proof.
    intros Wm Wm' IN NC IL D. pose proof (flatten_left Wm Wm' IN NC IL D) as H. split; auto.
    rewrite (has_curved_iff Wm'). split; intros (e & C); exists e; apply H; auto.
  Qed.
End Fold.
