(** Proofs: inverse operations, flipping, sizes, pair enumeration. *)
From Coq Require Import List Arith Lia Bool Permutation.
From Verif Require Import Base DVec DVecFacts Mesh Spec Rep Cycle Traverse Room Ops Flip MeshSpec MeshMore MeshProofs CheckProofs.
Import ListNotations.
Set Implicit Arguments.
Unset Strict Implicit.

Lemma chain_app' f x l1 l2 : chain f x (l1 ++ l2) -> chain f x l1 /\ chain f (last l1 x) l2.
Proof.
  revert x. induction l1 as [|y l IH]; intros x C; [cbn in *; auto|]. cbn [app chain] in C. destruct C as [E C].
  apply IH in C as [C1 C2]. rewrite last_cons. cbn. auto.
Qed.
Lemma last_app' {A} (l1 l2 : list A) x : last (l1 ++ l2) x = last l2 (last l1 x).
Proof.
  revert x. induction l1 as [|y l IH]; intros x; [reflexivity|]. cbn [app]. rewrite !last_cons. apply IH.
Qed.

Section MP2.
  Context {VP EP FP : Type}.
  Notation mesh := (mesh VP EP FP).
  Notation graph := (graph VP EP FP).
  Implicit Types (m : mesh) (g : graph) (c : cfg).

  (** *** close_hole and remove_face are inverse *)
  Lemma close_remove c m e y cu m1 f m2 y' : wf m -> (dbg c = true \/ fc (abs m) e = None) ->
    close_hole c m e y cu = Ok (m1, f) -> remove_face c m1 f = Ok (m2, y') ->
    y' = y /\ wf m2 /\ unchanged (abs m) (abs m2).
  Proof.
    intros Wm D H1 H2. destruct (spec_close_hole Wm D H1) as (W1 & L & F & FA).
    destruct (spec_remove_face W1 H2) as (W2 & FR & cu' & P).
    destruct (fa_face FA) as (_ & _ & P'). split; [congruence|]. split; auto.
    destruct (wf_abs Wm) as [R W]. destruct (loop_exists R W L) as [t C].
    assert (LP : loop (abs m) (e :: t)) by (split; auto; intros x I; eapply loop_live; eauto).
    split; [|split].
    - intros x. destruct (fa_edges FA x) as [LX EX]. destruct (fr_edges FR x) as [LY EY].
      split.
      + split; [congruence|]. intros LL. rewrite LL in LX. destruct (EX LL) as (A1 & A2 & A3 & A4 & A5).
        destruct (EY LX) as (B1 & B2 & B3 & B4 & B5). do 2 (split; [congruence|]). split; [|congruence].
        rewrite (fr_label FR LX). destruct (in_dec Nat.eq_dec x (e :: t)) as [I|I].
        * rewrite (fa_label FA LP I). cbn [oeqb]. rewrite Nat.eqb_refl. rewrite (loop_fc W C L I). auto.
        * rewrite (fa_other_label FA LP LL I). destruct (oeqb _ _) eqn:O; auto. apply oeqb_eq in O.
          exfalso. destruct (wf_fc W _ LL O). pose proof (fa_fresh FA). congruence.
      + intros LL. rewrite LL in LX. destruct (EX LL) as (A1 & A2 & _). destruct (EY LX) as (B1 & B2 & _). split; congruence.
    - intros v. destruct (fa_vertices FA v) as [A1 A2]. destruct (fr_vertices FR v) as [B1 B2].
      split; [congruence|]. intros LV. destruct (A2 LV). rewrite <- A1 in LV. destruct (B2 LV). split; congruence.
    - intros f'. destruct (Nat.eq_dec f' f) as [->|N].
      + pose proof (fa_fresh FA) as FF. destruct (fr_face FR) as [_ X]. split; congruence.
      + destruct (fa_faces FA N) as [A1 A2]. destruct (fr_faces FR N) as [B1 B2].
        split; [congruence|]. intros LV. destruct (A2 LV). rewrite <- A1 in LV. destruct (B2 LV). split; congruence.
  Qed.

  Lemma remove_close_id c m f m1 y e y' cu m2 f' : remove_face c m f = Ok (m1, y) ->
    close_hole c m1 e y' cu = Ok (m2, f') -> f' = f.
  Proof.
    unfold remove_face, close_hole, push_face. intros H1 H2.
    apply bind_ok in H1 as (x & _ & H1). apply bind_ok in H1 as (l & _ & H1). apply bind_ok in H1 as (m3 & _ & H1).
    apply bind_ok in H1 as (d & H3 & H1). injection H1 as <- <-.
    apply bind_ok in H2 as ((m4 & f1) & H2 & H4). apply bind_ok in H4 as (? & _ & H4). apply bind_ok in H4 as (? & _ & H4).
    injection H4 as _ <-. apply assert_ok in H2 as (_ & H2). apply bind_ok in H2 as ((d' & f2) & H2 & H5).
    injection H5 as _ <-. unfold d_delete in H3. destruct (nth_error _ f) as [[?|]|]; try discriminate. injection H3 as <-.
    unfold d_push in H2. cbn in H2. apply assert_ok in H2 as (_ & H2). match type of H2 with (if ?b then _ else _) = _ => destruct b; [|discriminate] end. congruence.
  Qed.

  Lemma remove_close c m f m1 y e cu m2 f' t : wf m -> remove_face c m f = Ok (m1, y) ->
    loop (abs m) (fe (abs m) f :: t) -> In e (fe (abs m) f :: t) ->
    close_hole c m1 e y cu = Ok (m2, f') ->
    f' = f /\ wf m2 /\
    (forall x, keep_label (abs m) (abs m2) x /\ keep_links (abs m) (abs m2) x) /\
    (forall v, keep_vertex (abs m) (abs m2) v) /\ (forall f', f' <> f -> keep_face (abs m) (abs m2) f') /\
    lvf (abs m2) f = true /\ fe (abs m2) f = e /\ fp (abs m2) f = Some (cu, y).
  Proof.
    intros Wm H1 LP I H2. pose proof (remove_close_id H1 H2). subst f'. split; auto.
    destruct (wf_abs Wm) as [R W].
    destruct (spec_remove_face Wm H1) as (W1 & FR & cu' & P).
    destruct (fr_face FR) as [LF _]. destruct (wf_fe W _ LF) as [LE FE].
    assert (LX : lv (abs m) e = true) by (apply LP; auto).
    assert (FX : fc (abs m) e = Some f) by (rewrite (loop_fc W (proj2 LP) LE I); auto).
    assert (D : dbg c = true \/ fc (abs m1) e = None).
    { right. rewrite (fr_label FR LX), FX. cbn [oeqb]. rewrite Nat.eqb_refl. auto. }
    destruct (spec_close_hole W1 D H2) as (W2 & L1 & F1 & FA). split; auto.
    destruct (wf_abs W1) as [R1 WW1]. destruct (loop_exists R1 WW1 L1) as [t1 C1].
    assert (LP1 : loop (abs m1) (e :: t1)) by (split; auto; intros x J; eapply loop_live; eauto).
    assert (SAME : forall x, lv (abs m) x = true -> (In x (e :: t1) <-> fc (abs m) x = Some f)).
    { intros x XL. split.
      - intros J. apply (cycle_reach _ C1) in J.
        assert (G : lv (abs m) x = true /\ fc (abs m) x = Some f); [|apply G].
        eapply reach_inv with (P := fun x => lv (abs m) x = true /\ fc (abs m) x = Some f); [|split; [exact LX|exact FX]|exact J].
        intros z [LZ FZ]. destruct (fr_edges FR z) as [_ EZ]. destruct (EZ LZ) as (-> & _). split; [apply W; auto|].
        rewrite (wf_fcnx W); auto.
      - intros FF. destruct (wf_fc W _ XL FF) as [_ RX].
        assert (J : In x (fe (abs m) f :: t)) by (apply (cycle_reach _ (proj2 LP)); auto).
        apply (cycle_reach _ C1).
        assert (RE : reach (nx (abs m)) e x).
        { destruct (loop_exists R W LX) as [t' C']. apply (cycle_reach _ C').
          apply (cycle_same (proj2 LP) C' (x := e)); auto. left; auto. }
        clear - RE FR LX W. induction RE as [|b RE IH].
        + constructor.
        + assert (LB : lv (abs m) b = true).
          { eapply reach_inv with (P := fun x => lv (abs m) x = true); [|exact LX|exact RE]. intros; apply W; auto. }
          destruct (fr_edges FR b) as [_ EB]. destruct (EB LB) as (<- & _). apply reach_step. auto. }
    split; [|split; [|split]].
    - intros x. destruct (fr_edges FR x) as [LY EY]. destruct (fa_edges FA x) as [LZ EZ]. split.
      + split; [congruence|]. intros LL. rewrite LL in LY. destruct (EY LL) as (A1 & A2 & A3 & A4 & A5).
        destruct (EZ LY) as (B1 & B2 & B3 & B4 & B5). do 2 (split; [congruence|]). split; [|congruence].
        destruct (in_dec Nat.eq_dec x (e :: t1)) as [J|J].
        * rewrite (fa_label FA LP1 J). symmetry. apply SAME; auto.
        * rewrite (fa_other_label FA LP1 LY J), (fr_label FR LL). destruct (oeqb _ _) eqn:O; auto.
          apply oeqb_eq in O. exfalso. apply J, SAME; auto.
      + intros LL. rewrite LL in LY. destruct (EY LL) as (A1 & A2 & _). destruct (EZ LY) as (B1 & B2 & _). split; congruence.
    - intros v. destruct (fa_vertices FA v) as [A1 A2]. destruct (fr_vertices FR v) as [B1 B2].
      split; [congruence|]. intros LV. destruct (B2 LV). rewrite <- B1 in LV. destruct (A2 LV). split; congruence.
    - intros f' N. destruct (fa_faces FA N) as [A1 A2]. destruct (fr_faces FR N) as [B1 B2].
      split; [congruence|]. intros LV. destruct (B2 LV). rewrite <- B1 in LV. destruct (A2 LV). split; congruence.
    - apply FA.
  Qed.

  (** *** flipping *)
  Lemma swap_swap e t x : swap e t (swap e t x) = x.
  Proof. apply swp_swp. Qed.

  Lemma flip_twice m e m1 m2 : wf m ->
    flippable (abs m) e -> flip_edge m e = Ok m1 -> flip_edge m1 e = Ok m2 ->
    wf m2 /\ (forall x, keep_label (abs m) (abs m2) x /\ keep_links (abs m) (abs m2) x) /\
    (forall v, lvv (abs m2) v = lvv (abs m) v /\ (lvv (abs m) v = true -> vp (abs m2) v = vp (abs m) v)) /\
    (forall f, lvf (abs m2) f = lvf (abs m) f /\ (lvf (abs m) f = true -> fp (abs m2) f = fp (abs m) f)).
  Proof.
    intros Wm P H1 H2. destruct (spec_flip (mkCfg 0 0 0 true) Wm (fun _ => P) H1) as (W1 & L & [E K _ V F]).
    destruct (wf_abs Wm) as [R W]. set (t := tw (abs m) e) in *.
    assert (LT : lv (abs m) t = true) by (apply W; auto).
    assert (NE : t <> e) by (apply W; auto).
    assert (LS : forall x, lv (abs m) (swap e t x) = lv (abs m) x).
    { intros x. unfold swap. destruct (Nat.eqb_spec x e); [congruence|]. destruct (Nat.eqb_spec x t); congruence. }
    assert (P1 : flippable (abs m1) e).
    { destruct P as (P1 & P2 & P3 & P4). fold t in P1, P2, P3, P4. unfold flippable.
      destruct (E e) as [_ EE]. destruct (EE L) as (-> & _). fold t.
      destruct (K e L) as [-> _]. destruct (K t LT) as [-> _].
      assert (SE : swap e t e = t) by apply swp_l. assert (ST : swap e t t = e) by apply swp_r.
      rewrite SE, ST.
      assert (X : forall a b, swap e t a = b <-> a = swap e t b) by (intros a b; split; intros Q; [rewrite <- Q|rewrite Q]; rewrite swap_swap; auto).
      rewrite !X, SE, ST. auto. }
    destruct (spec_flip (mkCfg 0 0 0 true) W1 (fun _ => P1) H2) as (W2 & L1 & [E' K' _ V' F']).
    replace (tw (abs m1) e) with t in *. 2:{ destruct (E e) as [_ EE]. destruct (EE L) as (-> & _). auto. }
    split; auto. split; [|split].
    - intros x. destruct (E x) as [LX EX]. destruct (E' x) as [LX' EX']. split.
      + split; [congruence|]. intros LL. rewrite LL in LX. destruct (EX LL) as (A1 & A2 & A3 & A4).
        destruct (EX' LX) as (B1 & B2 & B3 & B4). rewrite B1, B2, B3, B4.
        destruct (E (swap e t x)) as [_ ES]. rewrite LS in ES. destruct (ES LL) as (_ & _ & C3 & C4).
        rewrite C3, C4, swap_swap. auto.
      + intros LL. rewrite LL in LX. destruct (K' x LX) as [-> ->].
        destruct (K (swap e t x)) as [-> ->]; [rewrite LS; auto|]. rewrite !swap_swap. auto.
    - intros v. destruct (V v) as [A1 A2]. destruct (V' v) as [B1 B2]. split; [congruence|]. intros Q.
      rewrite <- A2, B2; auto. congruence.
    - intros v. destruct (F v) as [A1 A2]. destruct (F' v) as [B1 B2]. split; [congruence|]. intros Q.
      rewrite <- A2, B2; auto. congruence.
  Qed.

  (** *** pair enumeration *)
  Lemma twin_edges_ok m : wf m ->
    exists l, twin_edges m = Ok l /\ NoDup (map fst l) /\
      (forall a b, In (a, b) l <-> lv (abs m) a = true /\ b = tw (abs m) a /\ a < b).
  Proof.
    intros Wm. destruct (wf_abs Wm) as [R W]. destruct Wm as (DE & _).
    set (fl := filter (fun p : nat * edge EP => negb (e_twin (snd p) <? fst p)) (d_iter (edges m))).
    exists (map (fun p => (fst p, e_twin (snd p))) fl).
    assert (FL : forall i x, In (i, x) fl <-> look (edges m) i = Some x /\ i <= e_twin x).
    { intros i x. unfold fl. rewrite filter_In, (iter_look DE). cbn [fst snd].
      rewrite negb_true_iff, Nat.ltb_ge. tauto. }
    assert (LK : forall i x, look (edges m) i = Some x -> lv (abs m) i = true /\ tw (abs m) i = e_twin x).
    { intros i x E. pose proof (r_e R i) as Q. rewrite E in Q. tauto. }
    split; [|split].
    - unfold twin_edges. fold fl. apply (@mapM_ok _ _ _ (fun p => (fst p, e_twin (snd p)))).
      intros [i x] I. apply FL in I as [I _]. destruct (LK _ _ I) as [L T]. cbn [fst snd].
      rewrite (r_chk R), <- T, (wf_tw W _ L). auto.
    - rewrite map_map. cbn [fst]. unfold fl.
      assert (ND := iter_ids_nodup DE). revert ND. generalize (d_iter (edges m)). clear.
      induction l as [|[i x] l IH]; cbn; intros ND; [constructor|]. inversion ND; subst.
      destruct (negb _); cbn; auto. constructor; auto. intros I. apply H1. apply in_map_iff in I as (p & <- & I).
      apply filter_In in I as [I _]. apply in_map; auto.
    - intros a b. rewrite in_map_iff. split.
      + intros ([i x] & E & I). cbn in E. injection E as <- <-. apply FL in I as [I LE]. destruct (LK _ _ I) as [L T].
        split; auto. split; auto. pose proof (wf_twne W L). lia.
      + intros (L & -> & LT). pose proof (r_e R a) as Q. destruct (look (edges m) a) as [x|] eqn:E; [|congruence].
        exists (a, x). destruct Q as (_ & _ & _ & -> & _). cbn. split; auto. apply FL. split; auto.
        destruct (LK _ _ E) as [_ <-]. lia.
  Qed.

  Lemma num_edges_ids m : wf m -> num_edges m = length (edge_ids m).
  Proof. intros (DE & _). unfold num_edges, edge_ids. rewrite (len_iter DE), map_length. cbn. lia. Qed.

  Lemma twin_edges_count m l : wf m -> twin_edges m = Ok l ->
    Permutation (edge_ids m) (map fst l ++ map snd l) /\ num_edges m = 2 * length l.
  Proof.
    intros Wm H. destruct (wf_abs Wm) as [R W]. destruct (twin_edges_ok Wm) as (l' & H' & ND & IN).
    rewrite H in H'. injection H' as <-.
    assert (PM : Permutation (edge_ids m) (map fst l ++ map snd l)).
    { apply NoDup_Permutation.
      - apply (iter_ids_nodup (proj1 Wm)).
      - apply nd_app; auto.
        + assert (E : map snd l = map (tw (abs m)) (map fst l)).
          { rewrite map_map. apply map_ext_in. intros [a b] I. apply IN in I as (_ & -> & _). auto. }
          rewrite E. clear E H. assert (X : forall x, In x (map fst l) -> lv (abs m) x = true).
          { intros x I. apply in_map_iff in I as ((a & b) & <- & I). apply IN in I. tauto. }
          induction (map fst l) as [|x k IH]; cbn; [constructor|]. inversion ND; subst. constructor.
          * intros I. apply in_map_iff in I as (y & E & I). assert (y = x); [|subst; auto].
            eapply (tw_inj W); eauto; apply X; cbn; auto.
          * apply IH; auto. intros; apply X; cbn; auto.
        + intros x I J. apply in_map_iff in I as ((a & b) & <- & I). apply in_map_iff in J as ((a' & b') & E & J).
          apply IN in I as (L & -> & LT). apply IN in J as (L' & -> & LT'). cbn [fst snd] in E. subst a. rewrite (wf_twtw W) in LT; auto. lia.
      - intros x. rewrite (in_edge_ids (proj1 Wm)), in_app_iff. split.
        + intros L. pose proof (wf_twne W L). destruct (Nat.lt_ge_cases x (tw (abs m) x)).
          * left. apply in_map_iff. exists (x, tw (abs m) x). split; auto. apply IN. auto.
          * right. apply in_map_iff. exists (tw (abs m) x, x). split; auto. apply IN.
            split; [apply W; auto|]. rewrite (wf_twtw W); auto. split; auto. lia.
        + intros [I|I]; apply in_map_iff in I as ((a & b) & <- & I); apply IN in I as (L & -> & _); auto. cbn [snd]. apply W; auto. }
    split; auto. rewrite (num_edges_ids Wm). apply Permutation_length in PM. rewrite PM, app_length, !map_length. lia.
  Qed.

  (** *** flipping the whole mesh *)
  Lemma renamed_ext s s' g g' : (forall x, lv g x = true -> lv g (s x) = true /\ lv g (nx g x) = true /\ lv g (pv g x) = true) ->
    (forall x, lv g x = true -> s x = s' x) -> renamed s g g' -> renamed s' g g'.
  Proof.
    intros LS H [E K L V F]. split; auto.
    - intros x. destruct (E x) as [A B]. split; auto. intros LX. destruct (B LX) as (? & ? & ? & ?). rewrite <- H by auto. auto.
    - intros x LX. destruct (K x LX). rewrite <- (H x), <- !H; auto; apply LS; apply LS; auto.
    - intros l [LL C]. rewrite <- (map_ext_in s s'); [|intros x I; apply H; apply LL; auto]. apply L. split; auto.
  Qed.

  Lemma renamed_trans s s' g g1 g2 : (forall x, lv g x = true -> lv g (s x) = true) ->
    (forall x, lv g x = true -> lv g (s' x) = true) ->
    (forall x, lv g x = true -> lv g (nx g x) = true /\ lv g (pv g x) = true) ->
    (forall x, lv g x = true -> s (s' x) = s' (s x)) ->
    renamed s g g1 -> renamed s' g1 g2 -> renamed (fun x => s (s' x)) g g2.
  Proof.
    intros L1 L2 LN CM [E K L V F] [E' K' L' V' F']. split.
    - intros x. destruct (E x) as [A1 A2]. destruct (E' x) as [B1 B2]. split; [congruence|]. intros LX.
      destruct (A2 LX) as (? & ? & ? & ?). rewrite LX in A1. destruct (B2 A1) as (-> & -> & -> & ->).
      destruct (E (s' x)) as [_ A3]. destruct (A3 (L2 _ LX)) as (_ & _ & -> & ->). auto.
    - intros x LX. destruct (E x) as [A1 _]. rewrite LX in A1. destruct (K' x A1) as [-> ->].
      destruct (K (s' x) (L2 _ LX)) as [-> ->]. split; symmetry; apply CM; apply LN, L1, L2; auto.
    - intros l HL. rewrite <- (map_ext_in (fun x => s' (s x))).
      + rewrite <- map_map. auto.
      + intros x I. symmetry. apply CM. apply HL; auto.
    - intros v. destruct (V v) as [A1 A2]. destruct (V' v) as [B1 B2]. split; [congruence|]. intros Q.
      rewrite <- A2, B2; auto. congruence.
    - intros v. destruct (F v) as [A1 A2]. destruct (F' v) as [B1 B2]. split; [congruence|]. intros Q.
      rewrite <- A2, B2; auto. congruence.
  Qed.

  Definition sig g (l : list nat) (x : nat) : nat := if mem x l || mem (tw g x) l then tw g x else x.

  Lemma sig_live g l x : WF g -> lv g x = true -> lv g (sig g l x) = true.
  Proof. intros W L. unfold sig. destruct (_ || _); auto. apply W; auto. Qed.
  Lemma sig_inv g l x : WF g -> lv g x = true -> sig g l (sig g l x) = x.
  Proof.
    intros W L. unfold sig at 2. destruct (mem x l || mem (tw g x) l) eqn:E; unfold sig.
    - rewrite (wf_twtw W _ L), orb_comm, E. auto.
    - rewrite E. auto.
  Qed.

  Lemma flip_list m ls done m1 : wf m -> wf m1 ->
    (forall e, lv (abs m) e = true -> nx (abs m) e <> e /\ nx (abs m) e <> tw (abs m) e) ->
    NoDup (done ++ ls) -> (forall x y, In x (done ++ ls) -> In y (done ++ ls) -> y <> tw (abs m) x) ->
    (forall x, In x (done ++ ls) -> lv (abs m) x = true) ->
    renamed (sig (abs m) done) (abs m) (abs m1) ->
    exists m2, foldM (fun m e => flip_edge m e) ls m1 = Ok m2 /\ wf m2 /\ renamed (sig (abs m) (done ++ ls)) (abs m) (abs m2).
  Proof.
    intros Wm. destruct (wf_abs Wm) as [R W]. set (g := abs m) in *.
    revert done m1. induction ls as [|e ls IH]; intros done m1 W1 NX ND NT LV RN; cbn [foldM].
    { rewrite app_nil_r. eauto. }
    assert (LE : lv g e = true) by (apply LV; apply in_app_iff; right; left; auto).
    assert (LT : lv g (tw g e) = true) by (apply W; auto).
    assert (NI : mem e done || mem (tw g e) done = false).
    { apply orb_false_iff. split; apply mem_out; intros I.
      - apply NoDup_remove_2 in ND. apply ND. apply in_app_iff; auto.
      - apply (NT e (tw g e)); auto; apply in_app_iff; [right; left|left]; auto. }
    assert (SE : sig g done e = e) by (unfold sig; rewrite NI; auto).
    assert (ST : sig g done (tw g e) = tw g e).
    { unfold sig. rewrite (wf_twtw W _ LE), orb_comm, NI. auto. }
    destruct (wf_abs W1) as [R1 WW1].
    destruct (rn_edges RN e) as [L1 E1]. rewrite LE in L1. destruct (E1 LE) as (T1 & _).
    assert (FL : flippable (abs m1) e).
    { unfold flippable. rewrite T1. destruct (rn_links RN LE) as [-> _]. destruct (rn_links RN LT) as [-> _].
      rewrite SE, ST.
      assert (X : forall a b, lv g a = true -> lv g b = true -> sig g done b = b -> sig g done a = b -> a = b).
      { intros a b La Lb Sb Sa. rewrite <- (sig_inv done W La), Sa. auto. }
      destruct (NX e LE) as [A1 A2]. destruct (NX _ LT) as [A3 A4]. rewrite (wf_twtw W _ LE) in A4.
      repeat split; intros Q; apply X in Q; auto; apply W; auto. }
    assert (TOT : exists m2, flip_edge m1 e = Ok m2).
    { destruct (f_flip_edge (c := mkCfg (length (slots (edges m1))) (length (slots (verts m1))) (length (slots (faces m1))) true)
        (a := 0) (b := 0) (d := 0) R1 WW1 L1) as (m2 & E & _); eauto.
      unfold room, spare. cbn. repeat split; auto; lia. }
    destruct TOT as (m2 & H). rewrite H. cbn [bind].
    destruct (spec_flip (mkCfg 0 0 0 true) W1 (fun _ => FL) H) as (W2 & _ & RN2). rewrite T1 in RN2.
    specialize (IH (done ++ [e]) m2 W2 NX). rewrite <- app_assoc in IH. cbn [app] in IH. apply IH; auto.
    eapply renamed_ext; [| |eapply renamed_trans; [..|exact RN|exact RN2]].
    - intros x LX. cbn beta. split; [|split; apply W; auto]. apply sig_live; auto. unfold swap.
      destruct (Nat.eqb_spec x e); [subst; auto|]. destruct (Nat.eqb_spec x (tw g e)); auto.
    - intros x LX. cbn beta. unfold swap. destruct (Nat.eqb_spec x e) as [->|N1].
      + rewrite ST. unfold sig. replace (mem e (done ++ [e])) with true; auto. symmetry. apply mem_in, in_app_iff. right; left; auto.
      + destruct (Nat.eqb_spec x (tw g e)) as [->|N2].
        * rewrite SE. unfold sig. rewrite (wf_twtw W _ LE). replace (mem e (done ++ [e])) with true; [rewrite orb_true_r; auto|].
          symmetry. apply mem_in, in_app_iff. right; left; auto.
        * unfold sig. replace (mem x (done ++ [e])) with (mem x done).
          -- replace (mem (tw g x) (done ++ [e])) with (mem (tw g x) done); auto.
             apply eq_true_iff_eq. rewrite !mem_in, in_app_iff. cbn. split; auto. intros [?|[Q|[]]]; auto.
             exfalso. apply N2. rewrite Q. symmetry. apply W; auto.
          -- apply eq_true_iff_eq. rewrite !mem_in, in_app_iff. cbn. split; auto. intros [?|[Q|[]]]; auto. congruence.
    - intros x LX. apply sig_live; auto.
    - intros x LX. unfold swap. destruct (Nat.eqb_spec x e); [subst; auto|]. destruct (Nat.eqb_spec x (tw g e)); auto.
    - intros x LX. split; apply W; auto.
    - intros x LX. unfold swap at 1. destruct (Nat.eqb_spec x e) as [->|N1].
      + rewrite ST, SE. symmetry. apply swp_l.
      + destruct (Nat.eqb_spec x (tw g e)) as [->|N2].
        * rewrite ST, SE. symmetry. apply swp_r.
        * symmetry. apply swp_o; intros Q.
          -- apply N1. rewrite <- (sig_inv done W LX), Q. auto.
          -- apply N2. rewrite <- (sig_inv done W LX), Q. auto.
  Qed.

  Lemma flip_all_ok m : wf m ->
    (forall e, lv (abs m) e = true -> nx (abs m) e <> e /\ nx (abs m) e <> tw (abs m) e) ->
    exists m', flip_all m = Ok m' /\ wf m' /\ renamed (tw (abs m)) (abs m) (abs m').
  Proof.
    intros Wm NX. destruct (wf_abs Wm) as [R W]. destruct (twin_edges_ok Wm) as (l & E & ND & IN).
    unfold flip_all. rewrite E. cbn [bind].
    destruct (@flip_list m (map fst l) [] m Wm Wm NX) as (m' & F & W' & RN).
    - exact ND.
    - intros x y I J. cbn in I, J. apply in_map_iff in I as ((a & b) & <- & I). apply in_map_iff in J as ((a' & b') & <- & J).
      apply IN in I as (L & -> & LT). apply IN in J as (L' & -> & LT'). cbn [fst]. intros ->. rewrite (wf_twtw W _ L) in LT'. lia.
    - intros x I. cbn in I. apply in_map_iff in I as ((a & b) & <- & I). apply IN in I. tauto.
    - assert (S : forall x, sig (abs m) [] x = x) by (intros; reflexivity).
      split; intros; rewrite ?S; repeat split; auto.
      + intros x I. rewrite (map_ext _ _ S), map_id in I. apply H; auto.
      + rewrite (map_ext _ _ S), map_id. apply H.
    - exists m'. split; auto. split; auto. eapply renamed_ext; [| |exact RN].
      + intros x L. split; [apply sig_live; auto|]. split; apply W; auto.
      + intros x L. unfold sig. cbn [app]. replace (_ || _) with true; auto. symmetry. apply orb_true_iff. rewrite !mem_in.
        pose proof (wf_twne W L). destruct (Nat.lt_ge_cases x (tw (abs m) x)).
        * left. apply in_map_iff. exists (x, tw (abs m) x). split; auto. apply IN. auto.
        * right. apply in_map_iff. exists (tw (abs m) x, x). split; auto. apply IN.
          split; [apply W; auto|]. rewrite (wf_twtw W); auto. split; auto. lia.
  Qed.

  (** *** size hints *)
  Lemma size_hint_loop_ok m g first cur l : rep m [] [] [] g -> WF g ->
    chain (nx g) cur l -> nx g (last l cur) = first -> ~ In first l ->
    (forall x, In x (cur :: l) -> lv g x = true) ->
    forall n fl, length l < fl -> size_hint_loop m first cur n fl = Ok (n + length l).
  Proof.
    intros R W. revert cur. induction l as [|z l IH]; intros cur C L NI LV n fl HF.
    - destruct fl; [cbn in HF; lia|]. cbn [size_hint_loop]. rewrite (next_step R W) by (apply LV; left; auto). cbn [bind].
      cbn in L. rewrite L, Nat.eqb_refl. cbn. f_equal. lia.
    - destruct fl; [cbn in HF; lia|]. cbn in HF. cbn [size_hint_loop]. rewrite (next_step R W) by (apply LV; left; auto). cbn [bind].
      destruct C as [-> C]. rewrite last_cons in L. destruct (Nat.eqb_spec z first); [subst; exfalso; apply NI; left; auto|].
      rewrite IH; auto; try lia. + cbn. f_equal; lia. + intros H; apply NI; right; auto. + intros x I; apply LV; right; auto.
  Qed.

  (** Running the iterator [k] times. *)
  Fixpoint it_advance m (it : fwd_iter) (k : nat) : res (list (option nat) * fwd_iter) :=
    match k with
    | 0 => Ok ([], it)
    | S k => let* (o, it1) := it_next m it in let* (l, it2) := it_advance m it1 k in Ok (o :: l, it2)
    end.

  Lemma it_advance_rest m g first cur l1 l2 : rep m [] [] [] g -> WF g ->
    chain (nx g) cur (l1 ++ l2) -> nx g (last (l1 ++ l2) cur) = first -> ~ In first (l1 ++ l2) ->
    (forall x, In x (cur :: l1 ++ l2) -> lv g x = true) ->
    it_advance m (mkIt false first cur) (length l1) = Ok (map Some l1, mkIt false first (last l1 cur)).
  Proof.
    intros R W. revert cur. induction l1 as [|z l IH]; intros cur C L NI LV; [reflexivity|].
    cbn [length it_advance]. unfold it_next at 1. cbn [it_is_first it_current it_first].
    rewrite (next_step R W) by (apply LV; left; auto). cbn [bind].
    cbn [app chain] in C. destruct C as [-> C]. cbn [app] in L. rewrite last_cons in L.
    destruct (Nat.eqb_spec z first); [subst; exfalso; apply NI; left; auto|]. cbn [bind].
    rewrite IH; auto. + cbn [bind map]. rewrite last_cons. auto. + intros H; apply NI; right; auto. + intros x I; apply LV; right; auto.
  Qed.

  Lemma size_hint_ok m e l1 l2 : wf m -> loop (abs m) (e :: l1 ++ l2) ->
    it_size_hint m (it_new e) = Ok (length (e :: l1 ++ l2)) /\
    it_advance m (it_new e) (S (length l1)) = Ok (map Some (e :: l1), mkIt false e (last l1 e)) /\
    it_size_hint m (mkIt false e (last l1 e)) = Ok (S (length l2)).
  Proof.
    intros Wm [LV C]. destruct (wf_abs Wm) as [R W]. rewrite is_cycle_cons in C. destruct C as (ND & C & L).
    assert (NI : ~ In e (l1 ++ l2)) by (inversion ND; auto).
    assert (FU : length (e :: l1 ++ l2) <= fuel m) by (apply (cycle_fuel R); auto).
    cbn [length] in FU. rewrite app_length in FU.
    split; [|split].
    - unfold it_size_hint, it_new. cbn [it_first it_current].
      rewrite (size_hint_loop_ok R W C L NI LV). + reflexivity. + rewrite app_length. lia.
    - cbn [it_advance]. unfold it_next at 1, it_new. cbn [it_is_first it_current it_first bind].
      rewrite (it_advance_rest R W C L NI LV). reflexivity.
    - unfold it_size_hint. cbn [it_first it_current].
      apply chain_app' in C as [C1 C2]. rewrite last_app' in L.
      rewrite (size_hint_loop_ok R W C2 L); auto.
      + intros I. apply NI. apply in_app_iff; auto.
      + intros x [<-|I]; apply LV. * destruct (last_in l1 e) as [Q|Q]; [left; auto|right; apply in_app_iff; auto].
        * right. apply in_app_iff; auto.
      + lia.
  Qed.

  Lemma face_num_edges_ok m f l : wf m -> lvf (abs m) f = true -> loop (abs m) (fe (abs m) f :: l) ->
    face_num_edges m f = Ok (length (fe (abs m) f :: l)) /\ face_edges m f = Ok (fe (abs m) f :: l).
  Proof.
    intros Wm LF LP. destruct (wf_abs Wm) as [R W]. unfold face_num_edges, face_edges.
    destruct (r_face_live R _ LF) as (x & -> & FE & _). cbn [bind]. rewrite <- FE.
    destruct (wf_fe W _ LF) as [LE _]. rewrite (r_chk R), LE.
    destruct (@size_hint_ok m _ [] l Wm LP) as (H & _). split; [exact H|]. apply (edges_face_ok R W); auto. apply LP.
  Qed.
End MP2.
