(** [pair_edges] lists every edge once. *)
From Coq Require Import List Arith Lia Bool Permutation Sorting.Sorted.
From Verif Require Import Base DVec DVecFacts Mesh Spec Rep MeshMore MeshSpec MeshProofs NetProofs Winged WingedSpec.
Import ListNotations.
Set Implicit Arguments.
Unset Strict Implicit.
Local Arguments abs : simpl never.

Section WingedProofs.
  Context {VP EP FP : Type}.
  Notation mesh := (mesh VP EP FP).
  Implicit Types m : mesh.

  Definition wing m (e : nat) : winged := let g := abs m in let t := tw g e in
    mkW e t (og g e) (og g t) (pv g e) (fc g e) (nx g e) (pv g t) (fc g t) (nx g t).
  Definition small m (e : nat) : bool := e <? tw (abs m) e.

  Lemma filter_all {A} (f : A -> bool) l : (forall x, In x l -> f x = true) -> filter f l = l.
  Proof. induction l as [|a l IH]; cbn; intros H; auto. rewrite (H a) by auto. rewrite IH; auto. Qed.
  (** ids come in increasing order *)
  Lemma ids_sorted m : wf m -> StronglySorted lt (edge_ids m).
  Proof.
    intros (OE & _). unfold edge_ids. rewrite (iter_ids OE).
    generalize (fun i => d_has (edges m) i). intros f. generalize (length (slots (edges m))) at 1. intros n.
    generalize 0. induction n as [|n IH]; intros k; cbn [seq filter]; [constructor|].
    destruct (f k); [|apply IH]. constructor; [apply IH|]. apply Forall_forall. intros x I. apply filter_In in I as [I _]. apply in_seq in I. lia.
  Qed.

  Lemma pair_step m h i x : wf m -> In (i, x) (d_iter (edges m)) -> forall done, 
    h = map (fun e => (e, wing m e)) (filter (small m) done) -> (forall e, lv (abs m) e = true -> e < i -> In e done) -> (forall e, In e done -> e < i) ->
    pair_edge m h (i, x) = Ok (map (fun e => (e, wing m e)) (filter (small m) (done ++ [i]))).
  Proof.
    intros Wm I done H BEF LT. destruct (wf_abs Wm) as [R W]. pose proof (proj1 Wm) as OE.
    assert (LK : look (edges m) i = Some x) by (apply (iter_look OE); auto).
    assert (Li : lv (abs m) i = true). { apply (edge_ids_live i Wm). unfold edge_ids. apply in_map_iff. exists (i, x). auto. }
    destruct (r_edge_live R i Li) as (x' & X & NX & PV & TW & OG & FC & _).
    assert (x' = x) as ->. { unfold m_edge in X. rewrite get_look, LK in X. cbn in X. injection X as ->. reflexivity. }
    assert (Lt : lv (abs m) (tw (abs m) i) = true) by (apply (wf_tw W); auto).
    destruct (r_edge_live R _ Lt) as (t & T & NX2 & PV2 & TW2 & OG2 & FC2 & _).
    assert (ID : d_id (edges m) (e_twin x) = Ok (e_twin x)).
    { rewrite TW in T. unfold m_edge, d_get in T. unfold d_id. destruct (nth_error (slots (edges m)) (e_twin x)) as [[[k y]|]|] eqn:N; try discriminate T.
      rewrite (ok_id OE _ N). reflexivity. }
    unfold pair_edge. rewrite <- TW, T. cbn [bind]. rewrite TW, ID. cbn [bind]. rewrite <- TW.
    rewrite filter_app. cbn [filter]. unfold small at 2.
    assert (EX : existsb (fun p => fst p =? tw (abs m) i) h = negb (i <? tw (abs m) i)).
    { destruct (i <? tw (abs m) i) eqn:Q; cbn [negb].
      - apply Nat.ltb_lt in Q. destruct (existsb _ h) eqn:E; auto. exfalso. apply existsb_exists in E as ((k & w) & J & K). cbn in K. apply Nat.eqb_eq in K. rewrite H in J.
        apply in_map_iff in J as (e & J & M). injection J as J _. apply filter_In in M as [M _]. apply LT in M. lia.
      - apply Nat.ltb_ge in Q. pose proof (wf_twne W Li). apply existsb_exists. exists (tw (abs m) i, wing m (tw (abs m) i)). split; [|cbn; apply Nat.eqb_refl].
        subst h. apply in_map_iff. exists (tw (abs m) i). split; auto. apply filter_In. split; [apply BEF; auto; lia|].
        unfold small. rewrite (wf_twtw W) by auto. apply Nat.ltb_lt. lia. }
    rewrite EX. destruct (i <? tw (abs m) i); cbn [negb].
    - rewrite map_app. cbn [map]. f_equal. f_equal.
      + subst h. apply filter_all. intros (k & w) J. cbn. apply in_map_iff in J as (e & J & K). injection J as -> _.
        apply filter_In in K as [K _]. apply LT in K. apply negb_true_iff, Nat.eqb_neq. lia.
      + unfold wing. rewrite NX, PV, OG, FC, NX2, PV2, OG2, FC2. reflexivity.
    - rewrite app_nil_r. subst h. reflexivity.
  Qed.
  Lemma pair_fold m : wf m -> forall todo done, map fst (d_iter (edges m)) = done ++ map fst todo -> (forall p, In p todo -> In p (d_iter (edges m))) ->
    foldM (fun h ix => pair_edge m h ix) todo (map (fun e => (e, wing m e)) (filter (small m) done)) =
    Ok (map (fun e => (e, wing m e)) (filter (small m) (edge_ids m))).
  Proof.
    intros Wm. pose proof (ids_sorted Wm) as S. unfold edge_ids in *.
    induction todo as [|(i, x) todo IH]; intros done E IN; cbn [foldM].
    - cbn in E. rewrite app_nil_r in E. rewrite E. reflexivity.
    - rewrite E in S. cbn [map fst] in *.
      assert (P : forall e, In e done -> e < i).
      { intros e I. clear -S I. induction done as [|a done IH]; [destruct I|]. cbn in S. inversion S as [|? ? S1 F]; subst.
        destruct I as [->|I]; [|apply IH; auto]. rewrite Forall_forall in F. apply F, in_or_app. right. left. auto. }
      rewrite (pair_step (h := map (fun e => (e, wing m e)) (filter (small m) done)) Wm (IN _ (or_introl eq_refl)) (done := done)); auto.
      + cbn [bind]. apply IH; [rewrite <- app_assoc; exact E|]. intros p I. apply IN. right; auto.
      + intros e Le Q. apply (edge_ids_live e Wm) in Le. unfold edge_ids in Le. rewrite E in Le. apply in_app_or in Le as [Le|Le]; auto.
        exfalso. clear -S Le Q. induction done as [|a done IH]; cbn in S; inversion S as [|? ? S1 F]; subst; [|auto].
        destruct Le as [->|Le]; [lia|]. rewrite Forall_forall in F. apply F in Le. lia.
  Qed.

  (** ** sorting *)
  Definition by_id (a b : winged) : Prop := w_id a < w_id b.
  Lemma insert_perm w l : Permutation (w :: l) (insert_winged w l).
  Proof.
    induction l as [|a l IH]; cbn; auto. destruct (w_id w <=? w_id a); auto. rewrite perm_swap. constructor. exact IH.
  Qed.
  Lemma insert_sorted w l : StronglySorted by_id l -> (forall a, In a l -> w_id a <> w_id w) -> StronglySorted by_id (insert_winged w l).
  Proof.
    induction l as [|a l IH]; intros S N; cbn; [repeat constructor|]. inversion S as [|? ? S1 F]; subst.
    destruct (w_id w <=? w_id a) eqn:Q.
    - apply Nat.leb_le in Q. constructor; auto. assert (w_id w < w_id a) by (specialize (N a (or_introl eq_refl)); lia).
      constructor; [exact H|]. rewrite Forall_forall in *. intros b I. specialize (F b I). unfold by_id in *. lia.
    - apply Nat.leb_gt in Q. constructor; [apply IH; auto; intros b I; apply N; right; auto|].
      rewrite Forall_forall in *. intros b I. apply (Permutation_in _ (Permutation_sym (insert_perm w l))) in I as [<-|I]; [exact Q|auto].
  Qed.
  Lemma sort_perm l : Permutation l (fold_right insert_winged [] l).
  Proof. induction l as [|w l IH]; cbn; auto. rewrite <- insert_perm. constructor. exact IH. Qed.
  Lemma sort_sorted l : NoDup (map w_id l) -> StronglySorted by_id (fold_right insert_winged [] l).
  Proof.
    induction l as [|w l IH]; cbn; intros N; [constructor|]. inversion N as [|? ? N0 N1]; subst. apply insert_sorted; auto.
    intros a I E. apply N0. rewrite <- E. apply in_map. apply (Permutation_in _ (Permutation_sym (sort_perm l))). exact I.
  Qed.

  Theorem pair_edges_ok values m : (forall h, Permutation h (values h)) -> wf m ->
    exists l, pair_edges values m = Ok l /\ lists_all_edges (abs m) l /\ 2 * length l = length (edge_ids m).
  Proof.
    intros PV Wm. destruct (wf_abs Wm) as [R W]. unfold pair_edges.
    pose proof (pair_fold Wm (todo := d_iter (edges m)) (done := []) eq_refl (fun p I => I)) as F. cbn [filter map] in F. rewrite F. cbn [bind].
    set (ws := map (wing m) (filter (small m) (edge_ids m))).
    assert (PM : Permutation ws (map snd (values (map (fun e => (e, wing m e)) (filter (small m) (edge_ids m)))))).
    { rewrite <- PV. rewrite map_map. cbn. apply Permutation_refl. }
    assert (ND : NoDup (map w_id ws)).
    { unfold ws. rewrite map_map. cbn. rewrite map_id. apply NoDup_filter, edge_ids_nodup; auto. }
    eexists. split; [reflexivity|].
    assert (IN : forall w, In w (fold_right insert_winged [] (map snd (values (map (fun e => (e, wing m e)) (filter (small m) (edge_ids m)))))) <-> In w ws).
    { intros w. split; intros I.
      - apply (Permutation_in _ (Permutation_sym (sort_perm _))) in I. apply (Permutation_in _ (Permutation_sym PM)). exact I.
      - apply (Permutation_in _ (sort_perm _)). apply (Permutation_in _ PM). exact I. }
    split; [split; [|split]|].
    - intros w I. apply IN in I. unfold ws in I. apply in_map_iff in I as (e & <- & I). apply filter_In in I as [I J].
      apply (edge_ids_live e Wm) in I. split; [repeat split; auto|]. apply Nat.ltb_lt. exact J.
    - intros e Le. pose proof (wf_twne W Le).
      destruct (Nat.lt_ge_cases e (tw (abs m) e)) as [Q|Q].
      + exists (wing m e). split; [|left; reflexivity]. apply IN, in_map, filter_In. split; [apply (edge_ids_live e Wm); auto|apply Nat.ltb_lt; auto].
      + exists (wing m (tw (abs m) e)). split; [|right; cbn; apply (wf_twtw W); auto]. apply IN, in_map, filter_In.
        split; [apply (edge_ids_live _ Wm), (wf_tw W); auto|]. unfold small. rewrite (wf_twtw W) by auto. apply Nat.ltb_lt. lia.
    - apply sort_sorted. eapply Permutation_NoDup; [|exact ND]. apply Permutation_map. exact PM.
    - rewrite <- (Permutation_length (sort_perm _)), <- (Permutation_length PM). unfold ws. rewrite map_length.
      set (k := filter (small m) (edge_ids m)).
      assert (P : Permutation (edge_ids m) (k ++ map (tw (abs m)) k)).
      { assert (LK : forall e, In e k <-> lv (abs m) e = true /\ e < tw (abs m) e).
        { intros e. unfold k. rewrite filter_In. rewrite (edge_ids_live e Wm). unfold small. rewrite Nat.ltb_lt. tauto. }
        apply NoDup_Permutation.
        - apply edge_ids_nodup; auto.
        - assert (NK : NoDup k) by (apply NoDup_filter, edge_ids_nodup; auto).
          assert (NT : NoDup (map (tw (abs m)) k)).
          { clear -NK LK W. assert (A : forall x y, In x k -> In y k -> tw (abs m) x = tw (abs m) y -> x = y).
            { intros x y X Y E. apply LK in X as [X _], Y as [Y _]. rewrite <- (wf_twtw W x X), <- (wf_twtw W y Y), E. auto. }
            clear LK. induction NK as [|a l N NK IH]; cbn; constructor.
            - intros I. apply in_map_iff in I as (y & E & I). apply N. rewrite (A a y); auto; [left|right]; auto.
            - apply IH. intros x y X Y. apply A; right; auto. }
          assert (DJ : forall x, In x k -> ~ In x (map (tw (abs m)) k)).
          { intros x X Y. apply in_map_iff in Y as (y & E & Y). apply LK in X as [X1 X2], Y as [Y1 Y2]. rewrite <- E, (wf_twtw W y Y1) in X2. lia. }
          clear -NK NT DJ. induction NK as [|a l N NK IH] in NT, DJ |- *.
          + cbn. constructor.
          + revert NT DJ. generalize (map (tw (abs m)) (a :: l)). intros z NT DJ. cbn. constructor.
            * intros I. apply in_app_or in I as [I|I]; [auto|]. apply (DJ a); [left; auto|exact I].
            * clear -NK NT DJ. assert (D2 : forall x, In x l -> ~ In x z) by (intros x I; apply DJ; right; auto). clear DJ.
              induction NK as [|b l N NK IH]; cbn; auto. constructor; [|apply IH; intros x I; apply D2; right; auto].
              intros I. apply in_app_or in I as [I|I]; [auto|]. apply (D2 b); [left; auto|exact I].
        - intros e. rewrite in_app_iff, in_map_iff. setoid_rewrite LK. rewrite (edge_ids_live e Wm). split.
          + intros Le. pose proof (wf_twne W Le). destruct (Nat.lt_ge_cases e (tw (abs m) e)) as [Q|Q]; [auto|].
            right. exists (tw (abs m) e). split; [apply (wf_twtw W); auto|]. split; [apply (wf_tw W); auto|]. rewrite (wf_twtw W) by auto. lia.
          + intros [[Le _]|(y & <- & Ly & _)]; auto. apply (wf_tw W); auto. }
      rewrite (Permutation_length P), app_length, map_length. lia.
  Qed.
End WingedProofs.
